(** Boltzmann weights of training structures (smol/cofe/wrangling/tools.py). *)
From Verif Require Export Duplicates RLib.
Set Implicit Arguments.
Local Open Scope R_scope.

(** [weights_energy_above_composition], tools.py:125-140; [kB] is smol/constants.py.  The energies
    above hull of tools.py:143-189 come from pymatgen and are an input of the same formula. *)
Definition boltzmann (kB temperature : R) (e_above : list Qc) : list R :=
  map (fun e => exp (- Qc2R e / (kB * temperature))) e_above.
Definition weights_above_composition (kB temperature : R) (energies : list Qc) (sizes comps : list nat) : list R :=
  boltzmann kB temperature (energies_above energies sizes comps).
