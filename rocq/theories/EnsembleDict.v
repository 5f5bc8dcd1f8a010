(** Model of dictionaries of ensembles and sublattices: smol/moca/ensemble.py:384-417, smol/moca/sublattice.py:197-223. *)
From Verif Require Export Ensemble.
Set Implicit Arguments.
Open Scope nat_scope.

(** A sublattice's dictionary with its site space: see [sl_as_dict] and [sl_from_dict]. *)
Definition sl_dict := (site_space * (list nat * list nat * list nat))%type.
Definition sl_save (sl : sublattice) : sl_dict := (sl_space sl, sl_as_dict sl).
Definition sl_load (d : sl_dict) : sublattice := sl_from_dict (fst d) (snd d).
(** [Ensemble.as_dict], ensemble.py:384-398.  The processor is taken as it is (its dictionary belongs to its own claims);
    [thermo_boundaries] holds the chemical potentials set last, or none; its keys become strings, which [get_species] reads back as the same species. *)
Record ens_dict := mkEnsDict { ed_coefs : list Qc; ed_feat : list nat -> list Qc; ed_dfeat : list nat -> step -> list Qc; ed_nsites : nat;
  ed_sls : list sl_dict; ed_mu : option (list (species * Qc)) }.
Definition ens_as_dict (e : ensemble) : ens_dict :=
  mkEnsDict (e_coefs e) (e_feat e) (e_dfeat e) (e_sites e) (map sl_save (e_sls e)) (option_map fst (e_mu e)).
(** [Ensemble.from_dict], ensemble.py:400-417. *)
Definition ens_from_dict (d : ens_dict) : option ensemble :=
  let? e := mk_ensemble (ed_coefs d) (ed_feat d) (ed_dfeat d) (ed_nsites d) (map sl_load (ed_sls d)) None in
  match ed_mu d with None => Some e | Some v => assign_mu e (Some v) end.
