(** Model of processors made from a cluster expansion: smol/moca/ensemble.py:132-206, and of predictions of a cluster expansion:
    smol/cofe/expansion.py:259-288. *)
From Verif Require Export Subspace Ewald Matching.
Set Implicit Arguments.
Open Scope nat_scope.

(** The argument [processor_type]: "decomposition", "expansion", or any other string. *)
Inductive proc_type := Decomposition | Expansion | Other_type.
(** An expansion: its subspace, coefficients, and the matrices of its external terms for one supercell.
    Every external term is an [EwaldTerm] (the only class of them in the code); its matrix for a supercell comes from pymatgen. *)
Record expansion := mkExp { x_sub : subspace; x_coefs : list Qc; x_terms : list (nat -> nat -> Qc) }.
(** A processor: a single one, or a composite (processor/composite.py:40-84) of a list. *)
Inductive processor := Single (p : part) | Composite (ps : list part).
(** [get_ewald_structure] of the supercell with the species [allowed] at its sites, extern/ewald.py:65-99. *)
Definition ewald_table (allowed : list (list specie)) : list (list Z) * nat := ewald_structure (map (map is_vacancy) allowed).
(** The cluster part: [ClusterDecompositionProcessor] with the multiplicities of orbits as coefficients (processor/expansion.py:283-301), or
    [ClusterExpansionProcessor] with the coefficients given (lines 92-100, which raises for a wrong number of them). *)
Definition cluster_part (P : proc) (st : subspace) (t : proc_type) (coefs : list Qc) : option part :=
  match t with
  | Decomposition => Some (cd_part P (map Qc_of_nat (orbit_multiplicities (sub_orbits st))))
  | Expansion => if length coefs =? sub_ncorr st then Some (ce_part P coefs) else None
  | Other_type => None
  end.
(** [from_cluster_expansion] up to the constructor of the ensemble, ensemble.py:162-206; [size]: number of cells of the supercell, [tables]: the orbit indices of it.
    The first external term is used with the last coefficient. *)
Definition processor_of (x : expansion) (size : nat) (tables : list ctable) (allowed : list (list specie)) (t : proc_type) : option processor :=
  let? P := expansion_proc size (x_sub x) tables (x_coefs x) (length (x_terms x)) in
  match x_terms x with
  | [] => let? p := cluster_part P (x_sub x) t (x_coefs x) in Some (Single p)
  | M :: _ =>
      let? p := cluster_part P (x_sub x) t (removelast (x_coefs x)) in
      Some (Composite [p; ewald_part (snd (ewald_table allowed)) M (fst (ewald_table allowed)) (last (x_coefs x) (Q2Qc 0))])
  end.
(** [compute_property] and [compute_property_change] of either kind, processor/base.py:155-178, composite.py:86-111. *)
Definition property_of (p : processor) (occu : list nat) : option Qc :=
  match p with Single q => part_property q occu | Composite ps => composite_property ps occu end.
Definition property_change_of (p : processor) (occu : list nat) (flips : list (nat * nat)) : option Qc :=
  match p with Single q => part_property_change q occu flips | Composite ps => composite_property_change ps occu flips end.
(** [value_from_occupancy] of an Ewald term, extern/ewald.py:131-156: an array of one value. *)
Definition ewald_value (allowed : list (list specie)) (M : nat -> nat -> Qc) (occu : list nat) : list Qc :=
  match ew_feature (snd (ewald_table allowed)) M (fst (ewald_table allowed)) occu with Some e => [e] | None => [] end.
(** [predict], expansion.py:259-288.  An occupancy that the evaluator can not read gives no correlations here. *)
Definition predict (x : expansion) (size : nat) (tables : list ctable) (allowed : list (list specie)) (normalized : bool) (str : list specie) (mapping : list nat) : option Qc :=
  let? ds := opt_map orbit_data (sub_orbits (x_sub x)) in
  let ev := mkEval ds (sub_norb (x_sub x)) (sub_ncorr (x_sub x)) (Q2Qc 0) [] in
  let evaluate := fun occu => match correlations ev occu tables with Some v => v | None => [] end in
  let? corr := corr_from_structure evaluate (map (ewald_value allowed) (x_terms x)) size normalized allowed str mapping in
  np_dot (x_coefs x) corr.
