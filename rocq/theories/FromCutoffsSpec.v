(** Specification for C99: subspaces made from cutoffs, cut down, and used in a supercell. *)
From Verif Require Export FromCutoffs SymmetrySpec.
Set Implicit Arguments.
Unset Strict Implicit.
Local Open Scope nat_scope.

(** [st] is what is left of [st0] after removals of orbits and functions; cluster tables may have been made in between. *)
Definition no_bases (x : sub_op) : Prop := match x with OBases _ => False | _ => True end.
Definition trimmed (gen : scmatrix -> nat -> ctable) (st0 st : subspace) : Prop :=
  exists xs, Forall no_bases xs /\ st = fold_left (run_op gen) xs st0.
(** The number of sites of a supercell. *)
Definition num_sites (dim : nat) (sites : list (list Qc)) (M : list (list Z)) (Minv : list (list Qc)) : nat := length (supercell_coords dim Minv sites (frac_points dim M Minv)).
(** Flips to species that the sites can have, of sites for which [ok] holds. *)
Definition allowed (dim : nat) (sites : list (list Qc)) (M : list (list Z)) (Minv : list (list Qc)) (nspecies : nat -> nat) (ok : nat -> Prop) (flips : step) : Prop :=
  forall s c, In (s, c) flips -> ok s /\ exists x i, is_site dim sites i x /\ located dim sites M Minv s x /\ c < nspecies i.
