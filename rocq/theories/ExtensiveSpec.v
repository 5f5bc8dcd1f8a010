(** Specification for C98: occupancies of different supercells that describe the same arrangement of species on the crystal. *)
From Verif Require Export SymmetrySpec.
Set Implicit Arguments.
Unset Strict Implicit.
Local Open Scope Qc_scope.

Section Spec.
Variables (dim : nat) (sites : list (list Qc)).
(** Every vector of the second supercell is a vector of the first one. *)
Definition multiple_of (M M' : list (list Z)) : Prop := forall t, length t = dim -> exists u, length u = dim /\ svec dim M' t = svec dim M u.
(** Both occupancies have the same species on every site of the crystal. *)
Definition same_arrangement (M : list (list Z)) (Minv : list (list Qc)) (occu : list nat) (M' : list (list Z)) (Minv' : list (list Qc)) (occu' : list nat) : Prop :=
  forall x j k, site dim sites x -> located dim sites M Minv j x -> located dim sites M' Minv' k x -> nth_error occu' k = nth_error occu j.
(** The second occupancy has on the image of every site, under an operation followed by a lattice translation, the species that the first one has on the site. *)
Definition moved_arrangement (h : symop) (tau : list Z) (M : list (list Z)) (Minv : list (list Qc)) (occu : list nat) (M' : list (list Z)) (Minv' : list (list Qc)) (occu' : list nat) : Prop :=
  forall x j k, site dim sites x -> located dim sites M Minv j x -> located dim sites M' Minv' k (shift (operate h x) tau) -> nth_error occu' k = nth_error occu j.
End Spec.
(** An orbit of a subspace with its site indices in two supercells: made from a cluster of the crystal; some of its functions may have been removed. *)
Definition built_in_both (dim : nat) (tol : Qc) (sites : list (list Qc)) (ops : list symop) (M : list (list Z)) (Minv : list (list Qc)) (M' : list (list Z)) (Minv' : list (list Qc))
  (nbits : list nat) (fb : nat -> list (list Qc)) (so : sorbit) (rows : ctable * ctable) : Prop :=
  exists ks A o p cs, site_cluster dim sites A /\ Forall2 (is_site dim sites) ks A /\ mk_orbit dim ks A = Some o /\ orbit_parts dim tol ops (g_base o) = Some p /\
    index_rows dim tol sites M Minv (o_clusters p) = Some (fst rows) /\ index_rows dim tol sites M' Minv' (o_clusters p) = Some (snd rows) /\
    gen_combos (g_bits nbits o) (o_perms p) = Some cs /\ s_basis so = map fb ks /\ incl (s_combos so) cs.
