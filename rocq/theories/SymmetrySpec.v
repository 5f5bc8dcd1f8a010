(** Specification for C92: symmetry operations of a supercell acting on occupancies. *)
From Verif Require Export OrbitIndicesSpec.
Set Implicit Arguments.
Unset Strict Implicit.
Local Open Scope Qc_scope.

Section Spec.
Variables (dim : nat) (sites : list (list Qc)) (M : list (list Z)) (Minv : list (list Qc)) (ops : list symop).
Notation svec := (svec dim M).
(** The operation maps the vectors of the supercell onto themselves. *)
Definition keeps_supercell (h : symop) : Prop :=
  (forall t, length t = dim -> exists u, length u = dim /\ forall x, site dim sites x -> operate h (shift x (svec t)) = shift (operate h x) (svec u)) /\
  (forall u, length u = dim -> exists t, length t = dim /\ forall x, site dim sites x -> operate h (shift x (svec t)) = shift (operate h x) (svec u)).
(** [occu'] is [occu] moved by the operation and then by a lattice vector. *)
Definition carried (h : symop) (tau : list Z) (occu occu' : list nat) : Prop :=
  forall x j k, site dim sites x -> located dim sites M Minv j x -> located dim sites M Minv k (shift (operate h x) tau) -> nth_error occu' k = nth_error occu j.
(** [occu'] is [occu] moved by a lattice vector. *)
Definition translated (tau : list Z) (occu occu' : list nat) : Prop :=
  forall x j k, site dim sites x -> located dim sites M Minv j x -> located dim sites M Minv k (shift x tau) -> nth_error occu' k = nth_error occu j.
(** Site functions of the sites of the prim structure: arrays with one row per function and one column per species; sites that the operations exchange have the same. *)
Record site_functions (fb : nat -> list (list Qc)) (nspecies : nat -> nat) (nbits : list nat) : Prop := {
  sf_rows : forall i, (i < length sites)%nat -> length (fb i) = nth i nbits 0%nat /\ (0 < nth i nbits 0)%nat;
  sf_cols : forall i r, In r (fb i) -> length r = nspecies i;
  sf_sym : forall g x i j, In g ops -> is_site dim sites i x -> is_site dim sites j (operate g x) -> fb i = fb j
}.
(** Every site of the supercell has the code of one of its species. *)
Definition occupied (nspecies : nat -> nat) (occu : list nat) : Prop :=
  forall x i j, is_site dim sites i x -> located dim sites M Minv j x -> exists c, nth_error occu j = Some c /\ (c < nspecies i)%nat.
End Spec.
(** An orbit of a subspace with its site indices in the supercell: made from a cluster of the crystal; some of its functions may have been removed. *)
Definition built (dim : nat) (tol : Qc) (sites : list (list Qc)) (ops : list symop) (M : list (list Z)) (Minv : list (list Qc)) (nbits : list nat) (fb : nat -> list (list Qc))
  (so : sorbit) (rows : ctable) : Prop :=
  exists ks A o p cs, site_cluster dim sites A /\ Forall2 (is_site dim sites) ks A /\ mk_orbit dim ks A = Some o /\ orbit_parts dim tol ops (g_base o) = Some p /\
    index_rows dim tol sites M Minv (o_clusters p) = Some rows /\ gen_combos (g_bits nbits o) (o_perms p) = Some cs /\ s_basis so = map fb ks /\ incl (s_combos so) cs.
