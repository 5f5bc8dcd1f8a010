(** Specification for C91: supercells and the sites of clusters in them. *)
From Verif Require Export OrbitIndices OrbitGenSpec.
Set Implicit Arguments.
Unset Strict Implicit.
Local Open Scope Qc_scope.

Section Spec.
Variables (dim : nat) (tol : Qc) (sites : list (list Qc)) (M : list (list Z)) (Minv : list (list Qc)).

(** The supercell vector with coefficients [t]. *)
Definition svec (t : list Z) : list Z := zmat dim t M.
(** Two points are equal up to a supercell vector. *)
Definition scell (x y : list Qc) : Prop := exists t, length t = dim /\ x = shift y (svec t).
(** A supercell matrix with its inverse; the tolerance tells sites of the supercell apart. *)
Record supercell : Prop := {
  su_rows : length M = dim;
  su_cols : forall r, In r M -> length r = dim;
  su_irows : length Minv = dim;
  su_icols : forall r, In r Minv -> length r = dim;
  su_left : forall x, length x = dim -> vmat dim (vmat dim x (map (map Qc_of_Z) M)) Minv = x;
  su_right : forall x, length x = dim -> vmat dim (vmat dim x Minv) (map (map Qc_of_Z) M) = x;
  su_sep : forall x y, site dim sites x -> site dim sites y ->
    (forall j, (j < dim)%nat -> exists n, - tol <= comp (vmat dim x Minv) j - comp (vmat dim y Minv) j - Qc_of_Z n /\ comp (vmat dim x Minv) j - comp (vmat dim y Minv) j - Qc_of_Z n <= tol) ->
    scell x y
}.
(** The site with index [j] of the supercell is [x], or an image of it in another supercell: the fractional coordinates differ by integers. *)
Definition located (j : nat) (x : list Qc) : Prop :=
  exists c t, nth_error (supercell_coords dim Minv sites (frac_points dim M Minv)) j = Some c /\ length t = dim /\ vmat dim x Minv = shift c t.
(** Two clusters with the same sites up to a supercell vector. *)
Definition smoved (A B : list (list Qc)) : Prop := exists t, length t = dim /\ Permutation A (translate (svec t) B).
(** Every cluster equivalent to [B] is a supercell translate of exactly one of the [Xs], and these are all equivalent to [B]. *)
Definition representatives (ops : list symop) (B : list (list Qc)) (Xs : list (list (list Qc))) : Prop :=
  (forall X, In X Xs -> related dim ops X B) /\
  forall X, related dim ops X B -> exists i Y, nth_error Xs i = Some Y /\ smoved X Y /\ forall j Z, nth_error Xs j = Some Z -> smoved X Z -> j = i.
End Spec.
