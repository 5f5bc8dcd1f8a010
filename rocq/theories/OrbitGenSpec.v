(** Specification for C88-C90: crystals, clusters of their sites and equivalence by symmetry. *)
From Verif Require Export OrbitGen ClusterProps SubspaceSpec.
Set Implicit Arguments.
Unset Strict Implicit.
Local Open Scope Qc_scope.

(** A point moved by a lattice vector. *)
Definition shift (x : list Qc) (t : list Z) : list Qc := qvadd x (map Qc_of_Z t).

Section Spec.
Variables (dim : nat) (tol : Qc) (G : list (list Qc)) (sites : list (list Qc)) (ops : list symop).

(** The periodic images of site [i] of the prim structure. *)
Definition is_site (i : nat) (x : list Qc) : Prop := exists s t, nth_error sites i = Some s /\ length t = dim /\ x = shift s t.
Definition site (x : list Qc) : Prop := exists i, is_site i x.
(** Two operations that differ by a lattice translation. *)
Definition same_op (f h : list Qc -> list Qc) : Prop := exists t, length t = dim /\ forall x, site x -> f x = shift (h x) t.
(** A crystal and a group of symmetry operations of it, taken modulo lattice translations, listed once each. *)
Record crystal : Prop := {
  cr_tol : 0 < tol /\ tol <= Qc_frac 1 2;
  cr_dim : forall s, In s sites -> length s = dim;
  cr_sep : forall x y, site x -> site y -> (forall j, (j < dim)%nat -> within (tol + tol) (comp x j) (comp y j)) -> x = y;
  cr_kind : forall i j x, is_site i x -> is_site j x -> i = j;
  cr_op : forall g x, In g ops -> site x -> site (operate g x);
  cr_lattice : forall g t, In g ops -> length t = dim -> exists t', length t' = dim /\ forall x, site x -> operate g (shift x t) = shift (operate g x) t';
  cr_id : exists g, In g ops /\ same_op (operate g) (fun x => x);
  cr_comp : forall g h, In g ops -> In h ops -> exists k, In k ops /\ same_op (fun x => operate g (operate h x)) (operate k);
  cr_inv : forall g, In g ops -> exists h, In h ops /\ same_op (fun x => operate h (operate g x)) (fun x => x);
  cr_nodup : NoDup ops;
  cr_distinct : forall g h, In g ops -> In h ops -> same_op (operate g) (operate h) -> g = h;
  cr_iso : forall g x y, In g ops -> site x -> site y -> dist2 G (operate g x) (operate g y) = dist2 G x y
}.

(** A cluster: distinct sites. *)
Definition site_cluster (A : list (list Qc)) : Prop := A <> [] /\ NoDup A /\ forall x, In x A -> site x.
(** [A] is a symmetry image of [B], moved by a lattice vector, in any order. *)
Definition related (A B : list (list Qc)) : Prop :=
  exists g t, In g ops /\ length t = dim /\ Permutation A (map (fun x => shift (operate g x) t) B).
(** The same set of sites up to a lattice vector. *)
Definition moved (A B : list (list Qc)) : Prop := exists t, length t = dim /\ Permutation A (translate t B).
(** No two sites are further apart than [d]. *)
Definition diam_le (A : list (list Qc)) (d : Qc) : Prop := forall x y, In x A -> In y A -> dist2 G x y <= d * d.
(** The metric tensor has the right shape and no vector has a negative square. *)
Record metric : Prop := {
  me_rows : length G = dim;
  me_cols : forall r, In r G -> length r = dim;
  me_pos : forall v, length v = dim -> 0 <= dist2 G v (repeat 0 dim)
}.
(** Orbits no two of which have equivalent base clusters. *)
Definition inequivalent (os : list gorbit) : Prop :=
  forall i j x y, nth_error os i = Some x -> nth_error os j = Some y -> related (c_coords (g_base x)) (c_coords (g_base y)) -> i = j.
(** Exactly one of the orbits has a base cluster that is equivalent to [X]. *)
Definition represented (os : list gorbit) (X : list (list Qc)) : Prop :=
  exists i o, nth_error os i = Some o /\ related (c_coords (g_base o)) X /\
    forall j o', nth_error os j = Some o' -> related (c_coords (g_base o')) X -> j = i.
(** The sites of a base cluster are those that the orbit says, and they are within the diameter. *)
Definition orbit_sound (k : nat) (o : gorbit) : Prop :=
  site_cluster (c_coords (g_base o)) /\ length (c_coords (g_base o)) = k /\ Forall2 is_site (g_kinds o) (c_coords (g_base o)).
End Spec.
(** Every size has the preceding one, with a cutoff that is not smaller, and no cutoff is negative. *)
Definition decreasing (cutoffs : list (nat * option Qc)) : Prop :=
  (forall k d, In (k, Some d) cutoffs -> 0 <= d) /\
  forall k d, (2 <= k)%nat -> In (S k, Some d) cutoffs -> exists e, In (k, Some e) cutoffs /\ d <= e.
(** A dictionary of cutoffs: sizes from one. *)
Definition cutoff_dict (cutoffs : list (nat * option Qc)) : Prop := NoDup (map fst cutoffs) /\ forall k c, In (k, c) cutoffs -> (1 <= k)%nat.
