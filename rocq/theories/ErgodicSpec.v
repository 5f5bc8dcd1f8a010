(** Lattices, flip sizes and flip graphs, for C93 to C95. *)
From Verif Require Export Lib.
Set Implicit Arguments.
Unset Strict Implicit.
Open Scope Z_scope.

(** A combination of vectors, as a function of the component. *)
Definition lc (l : list (Z * list Z)) (i : nat) : Z := zsum (map (fun p => fst p * nth i (snd p) 0) l).
(** Only the trivial combination of the vectors vanishes. *)
Definition independent (vs : list (list Z)) : Prop :=
  forall l, map snd l = vs -> (forall i, lc l i = 0) -> forall p, In p l -> fst p = 0.
(** The integer combinations of the vectors. *)
Definition in_lattice (d : nat) (vs : list (list Z)) (u : list Z) : Prop :=
  length u = d /\ exists l, map snd l = vs /\ forall i, nth i u 0 = lc l i.
Definition same_lattice (d : nat) (vs ws : list (list Z)) : Prop := forall u, in_lattice d vs u <-> in_lattice d ws u.
(** A lattice that contains every integer vector of the subspace that it spans; the integer solutions
    of linear equations form one. *)
Definition pure (d : nat) (vs : list (list Z)) : Prop :=
  forall k u, k <> 0 -> length u = d -> in_lattice d vs (map (Z.mul k) u) -> in_lattice d vs u.
(** The sum of the absolute values of a flip: every exchanged atom counts twice. *)
Definition moved (u : list Z) : Z := zsum (map Z.abs u).
(** How many of the flips move at most so much. *)
Definition small (s : Z) (vs : list (list Z)) : nat := length (filter (fun u => moved u <=? s) vs).
(** A rank oracle that recognises the independent tables. *)
Definition rank_exact (d : nat) (rank : list (list Z) -> nat) : Prop :=
  forall M, Forall (fun r => length r = d) M -> (length M <= d)%nat -> (rank M = length M <-> independent M).

(** Two points that differ by a flip of the table, in one or the other direction. *)
Definition differ_by (table : list (list Z)) (p q : list Z) : Prop :=
  length p = length q /\ exists v, In v table /\ length v = length p /\
    ((forall i, nth i q 0 = nth i p 0 + nth i v 0) \/ (forall i, nth i q 0 = nth i p 0 - nth i v 0)).
(** Points that are connected by flips through points of the grid. *)
Inductive reachable (table ns : list (list Z)) (p : list Z) : list Z -> Prop :=
| reach_refl : In p ns -> reachable table ns p p
| reach_step q r : reachable table ns p q -> In r ns -> differ_by table q r -> reachable table ns p r.
Definition ergodic (table ns : list (list Z)) : Prop := forall p q, In p ns -> In q ns -> reachable table ns p q.

(** The squared distance of two points. *)
Definition sqdist (p q : list Z) : Z := zsum (map (fun x => (fst x - snd x) * (fst x - snd x)) (combine p q)).
(** What a query for the [k] nearest points of a tree returns: all points when there are fewer, and then entries with an
    infinite distance and an index beyond the last point. *)
Definition nearest_exact (knn : list (list Z) -> list Z -> nat -> list (option Z * nat)) : Prop :=
  forall ns n k, exists ids,
    knn ns n k = map (fun j => (Some (sqdist (nth j ns []) n), j)) ids ++ repeat (None, length ns) (k - length ids) /\
    NoDup ids /\ length ids = Nat.min k (length ns) /\ (forall j, In j ids -> (j < length ns)%nat) /\
    (forall a b, (a < b < length ids)%nat -> sqdist (nth (nth a ids 0%nat) ns []) n <= sqdist (nth (nth b ids 0%nat) ns []) n) /\
    (forall j i, In j ids -> (i < length ns)%nat -> ~ In i ids -> sqdist (nth j ns []) n <= sqdist (nth i ns []) n).
