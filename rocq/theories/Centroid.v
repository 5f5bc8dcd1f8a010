(** Model of [get_natural_centroid] of [smol/utils/math.py] and of [get_centroid_composition] of
    [smol/moca/composition/space.py].

    The vertices of the polytope ([pc.extreme]) and the integer program ([prob.solve]) are oracles. *)
From Verif Require Export Ergodic.
Set Implicit Arguments.
Open Scope Z_scope.

(** [np.average(points, axis=0)], math.py:378, for points with [n] coordinates. *)
Definition average_point (n : nat) (points : list (list Qc)) : list Qc :=
  map (fun k => (qsum (map (fun p => nth k p 0%Qc) points) / Qc_of_nat (length points))%Qc) (seq 0 n).
(** [vs[:, i] @ x], math.py:380. *)
Definition column_product (vs : list (list Z)) (i : nat) (x : list Z) : Z :=
  zsum (map (fun p => fst p * nth i (snd p) 0) (combine x vs)).
(** The constraints of math.py:380-383 at the integer point [x]. *)
Definition centroid_constraints (n0 : list Z) (vs : list (list Z)) (size : Z) (leq : list (list Qc * Qc)) (x : list Z) : bool :=
  forallb (fun i => 0 <=? nth i n0 0 + column_product vs i x) (seq 0 (length n0)) &&
  forallb (fun c => Qcleb (qdot (fst c) (map Qc_of_Z (lattice_point n0 vs x))) (snd c * Qc_of_Z size)%Qc) leq.
(** [cp.sum_squares(x - centroid)], math.py:384. *)
Fixpoint sum_squares (x : list Z) (c : list Qc) : Qc :=
  match x, c with
  | a :: x', b :: c' => ((Qc_of_Z a - b) * (Qc_of_Z a - b) + sum_squares x' c')%Qc
  | _, _ => 0%Qc
  end.
(** [get_natural_centroid], math.py:339-393.  [extreme n0 vs] lists the vertices of the points [x] with [n0 + x @ vs >= 0];
    [solver n cost ok] is [x.value] after the minimisation of [cost] over the [n] integers that satisfy [ok].  [None] is
    the ValueError of line 391 or the failure of the average of no vertices. *)
Definition natural_centroid (extreme : list Z -> list (list Z) -> list (list Qc))
  (solver : nat -> (list Z -> Qc) -> (list Z -> bool) -> option (list Qc))
  (n0 : list Z) (vs : list (list Z)) (size : Z) (leq : list (list Qc * Qc)) : option (list Z) :=
  match extreme n0 vs with
  | [] => None
  | points =>
      let centroid := average_point (length vs) points in
      let? x := solver (length vs) (fun x => sum_squares x centroid) (centroid_constraints n0 vs size leq) in
      Some (map qround x)
  end.
(** [get_centroid_composition], space.py:508-530, for the basis [vs] and the minimal supercell size [min_size]. *)
Definition centroid_composition extreme solver (sp : cspace) (vs : list (list Z)) (min_size : Z) (size : option Z) : option (list Z) :=
  let size := match size with Some s => s | None => min_size end in
  let? n0 := base_solution sp size in
  natural_centroid extreme solver n0 vs size (cs_leq sp).
