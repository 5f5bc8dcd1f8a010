(** Model of the Ewald term ([smol/cofe/extern/ewald.py]), the Ewald processor
    ([smol/moca/processor/ewald.py], [smol/utils/cluster/ewald.pyx]) and the composite
    processor ([smol/moca/processor/composite.py]).

    The entries of the Ewald matrix come from pymatgen: a function [M] of two indices, exact
    rationals instead of floats.  A species is represented by whether it is a vacancy. *)
From Verif Require Export QcLib Evaluator.
Set Implicit Arguments.

(** Row of one site, extern/ewald.py:86-94: consecutive numbers, -1 for vacancies. *)
Fixpoint site_inds (start : nat) (space : list bool) : list Z * nat :=
  match space with
  | [] => ([], start)
  | true :: s => let (r, n) := site_inds start s in ((-1)%Z :: r, n)
  | false :: s => let (r, n) := site_inds (S start) s in (Z.of_nat start :: r, n)
  end.
Fixpoint spaces_inds (width start : nat) (spaces : list (list bool)) : list (list Z) * nat :=
  match spaces with
  | [] => ([], start)
  | s :: ss =>
      let (r, n) := site_inds start s in
      let (rs, m) := spaces_inds width n ss in
      ((r ++ repeat (-1)%Z (width - length s)) :: rs, m)
  end.
(** [get_ewald_structure], extern/ewald.py:65-99: table of indices and number of Ewald sites. *)
Definition ewald_structure (spaces : list (list bool)) : list (list Z) * nat :=
  spaces_inds (fold_right Nat.max 0 (map (@length bool) spaces)) 0 spaces.

(** [ewald_inds[np.arange(len(occu)), occu]], extern/ewald.py:122. *)
Fixpoint occu_inds (inds : list (list Z)) (occu : list nat) : option (list Z) :=
  match occu, inds with
  | [], _ => Some []
  | c :: occu', r :: inds' =>
      let? i := nth_error r c in let? is := occu_inds inds' occu' in Some (i :: is)
  | _ :: _, [] => None
  end.
(** [b_inds[i] = True] with Python's negative indices. *)
Definition np_set (b : list bool) (i : Z) : option (list bool) :=
  let j := if (i <? 0)%Z then (i + Z.of_nat (length b))%Z else i in
  if (j <? 0)%Z || (Z.of_nat (length b) <=? j)%Z then None else Some (upd b (Z.to_nat j) true).
Fixpoint np_set_all (b : list bool) (is : list Z) : option (list bool) :=
  match is with [] => Some b | i :: is' => let? b' := np_set b i in np_set_all b' is' end.
(** [get_ewald_occu], extern/ewald.py:102-129. *)
Definition ewald_occu (n : nat) (inds : list (list Z)) (occu : list nat) : option (list bool) :=
  let? is := occu_inds inds occu in
  let? b := np_set_all (repeat false (n + 1)) is in Some (removelast b).
Definition true_at (b : list bool) : list nat := filter (fun i => nth i b false) (seq 0 (length b)).
(** [compute_feature_vector], processor/ewald.py:122-141: sum of the selected rows and columns. *)
Definition ew_feature (n : nat) (M : nat -> nat -> Qc) (inds : list (list Z)) (occu : list nat) : option Qc :=
  let? b := ewald_occu n inds occu in
  Some (qsum (map (fun i => qsum (map (M i) (true_at b))) (true_at b))).

(** One term of the loop of [delta_ewald_single_flip], ewald.pyx:42-54. *)
Definition flip_part (M : nat -> nat -> Qc) (i a : Z) : Qc :=
  if (i =? -1)%Z || (a =? -1)%Z then 0%Qc
  else if (i =? a)%Z then M (Z.to_nat i) (Z.to_nat a)
  else (M (Z.to_nat i) (Z.to_nat a) + M (Z.to_nat i) (Z.to_nat a))%Qc.
(** [delta_ewald_single_flip], ewald.pyx:6-56; indices outside of the arrays give [None]
    (undefined in Cython without bounds checks). *)
Definition ew_delta1 (M : nat -> nat -> Qc) (inds : list (list Z)) (occu_f occu_i : list nat) (site : nat) : option Qc :=
  let? fs := occu_inds inds occu_f in
  let? is := occu_inds inds occu_i in
  let? add := nth_error fs site in
  let? sub := nth_error is site in
  Some (qsum (map (fun p => (flip_part M (fst p) add - flip_part M (snd p) sub)%Qc) (combine fs is))).
(** [compute_feature_vector_change], processor/ewald.py:143-167. *)
Fixpoint ew_change (M : nat -> nat -> Qc) (inds : list (list Z)) (occu : list nat) (flips : list (nat * nat)) : option Qc :=
  match flips with
  | [] => Some 0%Qc
  | f :: flips' =>
      let? occu_f := set_site occu f in
      let? d := ew_delta1 M inds occu_f occu (fst f) in
      let? rest := ew_change M inds occu_f flips' in
      Some (d + rest)%Qc
  end.

(** ** Composite processors *)

(** A part: processors of the base class take the dot product of coefficients and features
    (processor/base.py:155-178), the Ewald processor multiplies its coefficient with its
    feature (processor/ewald.py:94-120).  Feature values and changes are given functions. *)
Inductive part :=
| Dot (coefs : list Qc) (feat : list nat -> option (list Qc)) (change : list nat -> list (nat * nat) -> option (list Qc))
| Scale (coef : Qc) (feat : list nat -> option Qc) (change : list nat -> list (nat * nat) -> option Qc).
(** numpy arrays of dimension one and zero. *)
Inductive arr := Vec (v : list Qc) | Scalar (x : Qc).
Definition ravel (a : arr) : list Qc := match a with Vec v => v | Scalar x => [x] end.
Definition same_shape (a b : arr) : bool :=
  match a, b with Vec u, Vec v => length u =? length v | Scalar _, Scalar _ => true | _, _ => false end.
(** [np.dot] raises for different lengths. *)
Definition np_dot (u v : list Qc) : option Qc := if length u =? length v then Some (qdot u v) else None.

Definition part_coefs (p : part) : list Qc := match p with Dot c _ _ => c | Scale c _ _ => [c] end.
Definition part_feature (p : part) (occu : list nat) : option arr :=
  match p with
  | Dot _ f _ => let? v := f occu in Some (Vec v)
  | Scale _ f _ => let? x := f occu in Some (Scalar x)
  end.
Definition part_feature_change (p : part) (occu : list nat) (flips : list (nat * nat)) : option arr :=
  match p with
  | Dot _ _ f => let? v := f occu flips in Some (Vec v)
  | Scale _ _ f => let? x := f occu flips in Some (Scalar x)
  end.
Definition part_property (p : part) (occu : list nat) : option Qc :=
  match p with
  | Dot c f _ => let? v := f occu in np_dot c v
  | Scale c f _ => let? x := f occu in Some (c * x)%Qc
  end.
Definition part_property_change (p : part) (occu : list nat) (flips : list (nat * nat)) : option Qc :=
  match p with
  | Dot c _ f => let? v := f occu flips in np_dot c v
  | Scale c _ f => let? x := f occu flips in Some (c * x)%Qc
  end.

(** [add_processor] appends the coefficients, composite.py:58-84 (the checks on subspace and
    supercell are not modelled). *)
Definition composite_coefs (ps : list part) : list Qc := concat (map part_coefs ps).
(** composite.py:86-111 *)
Definition composite_property (ps : list part) (occu : list nat) : option Qc :=
  let? vs := opt_map (fun p => part_property p occu) ps in Some (qsum vs).
Definition composite_property_change (ps : list part) (occu : list nat) (flips : list (nat * nat)) : option Qc :=
  let? vs := opt_map (fun p => part_property_change p occu flips) ps in Some (qsum vs).
(** [np.append(features[0], features[1:])]: no processors raise IndexError; the second argument
    is converted to one array, which raises ValueError for parts of different shapes. *)
Definition np_append (fs : list arr) : option (list Qc) :=
  match fs with
  | [] => None
  | f :: [] => Some (ravel f)
  | f :: g :: gs => if forallb (same_shape g) gs then Some (ravel f ++ concat (map ravel (g :: gs))) else None
  end.
(** composite.py:113-153 *)
Definition composite_features (ps : list part) (occu : list nat) : option (list Qc) :=
  let? fs := opt_map (fun p => part_feature p occu) ps in np_append fs.
Definition composite_features_change (ps : list part) (occu : list nat) (flips : list (nat * nat)) : option (list Qc) :=
  let? fs := opt_map (fun p => part_feature_change p occu flips) ps in np_append fs.

(** Processors of the model as parts. *)
Definition ce_part (P : proc) (coefs : list Qc) : part := Dot coefs (ce_features P) (ce_change P).
Definition cd_part (P : proc) (coefs : list Qc) : part := Dot coefs (cd_features P) (cd_change P).
Definition ewald_part (n : nat) (M : nat -> nat -> Qc) (inds : list (list Z)) (coef : Qc) : part :=
  Scale coef (ew_feature n M inds) (ew_change M inds).
