(** Model of [gaussian_select], smol/cofe/wrangling/select.py:42-73.  Numbers are reals; the random vectors are arguments. *)
From Coq Require Export Reals List.
From Verif Require Import Lib.
Export ListNotations.
Set Implicit Arguments.
Open Scope R_scope.

(** A row of the feature matrix or a random vector; [matrix @ vec] and [np.linalg.norm], select.py:63, 68 and 71. *)
Definition vec := list R.
Definition dot (u v : vec) : R := fold_right Rplus 0 (map (fun p => fst p * snd p) (combine u v)).
Definition length_of (v : vec) : R := sqrt (dot v v).
(** [matrix /= np.linalg.norm(matrix, axis=1).reshape(rows, 1)], lines 63 and 68.  A row of zeros gives nan in the code: not modelled. *)
Definition normalised (v : vec) : vec := map (fun x => x / length_of v) v.
(** [np.argmax], line 71: the first of the largest values; [None] for no values (ValueError). *)
Fixpoint argmax_from (best : nat) (value : R) (score : nat -> R) (l : list nat) : nat :=
  match l with
  | [] => best
  | i :: l' => if Rlt_dec value (score i) then argmax_from i (score i) score l' else argmax_from best value score l'
  end.
Definition pick (score : nat -> R) (l : list nat) : option nat :=
  match l with [] => None | i :: l' => Some (argmax_from i (score i) score l') end.
(** [compliment.remove], line 72. *)
Fixpoint remove_first (x : nat) (l : list nat) : list nat :=
  match l with [] => [] | y :: l' => if Nat.eqb x y then l' else y :: remove_first x l' end.
(** The loop, lines 70-72: [left]: the rows that were not chosen yet ([compliment]). *)
Fixpoint choose (matrix : list vec) (gauss : list vec) (left : list nat) : option (list nat) :=
  match gauss with
  | [] => Some []
  | v :: gauss' =>
      match pick (fun i => dot (nth i matrix []) v) left with
      | None => None
      | Some i => option_map (cons i) (choose matrix gauss' (remove_first i left))
      end
  end.
(** Insertion sort for [np.sort], line 73. *)
Fixpoint insert_id (x : nat) (l : list nat) : list nat :=
  match l with [] => [x] | y :: l' => if Nat.leb x y then x :: l else y :: insert_id x l' end.
(** [gaussian_select], select.py:42-73.  [draws]: [num_samples] vectors of [cols] numbers; scipy squeezes them, so that with one sample or one column
    the norm along axis 1 raises (line 68), as does [orth].  [orth]: the orthonormal vectors that [scipy.linalg.orth] returns when asked for; fewer than [num_samples] raise in line 68. *)
Definition gaussian_select (cols : nat) (features : list vec) (num : nat) (draws : list vec) (orth : option (list vec -> list vec)) : option (list nat) :=
  if Nat.eqb num 1 || Nat.eqb cols 1 then None else
  let gauss := match orth with Some o => o draws | None => draws end in
  if negb (Nat.eqb (length gauss) num) then None else
  option_map (fold_right insert_id []) (choose (map normalised features) (map normalised gauss) (seq 0 (length features))).
