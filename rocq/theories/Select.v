(** Model of [full_row_rank_select] and [composition_select], smol/cofe/wrangling/select.py.  Numbers are exact rationals. *)
From Verif Require Export QcLib.
Set Implicit Arguments.
Open Scope Qc_scope.

(** ** LU factorisation, select.py:31 *)
Definition sel_abs (x : Qc) : Qc := if Qcltb x 0 then - x else x.
Definition col (k : nat) (row : list Qc) : Qc := nth k row 0.
(** The row with the largest absolute value in column [k], the first of equals (LAPACK idamax). *)
Fixpoint best_row (k : nat) (best : nat) (value : Qc) (i : nat) (rows : list (list Qc)) : nat :=
  match rows with
  | [] => best
  | r :: rows' => if Qcltb value (sel_abs (col k r)) then best_row k i (sel_abs (col k r)) (S i) rows'
                  else best_row k best value (S i) rows'
  end.
Definition pivot (k : nat) (r0 : list Qc) (rows : list (list Qc)) : nat := best_row k 0 (sel_abs (col k r0)) 1 rows.
Fixpoint put {A} (i : nat) (x : A) (l : list A) : list A :=
  match l, i with
  | [], _ => []
  | _ :: l', O => x :: l'
  | y :: l', S i' => y :: put i' x l'
  end.
(** The rows below the pivot after the exchange with the first row. *)
Definition below (p : nat) (r0 : list Qc) (rows : list (list Qc)) : list (list Qc) :=
  match p with O => rows | S p' => put p' r0 rows end.
Definition eliminate (k : nat) (u r : list Qc) : list Qc := qvsub r (qvscale (col k r / col k u) u).
(** The factor U of [scipy.linalg.lu] (LAPACK getrf with partial pivoting), select.py:31: a column without a pivot is left as it is
    and the next row goes with the next column.  There are as many rows as the smaller dimension.  [n]: number of columns, [k]: present one. *)
Fixpoint upper (n fuel k : nat) (rows : list (list Qc)) : list (list Qc) :=
  match fuel, rows with
  | S fuel', r0 :: rs =>
      if Nat.leb n k then [] else
      let p := pivot k r0 rs in
      let u := nth p rows [] in
      if Qceqb (col k u) 0 then r0 :: upper n fuel' (S k) rs
      else u :: upper n fuel' (S k) (map (eliminate k u) (below p r0 rs))
  | _, _ => []
  end.
(** [feature_matrix.T] for [d] features, select.py:31. *)
Definition transpose (d : nat) (f : list (list Qc)) : list (list Qc) := map (fun j => map (col j) f) (seq 0 d).
Definition lu_upper (d : nat) (f : list (list Qc)) : list (list Qc) := upper (length f) d 0 (transpose d f).
(** [(abs(u_mat) > tol).argmax(axis=1)], select.py:32: the first column above the tolerance, 0 if there is none. *)
Fixpoint first_above (tol : Qc) (i : nat) (row : list Qc) : nat :=
  match row with
  | [] => 0%nat
  | x :: row' => if Qcltb tol (sel_abs x) then i else first_above tol (S i) row'
  end.
(** [np.unique] of numbers below [n], select.py:32: sorted, each once. *)
Definition unique (n : nat) (l : list nat) : list nat := filter (fun i => existsb (Nat.eqb i) l) (seq 0 n).
(** [full_row_rank_select], select.py:12-39; [d]: number of columns (features).  Left out: the warning (lines 33-38), which compares the
    number of rows with a numerical rank and changes nothing. *)
Definition full_row_rank_select (d : nat) (f : list (list Qc)) (tol : Qc) (nrows : option nat) : list nat :=
  let n := match nrows with Some n => n | None => length f end in
  firstn n (unique (length f) (map (first_above tol 0) (lu_upper d f))).

(** ** Selection by composition *)
(** The multinomial probability of counts (scipy.stats.multinomial.pmf) is a parameter: [pmf size counts].  One round over the
    samples, select.py:123-127 and 129-134: sample [i] is taken when its probability is at least the largest one times the number drawn
    and (in later rounds) it was not taken before. *)
Definition accept_round (prob limit : nat -> Qc) (draw : nat -> Qc) (taken : list nat) (n : nat) : list nat :=
  filter (fun i => Qcleb (limit i * draw i) (prob i) && negb (existsb (Nat.eqb i) taken)) (seq 0 n).
(** Insertion sort for [np.sort], select.py:135. *)
Fixpoint insert (x : nat) (l : list nat) : list nat :=
  match l with [] => [x] | y :: l' => if Nat.leb x y then x :: l else y :: insert x l' end.
Definition sort_ids (l : list nat) : list nat := fold_right insert [] l.
(** The loop, select.py:128-134; [draws]: one function from samples to numbers per round.  [None]: more rounds are needed. *)
Fixpoint rounds (prob limit : nat -> Qc) (n num : nat) (draws : list (nat -> Qc)) (taken : list nat) : option (list nat) :=
  if Nat.leb (length taken) num then
    match draws with
    | [] => None
    | draw :: draws' => rounds prob limit n num draws' (taken ++ accept_round prob limit draw taken n)
    end
  else Some taken.
Definition composition_select_with (prob limit : nat -> Qc) (n num : nat) (draw0 : nat -> Qc) (draws : list (nat -> Qc)) : option (list nat) :=
  option_map (fun ids => sort_ids (firstn num ids)) (rounds prob limit n num draws (accept_round prob limit draw0 [] n)).
(** [np.unique(composition_vector, axis=1)], select.py:106: the different columns in lexicographic order.  Fewer columns than components make
    [pmf] raise, and unequal numbers of sizes and samples are cut by [zip]: neither is modelled. *)
Fixpoint lex_ltb (a b : list Qc) : bool :=
  match a, b with
  | x :: a', y :: b' => if Qceqb x y then lex_ltb a' b' else Qcltb x y
  | [], _ :: _ => true
  | _, [] => false
  end.
Fixpoint insert_col (c : list Qc) (l : list (list Qc)) : list (list Qc) :=
  match l with
  | [] => [c]
  | x :: l' => if lex_ltb c x then c :: l else if lex_ltb x c then x :: insert_col c l' else l
  end.
Definition columns (m : nat) (comps : list (list Qc)) : list (list Qc) := map (fun j => map (col j) comps) (seq 0 m).
Definition unique_columns (m : nat) (comps : list (list Qc)) : list (list Qc) :=
  let cs := fold_right insert_col [] (columns m comps) in
  map (fun i => map (col i) cs) (seq 0 (length comps)).
Definition qmax (l : list Qc) : Qc := fold_right (fun x y => if Qcleb x y then y else x) 0 l.
(** [composition_select], select.py:76-135, for [m] components; [pmf size counts]; [limits]: [max_probs], lines 118-121. *)
Definition limits (pmf : nat -> list Qc -> Qc) (m : nat) (comps : list (list Qc)) (size : nat) : Qc :=
  qmax (map (fun c => pmf size (qvscale (Qc_of_nat size) c)) (unique_columns m comps)).
Definition composition_select (pmf : nat -> list Qc -> Qc) (m : nat) (comps : list (list Qc)) (sizes : list nat) (num : nat)
  (draw0 : nat -> Qc) (draws : list (nat -> Qc)) : option (list nat) :=
  composition_select_with
    (fun i => let size := nth i sizes 0%nat in pmf size (qvscale (Qc_of_nat size) (nth i comps [])))
    (fun i => limits pmf m comps (nth i sizes 0%nat)) (length comps) num draw0 draws.
