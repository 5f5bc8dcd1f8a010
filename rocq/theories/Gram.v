(** Model of the Gram and similarity matrices of features, smol/cofe/wrangling/wrangler.py:174-191, 216-241 and 359-397.  Numbers are reals. *)
From Coq Require Export Reals List.
From Verif Require Import Lib.
Export ListNotations.
Set Implicit Arguments.
Open Scope R_scope.

Definition rsum (l : list R) : R := fold_right Rplus 0 l.
(** [feature_matrix[rows][:, cols]], wrangler.py:235-237 and 383-387: a copy, one list per row; [None] is an IndexError.  Negative indices are left out. *)
Definition submatrix (matrix : list (list R)) (rows cols : list nat) : option (list (list R)) :=
  let? picked := opt_map (nth_error matrix) rows in
  opt_map (fun row => opt_map (nth_error row) cols) picked.
Definition column (matrix : list (list R)) (j : nat) : list R := map (fun row => nth j row 0) matrix.
Definition product_of (u v : list R) : R := rsum (map (fun p => fst p * snd p) (combine u v)).
(** [get_gram_matrix], wrangler.py:216-241, for [n] columns.  A column of zeros gives nan: not modelled. *)
Definition normalise (normalize : bool) (u : list R) : list R := if normalize then map (fun x => x / sqrt (product_of u u)) u else u.
Definition gram_matrix (matrix : list (list R)) (n : nat) (normalize : bool) : list (list R) :=
  map (fun i => map (fun j => product_of (normalise normalize (column matrix i)) (normalise normalize (column matrix j))) (seq 0 n)) (seq 0 n).
Definition get_gram_matrix (matrix : list (list R)) (rows cols : list nat) (normalize : bool) : option (list (list R)) :=
  option_map (fun m => gram_matrix m (length cols) normalize) (submatrix matrix rows cols).
(** [np.isclose(a, b, rtol)]: the tolerance is relative to [b]; [atol] is 1e-8. *)
Definition isclose (atol rtol a b : R) : bool := if Rle_dec (Rabs (a - b)) (atol + rtol * Rabs b) then true else false.
Definition num_identical (atol rtol : R) (u v : list R) : nat := length (filter (fun p => isclose atol rtol (fst p) (snd p)) (combine u v)).
(** The double loop of [get_similarity_matrix], wrangler.py:388-396: the pair [i < j] is compared once and written to both places.  No rows divide by zero: not modelled. *)
Definition similarity_matrix (atol rtol : R) (matrix : list (list R)) (n : nat) : list (list R) :=
  map (fun i => map (fun j =>
    if Nat.eqb i j then 1
    else INR (num_identical atol rtol (column matrix (Nat.min i j)) (column matrix (Nat.max i j))) / INR (length matrix)) (seq 0 n)) (seq 0 n).
Definition get_similarity_matrix (atol rtol : R) (matrix : list (list R)) (rows cols : list nat) : option (list (list R)) :=
  option_map (fun m => similarity_matrix atol rtol m (length cols)) (submatrix matrix rows cols).
(** The columns of an orbit, wrangler.py:186-190; [ids]: the orbit of each function. *)
Definition orbit_columns (ids : list nat) (orbit : nat) : list nat := map fst (filter (fun p => Nat.eqb (snd p) orbit) (combine (seq 0 (length ids)) ids)).
