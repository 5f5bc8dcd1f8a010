(** Model of the integer algorithms of [smol/utils/math.py]: Hermite normal forms,
    the extended Euclidean algorithm, the Smith decomposition and the Diophantine
    solver, and of [smol/capp/generate/enumerate.py].

    numpy int64 arithmetic is modelled by unbounded integers.  Python's [//] and [%]
    (also numpy's) round towards minus infinity like [Z.div] and [Z.modulo]. *)
From Verif Require Export Lib.
Set Implicit Arguments.
Open Scope Z_scope.

(** ** Hermite normal forms *)

(** A 3x3 integer matrix. *)
Record m3 := M3 { e11 : Z; e12 : Z; e13 : Z; e21 : Z; e22 : Z; e23 : Z;
                  e31 : Z; e32 : Z; e33 : Z }.

(** [range(lo, hi)]. *)
Definition zrange (lo hi : Z) : list Z :=
  map (fun k => lo + Z.of_nat k) (seq 0 (Z.to_nat (hi - lo))).

(** The [filter(lambda x: n % x == 0, range(1, n + 1))] of math.py:41,43. *)
Definition divisors (n : Z) : list Z :=
  filter (fun x => n mod x =? 0) (zrange 1 (n + 1)).

(** [yield_hermite_normal_forms], math.py:31-46. *)
Definition hnfs (D : Z) : list m3 :=
  flat_map (fun a =>
    let q := D / a in
    flat_map (fun c =>
      let f := q / c in
      flat_map (fun b =>
        flat_map (fun d =>
          map (fun e => M3 a 0 0 b c 0 d e f) (zrange 0 f))
        (zrange 0 f))
      (zrange 0 c))
    (divisors q))
  (divisors D).

Definition m3mul (x y : m3) : m3 :=
  M3 (e11 x * e11 y + e12 x * e21 y + e13 x * e31 y)
     (e11 x * e12 y + e12 x * e22 y + e13 x * e32 y)
     (e11 x * e13 y + e12 x * e23 y + e13 x * e33 y)
     (e21 x * e11 y + e22 x * e21 y + e23 x * e31 y)
     (e21 x * e12 y + e22 x * e22 y + e23 x * e32 y)
     (e21 x * e13 y + e22 x * e23 y + e23 x * e33 y)
     (e31 x * e11 y + e32 x * e21 y + e33 x * e31 y)
     (e31 x * e12 y + e32 x * e22 y + e33 x * e32 y)
     (e31 x * e13 y + e32 x * e23 y + e33 x * e33 y).
Definition m3det (x : m3) : Z :=
  e11 x * (e22 x * e33 x - e23 x * e32 x)
  - e12 x * (e21 x * e33 x - e23 x * e31 x)
  + e13 x * (e21 x * e32 x - e22 x * e31 x).
(** Adjugate: [m3adj x] times [x] is the determinant times the identity. *)
Definition m3adj (x : m3) : m3 :=
  M3 (e22 x * e33 x - e23 x * e32 x) (e13 x * e32 x - e12 x * e33 x) (e12 x * e23 x - e13 x * e22 x)
     (e23 x * e31 x - e21 x * e33 x) (e11 x * e33 x - e13 x * e31 x) (e13 x * e21 x - e11 x * e23 x)
     (e21 x * e32 x - e22 x * e31 x) (e12 x * e31 x - e11 x * e32 x) (e11 x * e22 x - e12 x * e21 x).
Definition m3t (x : m3) : m3 :=
  M3 (e11 x) (e21 x) (e31 x) (e12 x) (e22 x) (e32 x) (e13 x) (e23 x) (e33 x).
Definition m3list (x : m3) : list Z :=
  [e11 x; e12 x; e13 x; e21 x; e22 x; e23 x; e31 x; e32 x; e33 x].

(** The test of enumerate.py:31-34: [inv(hnf) @ R @ scm.T] has integer entries.  The
    inverse is the adjugate divided by the determinant; floats and the tolerance are
    modelled by exact arithmetic; rotations are integer matrices (fractional
    coordinates of the primitive cell). *)
Definition maps_onto (R scm hnf : m3) : bool :=
  forallb (fun x => x mod (m3det hnf) =? 0) (m3list (m3mul (m3mul (m3adj hnf) R) (m3t scm))).

(** [enumerate_supercell_matrices], enumerate.py:11-43. *)
Definition enumerate_supercells (size : Z) (rots : list m3) : list m3 :=
  fold_left (fun scms hnf =>
               if existsb (fun R => existsb (fun scm => maps_onto R scm hnf) scms) rots then scms
               else scms ++ [m3t hnf])
            (hnfs size) [].

(** ** Extended Euclid *)

(** [gcdex], math.py:49-58; [None] when the recursion is deeper than [fuel]. *)
Fixpoint gcdex_rec (fuel : nat) (a b : Z) : option (Z * Z * Z) :=
  match fuel with
  | O => None
  | S fuel' =>
      if a =? 0 then Some (0, 1, b)
      else let? (x1, y1, g) := gcdex_rec fuel' (b mod a) a in
           Some (y1 - (b / a) * x1, x1, g)
  end.
(** The depth never exceeds [|a| + 1] (theorem C40_terminates). *)
Definition gcdex (a b : Z) : option (Z * Z * Z) := gcdex_rec (S (Z.abs_nat a)) a b.

(** ** Integer matrices: lists of rows *)

Definition mat := list (list Z).
Definition get (m : mat) (i j : nat) : Z := nth j (nth i m []) 0.
Definition tab (n d : nat) (f : nat -> nat -> Z) : mat :=
  map (fun i => map (f i) (seq 0 d)) (seq 0 n).
Definition eye (n : nat) : mat := tab n n (fun i j => if Nat.eqb i j then 1 else 0).

(** [leftmult], math.py:162-166 on an n x d matrix.  Row [i1] is written last. *)
Definition leftmult (n d : nat) (m : mat) (i0 i1 : nat) (a b c e : Z) : mat :=
  tab n d (fun i j =>
    if Nat.eqb i i1 then c * get m i0 j + e * get m i1 j
    else if Nat.eqb i i0 then a * get m i0 j + b * get m i1 j
    else get m i j).
(** [rightmult], math.py:168-172. *)
Definition rightmult (n d : nat) (m : mat) (j0 j1 : nat) (a b c e : Z) : mat :=
  tab n d (fun i j =>
    if Nat.eqb j j1 then b * get m i j0 + e * get m i j1
    else if Nat.eqb j j0 then a * get m i j0 + c * get m i j1
    else get m i j).

(** ** Smith decomposition *)

(** The three matrices of [compute_snf]: the transformed matrix and both factors. *)
Record snf_state := mkSnf { st_s : mat; st_m : mat; st_t : mat }.

(** The paired calls on [m] and [s] (resp. [m] and [t]). *)
Definition row_op (n d : nat) (x : snf_state) (i0 i1 : nat) (a b c e : Z) : snf_state :=
  mkSnf (leftmult n n (st_s x) i0 i1 a b c e) (leftmult n d (st_m x) i0 i1 a b c e) (st_t x).
Definition col_op (n d : nat) (x : snf_state) (j0 j1 : nat) (a b c e : Z) : snf_state :=
  mkSnf (st_s x) (rightmult n d (st_m x) j0 j1 a b c e) (rightmult d d (st_t x) j0 j1 a b c e).

(** Body of the loop over rows, math.py:197-209; the flag is [upd]. *)
Definition clear_row (n d i : nat) (xu : snf_state * bool) (ii : nat) : option (snf_state * bool) :=
  let (x, u) := xu in
  let p := get (st_m x) i i in
  let q := get (st_m x) ii i in
  if q =? 0 then Some (x, u)
  else
    let? x1 := (if q mod p =? 0 then Some x
                else let? (c1, c2, g) := gcdex p q in
                     Some (row_op n d x i ii c1 c2 (- (q / g)) (p / g))) in
    let c5 := get (st_m x1) ii i / get (st_m x1) i i in
    Some (row_op n d x1 i ii 1 0 (- c5) 1, true).
(** Body of the loop over columns, math.py:210-222. *)
Definition clear_col (n d i : nat) (xu : snf_state * bool) (jj : nat) : option (snf_state * bool) :=
  let (x, u) := xu in
  let p := get (st_m x) i i in
  let q := get (st_m x) i jj in
  if q =? 0 then Some (x, u)
  else
    let? x1 := (if q mod p =? 0 then Some x
                else let? (c1, c2, g) := gcdex p q in
                     Some (col_op n d x i jj c1 (- (q / g)) c2 (p / g))) in
    let c5 := get (st_m x1) i jj / get (st_m x1) i i in
    Some (col_op n d x1 i jj 1 (- c5) 0 1, true).

Fixpoint foldo {A B} (f : A -> B -> option A) (l : list B) (x : A) : option A :=
  match l with
  | [] => Some x
  | y :: l' => let? x' := f x y in foldo f l' x'
  end.

(** [while upd], math.py:194-222; [None] when more than [fuel] rounds are needed. *)
Fixpoint clear_cross (fuel : nat) (n d i : nat) (x : snf_state) : option snf_state :=
  match fuel with
  | O => None
  | S fuel' =>
      let? xu := foldo (clear_row n d i) (seq (S i) (n - S i)) (x, false) in
      let? xu := foldo (clear_col n d i) (seq (S i) (d - S i)) xu in
      if snd xu then clear_cross fuel' n d i (fst xu) else Some (fst xu)
  end.

(** Loop over the rows, math.py:179-223.  [last_j] is [i - 1] in round [i] (line 223
    stores [j = i]), so the column search starts at [i].  [np.all(m[:, j] == 0)] is
    evaluated over all rows, and so is the search of a row to swap (line 186). *)
Definition column_zero (n : nat) (m : mat) (j : nat) : bool :=
  forallb (fun i => get m i j =? 0) (seq 0 n).
Fixpoint diagonalise (n d : nat) (rows : list nat) (x : snf_state) : option snf_state :=
  match rows with
  | [] => Some x
  | i :: rows' =>
      match find (fun j => negb (column_zero n (st_m x) j)) (seq i (d - i)) with
      | None => Some x
      | Some j =>
          let x1 := if get (st_m x) i j =? 0 then
                      match find (fun ii => negb (get (st_m x) ii j =? 0)) (seq 0 n) with
                      | Some ii => row_op n d x i ii 0 1 1 0
                      | None => x
                      end
                    else x in
          let x2 := col_op n d x1 j i 0 1 1 0 in
          let? x3 := clear_cross (S (S (Z.abs_nat (get (st_m x2) i i)))) n d i x2 in
          diagonalise n d rows' x3
      end
  end.

(** Body of the last double loop, math.py:225-235. *)
Definition fix_pair (n d i1 : nat) (x : snf_state) (i0 : nat) : option snf_state :=
  let d0 := get (st_m x) i0 i0 in
  let d1 := get (st_m x) i1 i1 in
  let? (c1, c2, g) := gcdex d0 d1 in
  if g =? 0 then Some x
  else
    let c3 := d1 / g in
    let c4 := d0 / g in
    let x1 := row_op n d x i0 i1 1 c2 c3 (c2 * c3 - 1) in
    Some (col_op n d x1 i0 i1 c1 (1 - c1 * c4) 1 (- c4)).
Definition fix_index (n d : nat) (x : snf_state) (i1 : nat) : option snf_state :=
  foldo (fix_pair n d i1) (rev (seq 0 i1)) x.

(** [compute_snf], math.py:149-240, of an n x d integer matrix. *)
Definition compute_snf (n d : nat) (A : mat) : option snf_state :=
  let? x := diagonalise n d (seq 0 n) (mkSnf (eye n) A (eye d)) in
  foldo (fix_index n d) (seq 0 (Nat.min n d)) x.

(** ** Diophantine equations *)

(** numpy's integer [//] and [%]: a zero divisor gives 0 (with a warning).  [Z.div]
    already gives 0; [Z.modulo] does not. *)
Definition np_mod (a b : Z) : Z := if b =? 0 then 0 else a mod b.
Definition np_div (a b : Z) : Z := if b =? 0 then 0 else a / b.

Definition mat_vec (n d : nat) (m : mat) (v : list Z) : list Z :=
  map (fun i => zsum (map (fun j => get m i j * nth j v 0) (seq 0 d))) (seq 0 n).

(** [solve_diophantines], math.py:243-293, of an n x d system; [None] models the
    ValueErrors (infeasible, or [U @ b] with a right-hand side of the wrong length;
    the default right-hand side has [d] components). *)
Definition solve_diophantines (n d : nat) (A : mat) (b : option (list Z))
  : option (list Z * list (list Z)) :=
  let b := match b with Some b => b | None => repeat 0 d end in
  let? x := compute_snf n d A in
  if negb (Nat.eqb (length b) n) then None
  else
    let c := mat_vec n n (st_s x) b in
    let B := fun i => get (st_m x) i i in
    let k := fold_left (fun k i => if B i =? 0 then i else k)
                       (seq 0 (Nat.min n d)) (Nat.min n d) in
    if negb (forallb (fun i => np_mod (nth i c 0) (B i) =? 0) (seq 0 k)) then None
    else Some (map (fun r => zsum (map (fun i => get (st_t x) r i * np_div (nth i c 0) (B i)) (seq 0 k)))
                   (seq 0 d),
               map (fun j => map (fun r => get (st_t x) r j) (seq 0 d)) (seq k (d - k))).
