(** Rational approximations (smol/utils/math.py:61-138).

    Simplification: a float is its exact rational value. *)
From Verif Require Export Cluster.
Set Implicit Arguments.
Open Scope Z_scope.

Definition qfrac (n d : Z) : Qc := Qc_frac n (Z.to_pos d).
(** The loop of CPython's [Fraction.limit_denominator]; [None] when more than [fuel] rounds are needed. *)
Fixpoint ld_loop (fuel : nat) (maxd p0 q0 p1 q1 n d : Z) : option (Z * Z * Z * Z) :=
  match fuel with
  | O => None
  | S f =>
      let a := n / d in
      let q2 := q0 + a * q1 in
      if maxd <? q2 then Some (p0, q0, p1, q1) else ld_loop f maxd p1 q1 (p0 + a * p1) q2 d (n - a * d)
  end.
(** [Fraction.limit_denominator], called in math.py:77. *)
Definition limit_denominator (maxd : Z) (x : Qc) : option Qc :=
  let n := Qnum (this x) in
  let d := Zpos (Qden (this x)) in
  if d <=? maxd then Some x
  else
    let? (p0, q0, p1, q1) := ld_loop (Z.to_nat maxd + 3) maxd 0 1 1 0 n d in
    let k := (maxd - q0) / q1 in
    let bound1 := qfrac (p0 + k * p1) (q0 + k * q1) in
    let bound2 := qfrac p1 q1 in
    Some (if Qcleb (qabs (bound2 - x)) (qabs (bound1 - x)) then bound2 else bound1).
(** [rationalize_number], math.py:61-86; [None] is the ValueError. *)
Definition rationalize_number (maxd : Z) (tol x : Qc) : option (Z * Z) :=
  let? f := limit_denominator maxd x in
  if Qcltb tol (qabs (f - x)) then None else Some (Qnum (this f), Zpos (Qden (this f))).
(** [integerize_vector], math.py:89-116; an empty [np.lcm.reduce] is a ValueError. *)
Definition integerize_vector (maxd : Z) (tol : Qc) (v : list Qc) : option (list Z * Z) :=
  let? fs := opt_map (rationalize_number maxd tol) v in
  match fs with
  | [] => None
  | _ => let lcm := fold_left Z.lcm (map snd fs) 1 in
         Some (map (fun c => qround (c * Qc_of_Z lcm)%Qc) v, lcm)
  end.
(** [integerize_multiple], math.py:119-138, of a matrix as the list of its rows (all of length [d]). *)
Fixpoint chunks {A} (rows d : nat) (l : list A) : list (list A) :=
  match rows with O => [] | S r => firstn d l :: chunks r d (skipn d l) end.
Definition integerize_multiple (maxd : Z) (tol : Qc) (d : nat) (vs : list (list Qc)) : option (list (list Z) * Z) :=
  let? (flat, mul) := integerize_vector maxd tol (concat vs) in
  Some (chunks (length vs) d flat, mul).
