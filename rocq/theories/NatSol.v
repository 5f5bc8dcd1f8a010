(** Model of the enumeration of integer points of [smol/utils/math.py]:
    [get_one_dim_solutions] and [get_natural_solutions].

    Quotients are exact rationals; floats are not modelled.  [step] is a positive
    integer.  The linear program of [get_first_dim_extremes] is an oracle. *)
From Coq Require Export QArith Qround Qabs.
From Verif Require Export IntMath.
Set Implicit Arguments.
Open Scope Z_scope.

Definition qgtb (a b : Q) : bool := negb (Qle_bool a b).

(** The loop of math.py:422-433 over the pairs [(n0[i], v[i])]; bounds are [None]
    while infinite; the result is [None] when line 433 returns. *)
Fixpoint margins (l : list (Z * Z)) (lo hi : option Q) : option (option Q * option Q) :=
  match l with
  | [] => Some (lo, hi)
  | (n, v) :: l' =>
      if 0 <? v then
        let q := (inject_Z (- n) / inject_Z v)%Q in
        margins l' (match lo with
                    | None => Some q
                    | Some m => if qgtb q m then Some q else Some m
                    end) hi
      else if v <? 0 then
        let q := (inject_Z (- n) / inject_Z v)%Q in
        margins l' lo (match hi with
                       | None => Some q
                       | Some m => if qgtb m q then Some q else Some m
                       end)
      else if n <? 0 then None else margins l' lo hi
  end.

(** [round(x) if abs(x - round(x)) <= tol else x], math.py:439-440 and 539-540.
    Ties are not rounded to even; they only matter for tolerances of 1/2 or more. *)
Definition snap (tol x : Q) : Q :=
  let r := inject_Z (Qfloor (x + (1 # 2))%Q) in
  if Qle_bool (Qabs (x - r)) tol then r else x.

(** [np.arange(a, b, step)] for a positive step. *)
Definition arange (a b step : Z) : list Z :=
  map (fun k => a + Z.of_nat k * step) (seq 0 (Z.to_nat ((b - a + step - 1) / step))).

(** math.py:439-447 *)
Definition int_range (tol : Q) (step : Z) (lo hi : Q) : list Z :=
  let a := Qceiling (snap tol lo) in
  let b := Qfloor (snap tol hi) in
  if b <? a then [] else arange a (b + 1) step.

(** [get_one_dim_solutions], math.py:396-447; [None] models the ValueError and, for a
    [v] longer than [n0], the IndexError. *)
Definition one_dim (tol : Q) (step : Z) (n0 v : list Z) : option (list Z) :=
  if (length n0 <? length v)%nat then None
  else match margins (combine n0 v) None None with
       | None => Some []
       | Some (Some lo, Some hi) => Some (int_range tol step lo hi)
       | Some _ => None
       end.

(** [get_natural_solutions], math.py:484-563.  [lp n0 vs] is the result of
    [get_first_dim_extremes(-vs.T, n0)], [None] when it raises. *)
Fixpoint natural (lp : list Z -> list (list Z) -> option (Q * Q)) (tol : Q) (step : Z)
  (n0 : list Z) (vs : list (list Z)) : option (list (list Z)) :=
  match vs with
  | [] => None
  | v :: vs' =>
      match vs' with
      | [] => let? sols := one_dim tol step n0 v in Some (map (fun x => [x]) sols)
      | _ :: _ =>
          let? (lo, hi) := lp n0 vs in
          let? parts := opt_map (fun m =>
              let? sols := natural lp tol step (vadd (vscale m v) n0) vs' in
              Some (map (cons m) sols)) (int_range tol step lo hi) in
          Some (concat parts)
      end
  end.
