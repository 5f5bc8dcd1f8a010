(** Model of [smol/moca/analysis/convergence.py].

    Simplifications: values are exact rationals instead of floating point numbers.  The standard deviation is a square root, so
    it is compared by squares: [std < s] as [0 < s] and [variance < s * s], and [|d| < std] as [d * d < variance] (C54_judged
    relates this to real square roots).  [last_m], [init_discard] and [increment] are natural numbers. *)
From Verif Require Export QcLib.
Set Implicit Arguments.
Open Scope nat_scope.

(** [np.average], convergence.py:60. *)
Definition mean (xs : list Qc) : Qc := (qsum xs / Qc_of_nat (length xs))%Qc.
(** The square of [np.std], convergence.py:43. *)
Definition variance (xs : list Qc) : Qc := mean (map (fun x => (x - mean xs) * (x - mean xs))%Qc xs).
(** [x < mean + tol and x > mean - tol], convergence.py:76-79 and 89-91; a tolerance of [None] is the standard deviation,
    convergence.py:57-58. *)
Definition close (xs : list Qc) (tol : option Qc) (x : Qc) : bool :=
  match tol with
  | Some c => Qcltb x (mean xs + c) && Qcltb (mean xs - c) x
  | None => Qcltb ((x - mean xs) * (x - mean xs)) (variance xs)
  end%Qc.
(** [np.divide(np.cumsum(a), np.arange(1, n + 1))], convergence.py:88. *)
Definition cumulative_means (xs : list Qc) : list Qc := map (fun k => mean (firstn (S k) xs)) (seq 0 (length xs)).
(** The slice [a[-m:]], which is all of [a] for [m = 0]. *)
Definition last_slice (m : nat) (a : list Qc) : list Qc := match m with 0 => a | _ => skipn (length a - m) a end.
(** [last_m], convergence.py:63-72. *)
Definition window (last_m : option nat) (n : nat) : nat :=
  match last_m with None => n / 10 | Some m => if n <? m then n / 10 else m end.
(** [check_property_converged], convergence.py:10-102; [None] is the IndexError of [property_array[-1]] for an empty array. *)
Definition check_converged (xs : list Qc) (conv_tol : option Qc) (min_std : Qc) (last_m : option nat) : option bool :=
  match rev xs with
  | [] => None
  | last_value :: _ =>
      if Qcltb 0 min_std && Qcltb (variance xs) (min_std * min_std) then Some true
      else Some (close xs conv_tol last_value && forallb (close xs conv_tol) (last_slice (window last_m (length xs)) (cumulative_means xs)))
  end.
(** The default parameters, convergence.py:11. *)
Definition check_default (xs : list Qc) : option bool := check_converged xs None (Qc_frac 1 10000) None.

(** [init_discard], convergence.py:131-139. *)
Definition initial (init_discard : option nat) (n : nat) : nat :=
  match init_discard with None => n / 10 | Some m => if n <? m then n / 10 else m end.
(** [np.arange(init, n - step, step)] with [step = (n - init) / increment] and [int] of its entries, convergence.py:141-145: the
    entries are [init + i * step] for [i] below [(n - step - init) / step = increment - 1], in exact arithmetic. *)
Definition discard_values (init n increment : nat) : list nat := map (fun i => init + (i * (n - init)) / increment) (seq 0 (increment - 1)).
Fixpoint search (xs : list Qc) (ds : list nat) : option nat :=
  match ds with
  | [] => Some 0
  | d :: ds' => let? b := check_default (skipn d xs) in if b then Some d else search xs ds'
  end.
(** [determine_discard_number], convergence.py:105-155; [None] is an increment of 0 or a step of 0 (both ZeroDivisionError). *)
Definition determine_discard (xs : list Qc) (init_discard : option nat) (increment : nat) : option nat :=
  let n := length xs in
  let init := initial init_discard n in
  if (increment =? 0) || (n <=? init) then None else search xs (discard_values init n increment).
