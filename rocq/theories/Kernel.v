(** Model of [smol/moca/kernel/base.py] (single steps, initial traces, temperature),
    [metropolis.py] and [random.py].

    Features and enthalpies are exact rationals, biases, a-priori factors and the
    acceptance exponent are reals.  The random numbers drawn by [rng.random()] are
    arguments. *)
From Verif Require Export Usher RLib.
Set Implicit Arguments.
Open Scope nat_scope.

(** [np.dot] and [+=] on vectors are [qdot] and [qvadd] of QcLib.v. *)

(** An [MCBias]: [compute_bias] and [compute_bias_change]. *)
Record bias := mkBias { b_value : list nat -> R; b_change : list nat -> step -> R }.

(** An [MCKernel], base.py:169-238: the natural parameters read from the ensemble when
    the kernel is built, the ensemble's feature functions, the bias if any, and the
    MCUsher with its a-priori factor ([None] when it raises). *)
Record mckernel := mkKernel {
  k_params : list Qc;
  k_feat : list nat -> list Qc;
  k_dfeat : list nat -> step -> list Qc;
  k_bias : option bias;
  k_propose : list nat -> prog step;
  k_logp : list nat -> step -> option R
}.

(** The [delta_trace] of [_compute_step_trace], base.py:290-312. *)
Record delta_trace := mkDelta { d_feat : list Qc; d_enth : Qc; d_bias : option R }.
Definition compute_step_trace (K : mckernel) (occu : list nat) (st : step) : delta_trace :=
  let df := k_dfeat K occu st in
  mkDelta df (qdot (k_params K) df)
          (match k_bias K with Some b => Some (b_change b occu st) | None => None end).

(** [True if exponent >= 0 else exponent > log(rng.random())]; [math.log(0)] raises. *)
Definition accept_test (e u : R) : option bool :=
  if Rle_dec 0 e then Some true
  else if Rle_dec u 0 then None
  else Some (if Rlt_dec (ln u) e then true else false).

Definition add_bias (e : R) (db : option R) : R :=
  match db with Some b => (e + b)%R | None => e end.

(** [MetropolisAcceptMixin._accept_step], metropolis.py:31-49. *)
Definition metropolis_rule (beta : R) (denth : Qc) (lf : R) (db : option R) : R :=
  add_bias (- beta * Qc2R denth + lf)%R db.
(** [UniformlyRandom._accept_step], random.py:28-36. *)
Definition random_rule (denth : Qc) (lf : R) (db : option R) : R := add_bias lf db.

(** The step trace after a step: [occupancy], [accepted] and the delta trace. *)
Record step_trace := mkStep { s_occu : list nat; s_accepted : bool; s_delta : delta_trace }.

(** [StandardSingleStepMixin.single_step], base.py:145-166, with [_do_accept_step]
    (base.py:326-342; the auxiliary state of the modelled MCUshers is empty), for the
    proposed step [st] and the uniform draw [u]. *)
Definition single_step (K : mckernel) (rule : Qc -> R -> option R -> R)
  (occu : list nat) (st : step) (u : R) : option step_trace :=
  let d := compute_step_trace K occu st in
  let? lf := k_logp K occu st in
  let? acc := accept_test (rule (d_enth d) lf (d_bias d)) u in
  let occu' := if acc : bool then apply_step occu st else occu in
  Some (mkStep occu' acc d).

(** A sample trace, one walker: [compute_initial_trace], base.py:344-364. *)
Record wtrace := mkW {
  w_occu : list nat; w_feat : list Qc; w_enth : Qc; w_bias : option R; w_accepted : bool
}.
Definition initial_trace (K : mckernel) (occu : list nat) : wtrace :=
  let f := k_feat K occu in
  mkW occu f (qdot (k_params K) f)
      (match k_bias K with Some b => Some (b_value b occu) | None => None end) true.

(** ** Temperature: [ThermalKernelMixin], base.py:367-435. *)
Record thermal := mkTh { th_kB : Qc; th_T : Qc; th_beta : Qc }.
(** [1.0 / (kB * T)] raises on zero. *)
Definition inv_kT (kB T : Qc) : option Qc :=
  if Qceqb (kB * T) 0 then None else Some (1 / (kB * T))%Qc.
Definition thermal_init (kB T : Qc) : option thermal :=
  let? b := inv_kT kB T in Some (mkTh kB T b).
(** The [kB] setter, base.py:406-410: assigns [_kB] before dividing, so after an
    exception the new constant is kept with the old beta. *)
Definition set_kB (th : thermal) (kB : Qc) : thermal * bool :=
  match inv_kT kB (th_T th) with
  | Some b => (mkTh kB (th_T th) b, true)
  | None => (mkTh kB (th_T th) (th_beta th), false)
  end.
(** The [temperature] setter, base.py:417-421. *)
Definition set_temperature (th : thermal) (T : Qc) : thermal * bool :=
  match inv_kT (th_kB th) T with
  | Some b => (mkTh (th_kB th) T b, true)
  | None => (mkTh (th_kB th) T (th_beta th), false)
  end.

(** A multi-cell Metropolis kernel: its own thermal state and those of its cells.
    The [temperature] setter, metropolis.py:162-168; stops at the first exception. *)
Record mthermal := mkMT { mt_own : thermal; mt_cells : list thermal }.
Fixpoint set_cell_temps (l : list thermal) (T : Qc) : list thermal * bool :=
  match l with
  | [] => ([], true)
  | th :: l' => match set_temperature th T with
                | (th', true) => let (r, ok) := set_cell_temps l' T in (th' :: r, ok)
                | (th', false) => (th' :: l', false)
                end
  end.
Definition set_multicell_temperature (m : mthermal) (T : Qc) : mthermal * bool :=
  match set_temperature (mt_own m) T with
  | (th, true) => let (r, ok) := set_cell_temps (mt_cells m) T in (mkMT th r, ok)
  | (th, false) => (mkMT th (mt_cells m), false)
  end.
(** The inherited [kB] setter of a multi-cell kernel only changes its own state. *)
Definition set_multicell_kB (m : mthermal) (kB : Qc) : mthermal * bool :=
  let (th, ok) := set_kB (mt_own m) kB in (mkMT th (mt_cells m), ok).
