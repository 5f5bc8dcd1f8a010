(** Vocabulary for sampling runs. *)
From Verif Require Export Sampler KernelSpec ContainerSpec.
Set Implicit Arguments.
Open Scope nat_scope.

(** Recorded values equal those computed from scratch for the recorded occupancy. *)
Definition consistent (K : mckernel) (x : wtrace) : Prop :=
  w_feat x = k_feat K (w_occu x) /\
  w_enth x = enthalpy K (w_occu x) /\
  w_bias x = match k_bias K with Some b => Some (b_value b (w_occu x)) | None => None end.

(** A walker whose proposals stay in [S] and whose change functions are exact there. *)
Definition exact_on (K : mckernel) (S : list nat -> Prop) : Prop :=
  forall o st, S o -> outcome (k_propose K o) st -> S (apply_step o st) /\ exact_changes K o st.

(** The stream only yields proposals of the walkers' MCUshers. *)
Definition proposes (ws : list walker) (S : nat -> list nat -> Prop) (draws : stream) : Prop :=
  forall t i w o, nth_error ws i = Some w -> S i o -> outcome (k_propose (wk_kernel w) o) (fst (draws t i o)).

(** The state of all walkers after [t] MC steps, step by step. *)
Inductive after (ws : list walker) (draws : stream) (xs : sample wtrace) : nat -> sample wtrace -> Prop :=
| after_0 : after ws draws xs 0 xs
| after_S : forall t ys zs, after ws draws xs t ys -> length zs = length ys ->
    (forall i w y z, nth_error ws i = Some w -> nth_error ys i = Some y -> nth_error zs i = Some z ->
       walk_step w (draws t i) y = Some z) ->
    after ws draws xs (S t) zs.
