(** Vocabulary for the Wang-Landau properties. *)
From Verif Require Export WangLandau KernelSpec.
Set Implicit Arguments.
Open Scope nat_scope.

(** A run: every step is one the MCUsher can propose, every random number is in (0,1).
    [tr] lists the occupancies after each step, latest first. *)
Inductive wl_run (C : wl_config) (K : mckernel) (w : wl) : list (list nat) -> wl -> Prop :=
| run_start : wl_run C K w [] w
| run_step tr w1 st u w2 :
    wl_run C K w tr w1 -> outcome (k_propose K (wl_occu w1)) st -> (0 < u < 1)%R ->
    wl_step C K w1 st u = Some w2 -> wl_run C K w (wl_occu w2 :: tr) w2.

(** Kernels with exact changes and a defined a-priori factor on a set of occupancies closed
    under proposals. *)
Definition good_kernel (K : mckernel) (S : list nat -> Prop) : Prop :=
  k_bias K = None /\
  (forall o, S o -> length (k_feat K o) = length (k_params K)) /\
  (forall o st, S o -> outcome (k_propose K o) st ->
     S (apply_step o st) /\ exact_changes K o st /\ exists r, k_logp K o st = Some r).

(** The bin of an enthalpy: bin [b] holds the enthalpies from [min + b*size] to
    [min + (b+1)*size], right end excluded. *)
Definition in_bin (C : wl_config) (b : nat) (e : Qc) : Prop :=
  (c_min C + Qc_of_nat b * c_bin C <= e)%Qc /\ (e < c_min C + Qc_of_nat (b + 1) * c_bin C)%Qc.

(** Flatness in words: at least two visited bins, and every visited bin has more counts than
    the flatness factor times the average count of the visited bins. *)
Definition visited (w : wl) (b : nat) : Prop := exists s, nth_error (wl_S w) b = Some s /\ (0 < s)%Qc.

Definition in_binb (C : wl_config) (b : nat) (e : Qc) : bool :=
  Qcleb (c_min C + Qc_of_nat b * c_bin C) e && Qcltb e (c_min C + Qc_of_nat (b + 1) * c_bin C).
Definition visited_bins (C : wl_config) (S : list Qc) : list nat :=
  filter (fun b => Qcltb 0 (nth b S 0%Qc)) (seq 0 (n_levels C)).
Definition flat_counts (C : wl_config) (S : list Qc) (H : list nat) : Prop :=
  let V := visited_bins C S in
  2 <= length V /\
  forall b, In b V ->
    (c_flat C * (Qc_of_nat (list_sum (map (fun b' => nth b' H 0%nat) V)) / Qc_of_nat (length V)) < Qc_of_nat (nth b H 0%nat))%Qc.
