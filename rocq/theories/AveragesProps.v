(** Property C148: averages over the steps of Metropolis sampling converge to averages of the Boltzmann distribution. *)
From Verif Require Import LibProofs ProbProofs OccuUtilsSpec OccuUtilsProofs OccuUtilsProps UsherSpec UsherProofs UsherProps KernelSpec KernelProofs KernelProps TableFlipProps SiteRotationProofs ReachProps.
From Coq Require Import Lia Lra.
Set Implicit Arguments.
Unset Strict Implicit.
Local Open Scope R_scope.

(** ** Specification *)
(** The expected value of [f] after one step from [o]: over the proposals, and over the draw that accepts or rejects one. *)
Definition expect_step (K : mckernel) (rule : Qc -> R -> option R -> R) (f : list nat -> R) (o : list nat) : R :=
  rsum (map (fun p => match snd p with
     | Some st => match k_logp K o st with
                  | Some lf => let d := compute_step_trace K o st in let a := accept_prob (rule (d_enth d) lf (d_bias d)) in
                               Qc2R (fst p) * (a * f (apply_step o st) + (1 - a) * f o)
                  | None => 0
                  end
     | None => 0
     end) (k_propose K o)).
(** The expected value after [n] steps. *)
Fixpoint expect_after (K : mckernel) (rule : Qc -> R -> option R -> R) (n : nat) (f : list nat -> R) (o : list nat) : R :=
  match n with O => f o | S n' => expect_step K rule (expect_after K rule n' f) o end.
(** The expected average over the first [n] occupancies of a run from [o]. *)
Definition expected_average (K : mckernel) (rule : Qc -> R -> option R -> R) (n : nat) (f : list nat -> R) (o : list nat) : R :=
  rsum (map (fun k => expect_after K rule k f o) (seq 0 n)) / INR n.
(** The average of [f] with weights. *)
Definition weighted_average (w f : list nat -> R) (X : list (list nat)) : R := rsum (map (fun o => w o * f o) X) / rsum (map w X).

(** ** Almost harmonic functions *)
Lemma rsum_le {A} (f g : A -> R) l : (forall x, In x l -> f x <= g x) -> rsum (map f l) <= rsum (map g l).
Proof. induction l as [|a l IH]; intros H; cbn; [lra|]. pose proof (H a (or_introl eq_refl)). assert (rsum (map f l) <= rsum (map g l)) by (apply IH; intros; apply H; right; auto). unfold rsum in *. lra. Qed.
Lemma bounded {A} (f : A -> R) l : exists B, 0 <= B /\ forall x, In x l -> Rabs (f x) <= B.
Proof.
  induction l as [|a l (B & HB & H)]; [exists 0; split; [lra|intros x []]|]. exists (B + Rabs (f a)). pose proof (Rabs_pos (f a)). split; [lra|]. intros x [<-|Hx]; [lra|]. specialize (H x Hx). lra.
Qed.
Section Averages.
Context (K : mckernel) (beta : R) (X : list (list nat)).
Hypothesis ND : NoDup X.
Hypothesis Safe : forall o, In o X -> never_raises (k_propose K o) /\ prob (k_propose K o) (fun _ => true) = 1%Qc.
Hypothesis Pos : forall o, In o X -> pos_prog (k_propose K o).
Hypothesis Closed : forall o st, In o X -> outcome (k_propose K o) st -> In (apply_step o st) X /\ exists r, k_logp K o st = Some r.
Hypothesis Bal : forall o o', In o X -> In o' X ->
  stationary_weight K beta o * move_prob K (metropolis_rule beta) o o' = stationary_weight K beta o' * move_prob K (metropolis_rule beta) o' o.
Hypothesis Con : forall o o', In o X -> In o' X -> reached (k_propose K) o o'.
Hypothesis NE : X <> [].
Local Notation P := (step_prob K (metropolis_rule beta)).
Local Notation w := (stationary_weight K beta).
Local Notation T := (expect_step K (metropolis_rule beta)).
Local Notation E := (expect_after K (metropolis_rule beta)).
Let row := P_row beta ND Safe Closed.

(** The expectation after a step is the sum over the occupancies. *)
Lemma T_sum f o : In o X -> T f o = rsum (map (fun o' => P o o' * f o') X).
Proof.
  intros Ho. unfold expect_step, step_prob.
  rewrite (rsum_map_ext (f := fun o' => rsum _ * f o') (g := fun o' => rsum (map (fun p => (match snd p with
     | Some st => match k_logp K o st with
                  | Some lf => let d := compute_step_trace K o st in let a := accept_prob (metropolis_rule beta (d_enth d) lf (d_bias d)) in
                               Qc2R (fst p) * ((if occu_eqb (apply_step o st) o' then a else 0) + (if occu_eqb o o' then 1 - a else 0))
                  | None => 0 end
     | None => 0 end) * f o') (k_propose K o)))); [|intros o' _; symmetry; apply rsum_map_scale].
  rewrite rs_swap. apply rsum_map_ext. intros [q [st|]] Hp; cbn [fst snd].
  - destruct (Closed Ho (ex_intro _ q Hp)) as [C [r Er]]. rewrite Er. cbv zeta. match goal with |- context [accept_prob ?e] => generalize (accept_prob e) end. intros a.
    rewrite (rsum_map_ext (g := fun o' => Qc2R q * ((if occu_eqb (apply_step o st) o' then a * f (apply_step o st) else 0) + (if occu_eqb o o' then (1 - a) * f o else 0)))).
    + rewrite rs_scale, rs_plus, !rsum_indicator by auto. reflexivity.
    + intros o' _. unfold occu_eqb. destruct (list_eq_dec Nat.eq_dec (apply_step o st) o') as [E1|E1], (list_eq_dec Nat.eq_dec o o') as [E2|E2]; rewrite ?E1; try rewrite E2; try ring.
  - rewrite rsum_map_0; [reflexivity|]. intros; lra.
Qed.
Lemma T_bound f B o : In o X -> (forall x, In x X -> Rabs (f x) <= B) -> Rabs (T f o) <= B.
Proof.
  intros Ho H. rewrite T_sum by auto. assert (L : - B <= rsum (map (fun o' => P o o' * f o') X) <= B); [|apply Rabs_le; lra].
  assert (Q : forall k, rsum (map (fun o' => P o o' * k) X) = k). { intros k. rewrite rsum_map_scale. change (fun x => P o x) with (P o). rewrite row by auto. lra. }
  split; [rewrite <- (Q (- B))|rewrite <- (Q B)]; apply rsum_le; intros x Hx; apply Rmult_le_compat_l; try (apply (P_nonneg beta Pos); auto); specialize (H x Hx); apply Rabs_def2_le in H || (unfold Rabs in H; destruct (Rcase_abs (f x)); lra).
Qed.
Lemma E_bound f B n : forall o, In o X -> (forall x, In x X -> Rabs (f x) <= B) -> Rabs (E n f o) <= B.
Proof. induction n as [|n IH]; intros o Ho H; [apply H; auto|]. cbn [expect_after]. apply T_bound; auto. Qed.
(** The weights keep averages. *)
Lemma w_T f : rsum (map (fun o => w o * T f o) X) = rsum (map (fun o => w o * f o) X).
Proof.
  rewrite (rsum_map_ext (g := fun o => rsum (map (fun o' => w o * P o o' * f o') X))).
  - rewrite rs_swap. apply rsum_map_ext. intros o' Ho'. rewrite (rsum_map_ext (g := fun o => (w o' * f o') * P o' o)).
    + rewrite rs_scale. change (fun x => P o' x) with (P o'). rewrite row by auto. ring.
    + intros o Ho. rewrite (P_balance Bal Ho Ho'). ring.
  - intros o Ho. rewrite T_sum by auto. rewrite <- rs_scale. apply rsum_map_ext. intros; ring.
Qed.
Lemma w_E f n : rsum (map (fun o => w o * E n f o) X) = rsum (map (fun o => w o * f o) X).
Proof. induction n as [|n IH]; auto. cbn [expect_after]. rewrite w_T. auto. Qed.

Definition almost (h : list nat -> R) (e : R) : Prop := forall o, In o X -> Rabs (T h o - h o) <= e.
(** Along a path the distance from an upper bound grows by a factor that does not depend on the function. *)
Lemma path_bound l : forall a, In a X -> chained (k_propose K) a l -> forall C0, 0 <= C0 ->
  exists C, 0 <= C /\ forall h M e, 0 <= e -> almost h e -> (forall x, In x X -> h x <= M) -> M - h a <= C0 * e -> M - h (fold_left apply_step l a) <= C * e.
Proof.
  intros a Ha Hl. revert Ha. induction Hl as [a|a st l Hst Hl IH]; intros Ha C0 H0; [exists C0; split; auto|]. cbn [fold_left].
  destruct (Closed Ha Hst) as [Hb _]. pose proof (P_step beta Pos Closed Ha Hst) as Pp. set (p := P a (apply_step a st)) in *.
  assert (I : 0 < / p) by (apply Rinv_0_lt_compat; auto).
  destruct (IH Hb ((C0 + 1) * / p)) as (C & HC & H); [apply Rmult_le_pos; lra|]. exists C. split; auto. intros h M e He A U D. apply (H h M e); auto.
  assert (G : p * (M - h (apply_step a st)) <= (C0 + 1) * e).
  { assert (Z : p * (M - h (apply_step a st)) <= rsum (map (fun o' => P a o' * (M - h o')) X)).
    { unfold p. assert (NN : forall x, In x X -> 0 <= P a x * (M - h x)) by (intros x Hx; apply Rmult_le_pos; [apply (P_nonneg beta Pos); auto|specialize (U x Hx); lra]).
      clear - Hb NN. induction X as [|y Y IH]; [destruct Hb|]. assert (N2 : 0 <= rsum (map (fun o' => P a o' * (M - h o')) Y)).
      { clear - NN. induction Y as [|z Y IH]; cbn; [lra|]. pose proof (NN z (or_intror (or_introl eq_refl))). assert (0 <= rsum (map (fun o' => P a o' * (M - h o')) Y)); [apply IH; intros x [<-|Hx]; apply NN; [left; auto|right; right; auto]|]. unfold rsum in *. lra. }
      cbn. pose proof (NN y (or_introl eq_refl)). destruct Hb as [->|Hb]; [unfold rsum in *; lra|]. specialize (IH Hb (fun x Hx => NN x (or_intror Hx))). unfold rsum in *. lra. }
    rewrite (rsum_map_ext (g := fun o' => M * P a o' + (-1) * (P a o' * h o'))) in Z; [|intros; ring]. rewrite rs_plus, !rs_scale in Z. change (fun x => P a x) with (P a) in Z. rewrite row in Z by auto. rewrite <- T_sum in Z by auto.
    specialize (A a Ha). unfold Rabs in A. destruct (Rcase_abs (T h a - h a)); lra. }
  apply (Rmult_le_reg_l p); auto. replace (p * ((C0 + 1) * / p * e)) with ((C0 + 1) * e) by (field; lra). exact G.
Qed.
Lemma max_of {A} (Q : A -> R -> Prop) l : (forall x, In x l -> exists C, 0 <= C /\ forall C', C <= C' -> Q x C') -> exists C, 0 <= C /\ forall x, In x l -> forall C', C <= C' -> Q x C'.
Proof.
  induction l as [|a l IH]; intros H; [exists 0; split; [lra|intros x []]|]. destruct (H a (or_introl eq_refl)) as (C1 & P1 & Q1). destruct IH as (C2 & P2 & Q2); [intros; apply H; right; auto|].
  exists (C1 + C2). split; [lra|]. intros x [<-|Hx] C' HC; [apply Q1; lra|apply Q2; auto; lra].
Qed.
Lemma almost_constant : exists C, 0 <= C /\ forall h e, 0 <= e -> almost h e -> forall a b, In a X -> In b X -> h a - h b <= C * e.
Proof.
  destruct (@max_of _ (fun m C => forall b, In b X -> forall h M e, 0 <= e -> almost h e -> (forall x, In x X -> h x <= M) -> M - h m <= 0 -> M - h b <= C * e) X) as (C & HC & H).
  { intros m Hm. destruct (@max_of _ (fun b C => forall h M e, 0 <= e -> almost h e -> (forall x, In x X -> h x <= M) -> M - h m <= 0 -> M - h b <= C * e) X) as (C & HC & H).
    - intros b Hb. destruct (Con Hm Hb) as (l & Hl & El). destruct (@path_bound l m Hm Hl 0) as (C & HC & H); [lra|]. exists C. split; auto. intros C' L h M e He A U D. rewrite <- El.
      apply Rle_trans with (C * e); [apply (H h M e); auto; lra|apply Rmult_le_compat_r; auto].
    - exists C. split; [exact HC|]. intros C' L b Hb. apply (H b Hb C' L). }
  exists C. split; auto. intros h e He A a b Ha Hb. destruct (@arg_max _ h X NE) as (m & Hm & M). assert (h m - h b <= C * e) by (apply (H m Hm C (Rle_refl C) b Hb h (h m) e); auto; lra). specialize (M a Ha). lra.
Qed.
(** Averages of expectations are almost harmonic. *)
Lemma T_lin (f : nat -> list nat -> R) c l o : In o X -> T (fun x => rsum (map (fun k => f k x) l) / c) o = rsum (map (fun k => T (f k) o) l) / c.
Proof.
  intros Ho. rewrite T_sum by auto. rewrite (rsum_map_ext (f := fun k => T (f k) o) (g := fun k => rsum (map (fun o' => P o o' * f k o') X))); [|intros; apply T_sum; auto].
  rewrite rs_swap. unfold Rdiv. rewrite <- rsum_map_scale. apply rsum_map_ext. intros x _. rewrite rs_scale. ring.
Qed.
Lemma telescope (g : nat -> R) n : rsum (map (fun k => g (S k)) (seq 0 n)) - rsum (map g (seq 0 n)) = g n - g 0%nat.
Proof.
  induction n as [|n IH]; [cbn; lra|]. rewrite seq_S, !map_app, !LinProofs.rsum_app. cbn [map plus]. unfold rsum at 2 4. cbn [fold_right]. lra.
Qed.
Lemma averages_almost f B n : (0 < n)%nat -> (forall x, In x X -> Rabs (f x) <= B) -> almost (expected_average K (metropolis_rule beta) n f) (2 * B / INR n).
Proof.
  intros Hn HB o Ho. unfold expected_average. pose proof (lt_0_INR n Hn) as Np. rewrite T_lin by auto. unfold Rdiv. rewrite <- Rmult_minus_distr_r.
  pose proof (telescope (fun j => E j f o) n) as Te. cbv beta in Te. cbn [expect_after] in Te.
  change (fun k => T (fun x => E k f x) o) with (fun k => T (E k f) o). rewrite Te. change (f o) with (E 0 f o).
  rewrite Rabs_mult, (Rabs_pos_eq (/ INR n)) by (apply Rlt_le, Rinv_0_lt_compat; auto). apply Rmult_le_compat_r; [apply Rlt_le, Rinv_0_lt_compat; auto|].
  apply Rle_trans with (Rabs (E n f o) + Rabs (E 0 f o)); [unfold Rminus; rewrite <- (Rabs_Ropp (E 0 f o)); apply Rabs_triang|]. pose proof (@E_bound f B n o Ho HB). pose proof (@E_bound f B 0 o Ho HB). lra.
Qed.
Lemma average_mean f n : (0 < n)%nat -> rsum (map (fun o => w o * expected_average K (metropolis_rule beta) n f o) X) = rsum (map (fun o => w o * f o) X).
Proof.
  intros Hn. pose proof (lt_0_INR n Hn) as Np. unfold expected_average. rewrite (rsum_map_ext (g := fun o => rsum (map (fun k => w o * E k f o) (seq 0 n)) * / INR n)).
  - rewrite rsum_map_scale, rs_swap. rewrite (rsum_map_ext (g := fun _ => rsum (map (fun o => w o * f o) X))); [|intros; apply w_E]. rewrite rs_const, seq_length. field. lra.
  - intros o _. unfold Rdiv. rewrite rs_scale. ring.
Qed.
Lemma averages_converge f : exists C, 0 <= C /\ forall n o, (0 < n)%nat -> In o X -> Rabs (expected_average K (metropolis_rule beta) n f o - weighted_average w f X) <= C / INR n.
Proof.
  destruct (bounded f X) as (B & HB & Hf). destruct almost_constant as (C & HC & H). exists (C * (2 * B)). split; [apply Rmult_le_pos; lra|]. intros n o Hn Ho.
  pose proof (lt_0_INR n Hn) as Np. pose proof (Rinv_0_lt_compat _ Np) as Ip. set (h := expected_average K (metropolis_rule beta) n f). set (e := 2 * B / INR n).
  assert (He : 0 <= e) by (unfold e, Rdiv; apply Rmult_le_pos; lra). pose proof (H h e He (averages_almost Hn Hf)) as D. replace (C * (2 * B) / INR n) with (C * e) by (unfold e; field; lra).
  assert (W : 0 < rsum (map w X)) by (eapply weights_pos; eauto). set (D0 := C * e) in *. clearbody D0.
  assert (Av : weighted_average w f X = rsum (map (fun x => w x * h x) X) / rsum (map w X)) by (unfold weighted_average; f_equal; symmetry; apply average_mean; auto).
  assert (L : (h o - D0) * rsum (map w X) <= rsum (map (fun x => w x * h x) X) <= (h o + D0) * rsum (map w X)).
  { rewrite <- !rs_scale. split; apply rsum_le; intros x Hx; assert (0 < w x) by apply exp_pos; rewrite (Rmult_comm _ (w x)); apply Rmult_le_compat_l; try lra; [specialize (D o x Ho Hx)|specialize (D x o Hx Ho)]; lra. }
  apply Rabs_le. rewrite Av. destruct L as [L1 L2]. apply (Rmult_le_compat_r (/ rsum (map w X))) in L1, L2; try (apply Rlt_le, Rinv_0_lt_compat; auto).
  rewrite Rmult_assoc, Rinv_r, Rmult_1_r in L1, L2 by lra. unfold Rdiv. split; lra.
Qed.
End Averages.

(** ** Averages of runs *)
(** Metropolis sampling with flips: the expected average over the first [n] occupancies differs from the average of the Boltzmann distribution by at most a constant over [n],
    for every start; [X] lists the occupancies that are reached. *)
Theorem C148_flips sls N given u params feat dfeat b beta o X f :
  let K := mkKernel params feat dfeat b (flip_propose u) (fun _ _ => Some 0%R) in
  layout sls N -> mk_usher sls given = Some u -> (forall p x, given = Some p -> In x p -> (0 <= x)%Qc) -> all_chosen u ->
  (forall sl, In sl sls -> sl_active sl <> [] -> (2 <= length (sl_encoding sl))%nat) ->
  (forall a st, valid_occu sls N a -> outcome (flip_propose u a) st -> exact_changes K a st) ->
  valid_occu sls N o -> NoDup X -> (forall o', In o' X <-> reached (flip_propose u) o o') ->
  exists C, 0 <= C /\ forall n o', (0 < n)%nat -> In o' X -> Rabs (expected_average K (metropolis_rule beta) n f o' - weighted_average (stationary_weight K beta) f X) <= C / INR n.
Proof.
  intros K L HU HP HA Two Ex V ND R.
  assert (HX : forall o', In o' X <-> valid_occu sls N o' /\ same_fixed sls o o') by (intros o'; rewrite R; apply (C146_flips L HU HP HA o' V)).
  assert (VX : forall a, In a X -> valid_occu sls N a) by (intros a Ha; apply HX; auto).
  apply averages_converge; auto.
  - intros a Ha. apply (@C05_flip_total sls N given u a); auto.
  - intros a Ha. apply pos_flip.
  - intros a st Ha Hst. split; [|exists 0; auto]. apply HX in Ha as (Va & Fa). apply HX.
    destruct (proj1 (C146_flips L HU HP HA (apply_step a st) Va) (reached_one Hst)) as [V1 F1]. split; auto. eapply fixed_trans; eauto.
  - intros a a' Ha Ha'. apply (@C11_detailed_balance K beta (valid_occu sls N)); auto; [intros; apply pos_flip|]. intros y st Hy Hst.
    destruct (@C05_flip_legal sls N given u y st L HU HP Hy Hst) as (s & c & E & _ & Hv). split; auto. split; auto. exists 0. split; auto. rewrite exp_0, Rmult_1_l. f_equal.
    apply (@C05_flip_symmetric sls N given u); auto.
  - intros a a' Ha Ha'. apply HX in Ha as (Va & Fa). apply HX in Ha' as (Va' & Fa'). apply (C146_flips L HU HP HA a' Va). split; auto. eapply fixed_back; eauto.
  - intros ->. apply (proj2 (HX o)). split; auto. apply fixed_refl.
Qed.
Theorem C148_swaps sls N given u params feat dfeat b beta o X f :
  let K := mkKernel params feat dfeat b (swap_propose u) (fun _ _ => Some 0%R) in
  layout sls N -> mk_usher sls given = Some u -> (forall p x, given = Some p -> In x p -> (0 <= x)%Qc) -> all_chosen u ->
  (forall a st, valid_occu sls N a -> outcome (swap_propose u a) st -> exact_changes K a st) ->
  valid_occu sls N o -> NoDup X -> (forall o', In o' X <-> reached (swap_propose u) o o') ->
  exists C, 0 <= C /\ forall n o', (0 < n)%nat -> In o' X -> Rabs (expected_average K (metropolis_rule beta) n f o' - weighted_average (stationary_weight K beta) f X) <= C / INR n.
Proof.
  intros K L HU HP HA Ex V ND R.
  assert (HX : forall o', In o' X <-> valid_occu sls N o' /\ same_fixed sls o o' /\ same_numbers sls o o') by (intros o'; rewrite R; apply (C146_swaps L HU HP HA o' V)).
  assert (VX : forall a, In a X -> valid_occu sls N a) by (intros a Ha; apply HX; auto).
  apply averages_converge; auto.
  - intros a Ha. apply (@C06_swap_total sls N given u a); auto.
  - intros a Ha. apply pos_swap.
  - intros a st Ha Hst. split; [|exists 0; auto]. apply HX in Ha as (Va & Fa & Ma). apply HX.
    destruct (proj1 (C146_swaps L HU HP HA (apply_step a st) Va) (reached_one Hst)) as (V1 & F1 & M1). split; auto. split; [eapply fixed_trans; eauto|eapply numbers_trans; eauto].
  - intros a a' Ha Ha'. apply (@C11_detailed_balance K beta (valid_occu sls N)); auto; [intros; apply pos_swap|]. intros y st Hy Hst.
    destruct (proj1 (C146_swaps L HU HP HA (apply_step y st) Hy) (reached_one Hst)) as (V1 & _). split; auto. split; auto. exists 0. split; auto. rewrite exp_0, Rmult_1_l. f_equal.
    apply (@C06_swap_symmetric sls N given u); auto.
  - intros a a' Ha Ha'. apply HX in Ha as (Va & Fa & Ma). apply HX in Ha' as (Va' & Fa' & Ma'). apply (C146_swaps L HU HP HA a' Va). split; auto. split; [eapply fixed_back; eauto|eapply numbers_back; eauto].
  - intros ->. apply (proj2 (HX o)). split; auto. split; [apply fixed_refl|intros sl c _; auto].
Qed.
Print Assumptions C148_flips.
Print Assumptions C148_swaps.

(** Non-vacuity: the kernel of C11 with its bias; the average number of sites with code 0. *)
Example C148_case beta : exists X C, In other_occu X /\ In ex_occu X /\ 0 <= C /\ forall n, (0 < n)%nat ->
  Rabs (expected_average KernelProps.ex_kernel (metropolis_rule beta) n (fun o => INR (countb (Nat.eqb 0) o)) ex_occu - weighted_average (stationary_weight KernelProps.ex_kernel beta) (fun o => INR (countb (Nat.eqb 0) o)) X) <= C / INR n.
Proof.
  assert (A : all_chosen UsherProps.ex_usher) by (intros q [<-|[<-|[]]]; reflexivity).
  assert (T : forall sl, In sl ex_layout -> sl_active sl <> [] -> (2 <= length (sl_encoding sl))%nat) by (intros sl [<-|[<-|[]]] _; cbn; lia).
  assert (G : forall p x, @None (list Qc) = Some p -> In x p -> (0 <= x)%Qc) by discriminate.
  pose proof (@C147_flips ex_layout 5 None UsherProps.ex_usher [Qc_frac 3 2; 1%Qc] ex_feat ex_dfeat (Some ex_bias) beta ex_occu ex_layout_ok eq_refl G A T (fun a st _ _ => KernelProps.ex_kernel_exact a st) ex_occu_ok) as (X & ND & R & _).
  pose proof (@C148_flips ex_layout 5 None UsherProps.ex_usher [Qc_frac 3 2; 1%Qc] ex_feat ex_dfeat (Some ex_bias) beta ex_occu X (fun o => INR (countb (Nat.eqb 0) o)) ex_layout_ok eq_refl G A T (fun a st _ _ => KernelProps.ex_kernel_exact a st) ex_occu_ok ND R) as (C & HC & H).
  assert (I : In ex_occu X) by (apply R; apply reached_refl).
  exists X, C. split; [|split; [exact I|split; [exact HC|]]].
  - apply R. apply (@C146_flips ex_layout 5 None UsherProps.ex_usher ex_layout_ok eq_refl G A ex_occu other_occu ex_occu_ok). split; [apply other_valid|apply other_fixed].
  - intros n Hn. apply H; auto.
Qed.
