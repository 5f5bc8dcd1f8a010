(** Properties C146 and C147: flips and swaps reach every occupancy, and Metropolis sampling has one stationary distribution. *)
From Verif Require Import LibProofs ProbProofs OccuUtilsSpec OccuUtilsProofs OccuUtilsProps UsherSpec UsherProofs UsherProps KernelSpec KernelProofs KernelProps TableFlipProps SiteRotationProofs SqsCompositionProps.
From Coq Require Import Lia Lra Permutation.
Set Implicit Arguments.
Unset Strict Implicit.
Local Open Scope nat_scope.

(** ** Specification *)
(** An occupancy that is reached by steps that can be proposed one after the other. *)
Definition reached (p : list nat -> prog step) (o o' : list nat) : Prop := exists sts, chained p o sts /\ fold_left apply_step sts o = o'.
(** The same codes on all sites that are active in no sublattice. *)
Definition same_fixed (sls : list sublattice) (o o' : list nat) : Prop :=
  forall s, (forall sl, In sl sls -> ~ In s (sl_active sl)) -> nth_error o s = nth_error o' s.
(** The same number of sites of each code on every sublattice. *)
Definition same_numbers (sls : list sublattice) (o o' : list nat) : Prop := forall sl c, In sl sls -> carried o sl c = carried o' sl c.
(** Every active sublattice can be chosen. *)
Definition all_chosen (u : usher) : Prop := forall q, In q (us_probs u) -> (0 < q)%Qc.

(** ** Counting differences *)
Lemma filter_strict {A} (P Q : A -> bool) l : (forall x, In x l -> P x = true -> Q x = true) -> (exists x, In x l /\ Q x = true /\ P x = false) ->
  length (filter P l) < length (filter Q l).
Proof.
  intros H (x & Hx & HQ & HP). induction l as [|a l IH]; [destruct Hx|]. assert (H' : forall y, In y l -> P y = true -> Q y = true) by (intros y Hy; apply H; right; auto).
  assert (L : length (filter P l) <= length (filter Q l)).
  { clear - H'. induction l as [|b l IH]; auto. assert (IH' : length (filter P l) <= length (filter Q l)) by (apply IH; intros y Hy; apply H'; right; auto). cbn [filter]. specialize (H' b (or_introl eq_refl)).
    destruct (P b); [rewrite H' by auto|destruct (Q b)]; cbn [length]; lia. }
  cbn [filter]. destruct Hx as [->|Hx]; [rewrite HQ, HP; cbn [length]; lia|]. specialize (IH H' Hx). specialize (H a (or_introl eq_refl)). destruct (P a); [rewrite H by auto|destruct (Q a)]; cbn [length]; lia.
Qed.
Lemma filter_same_exchange {A} (P Q : A -> bool) l : length (filter P l) = length (filter Q l) -> (exists x, In x l /\ Q x = true /\ P x = false) -> exists y, In y l /\ P y = true /\ Q y = false.
Proof.
  intros E X. destruct (existsb (fun y => P y && negb (Q y)) l) eqn:Z.
  - apply existsb_exists in Z as (y & Hy & Z). apply andb_true_iff in Z as [Z1 Z2]. apply negb_true_iff in Z2. eauto.
  - exfalso. assert (S : length (filter P l) < length (filter Q l)); [|lia]. apply filter_strict; auto. intros y Hy HP. destruct (Q y) eqn:EQ; auto. exfalso.
    assert (T : existsb (fun y => P y && negb (Q y)) l = true) by (apply existsb_exists; exists y; rewrite HP, EQ; auto). congruence.
Qed.
Definition differs (o o' : list nat) (s : nat) : bool := negb (nth s o 0 =? nth s o' 0).
Definition diff (N : nat) (o o' : list nat) : nat := length (filter (differs o o') (seq 0 N)).
Lemma diff_zero N o o' : length o = N -> length o' = N -> (forall s, s < N -> differs o o' s = false) -> o = o'.
Proof. intros L L' H. apply (nth_ext o o' 0 0); [congruence|]. intros s Hs. specialize (H s ltac:(lia)). unfold differs in H. apply negb_false_iff, Nat.eqb_eq in H. auto. Qed.
Lemma differ_or_same N o o' : length o = N -> length o' = N -> o = o' \/ exists s, s < N /\ differs o o' s = true.
Proof.
  intros L L'. destruct (existsb (differs o o') (seq 0 N)) eqn:E.
  - right. apply existsb_exists in E as (s & Hs & E). apply in_seq in Hs. exists s. split; [lia|auto].
  - left. apply diff_zero with (N := N); auto. intros s Hs. destruct (differs o o' s) eqn:D; auto. rewrite <- E. symmetry. apply existsb_exists. exists s. split; auto. apply in_seq. lia.
Qed.
Lemma nth_upd_same (o : list nat) s c : s < length o -> nth s (upd o s c) 0 = c.
Proof. intros H. apply nth_error_nth. apply nth_error_upd_eq. auto. Qed.
Lemma nth_upd_other (o : list nat) s t c : s <> t -> nth t (upd o s c) 0 = nth t o 0.
Proof. intros H. rewrite !nth_default_eq || idtac. destruct (nth_error o t) as [x|] eqn:E.
  - rewrite (nth_error_nth _ _ 0 E). apply nth_error_nth. rewrite nth_error_upd_neq by auto. auto.
  - rewrite !nth_overflow; auto; [apply nth_error_None; auto|]. rewrite length_upd. apply nth_error_None. auto. Qed.

Lemma reached_refl p o : reached p o o.
Proof. exists []. split; [constructor|auto]. Qed.
Lemma reached_step p o st o' : outcome (p o) st -> reached p (apply_step o st) o' -> reached p o o'.
Proof. intros H (sts & C & E). exists (st :: sts). split; [constructor; auto|exact E]. Qed.

Section Reach.
Context (sls : list sublattice) (N : nat) (given : option (list Qc)) (u : usher).
Hypothesis L : layout sls N.
Hypothesis HU : mk_usher sls given = Some u.
Hypothesis HP : forall p x, given = Some p -> In x p -> (0 <= x)%Qc.
Hypothesis HA : all_chosen u.

Lemma chosen sl s : In sl sls -> In s (sl_active sl) -> exists k q, nth_error (us_active u) k = Some sl /\ nth_error (us_probs u) k = Some q /\ (0 < q)%Qc.
Proof.
  intros H Hs. pose proof (usher_ok_mk HU HP) as O. assert (I : In sl (us_active u)).
  { rewrite (uo_active O). apply filter_In. split; auto. unfold is_active. apply Nat.ltb_lt. destruct (sl_active sl); [destruct Hs|cbn; lia]. }
  apply In_nth_error in I as (k & Hk). exists k. assert (k < length (us_probs u)) by (rewrite <- (uo_len O); apply nth_error_Some; congruence).
  destruct (nth_error (us_probs u) k) as [q|] eqn:E; [|apply nth_error_None in E; lia]. exists q. split; auto. split; auto. apply HA. eapply nth_error_In; eauto.
Qed.
Lemma div_pos a b : (0 < a)%Qc -> (0 < b)%Qc -> (0 < a / b)%Qc.
Proof. intros A B. unfold Qcdiv. assert (I : (0 < / b)%Qc). { unfold Qclt in *. cbn [this Qcinv Q2Qc] in *. apply (Qlt_le_trans _ (/ this b)); [apply Qinv_lt_0_compat; exact B|]. apply Qle_lteq. right. symmetry. apply Qred_correct. }
  replace 0%Qc with (0 * / b)%Qc by ring. apply Qcmult_lt_compat_r; auto. Qed.
Lemma nat_mult_pos a b : 0 < a -> 0 < b -> (0 < Qc_of_nat a * Qc_of_nat b)%Qc.
Proof. intros A B. replace 0%Qc with (0 * Qc_of_nat b)%Qc by ring. apply Qcmult_lt_compat_r; apply Qc_of_nat_pos; auto. Qed.
Lemma flip_possible o s c : valid_occu sls N o -> legal_flip sls o s c -> outcome (flip_propose u o) [(s, c)].
Proof.
  intros V (sl & [I A] & C & Ne). destruct (proj2 V sl s I (@lay_active _ _ L _ _ I A)) as (c0 & E0 & C0). assert (D : c <> c0) by congruence.
  destruct (chosen I A) as (k & q & Hk & Hq & Pq).
  pose proof (@C05_flip_probability sls N given u o k sl q s c0 c L HU HP V Hk Hq A E0 C D) as E.
  match type of E with prob _ ?P = _ => assert (Pos : (0 < prob (flip_propose u o) P)%Qc) end.
  { rewrite E. apply div_pos; auto. apply nat_mult_pos; [destruct (sl_active sl); [destruct A|cbn; lia]|].
    destruct (sl_encoding sl) as [|a [|b r]]; [destruct C| |cbn; lia]. exfalso. destruct C as [<-|[]], C0 as [<-|[]]. auto. }
  apply prob_outcome_ne' in Pos as (st & Hst & M). destruct st as [|[a x] [|? ?]]; try discriminate. apply andb_true_iff in M as [M1 M2]. apply Nat.eqb_eq in M1, M2. subst. auto.
Qed.
Lemma swap_possible o s1 s2 c1 c2 : valid_occu sls N o -> legal_swap sls o s1 s2 c1 c2 -> outcome (swap_propose u o) [(s1, c2); (s2, c1)].
Proof.
  intros V (sl & [I A1] & [_ A2] & E1 & E2 & D). destruct (chosen I A1) as (k & q & Hk & Hq & Pq).
  pose proof (@C06_swap_probability sls N given u o k sl q s1 s2 c1 c2 L HU HP V Hk Hq A1 A2 E1 E2 D) as E.
  match type of E with prob _ ?P = _ => assert (Pos : (0 < prob (swap_propose u o) P)%Qc) end.
  { rewrite E. apply div_pos; auto. apply nat_mult_pos; [destruct (sl_active sl); [destruct A1|cbn; lia]|]. unfold countb.
    assert (F : In s2 (filter (fun s => negb (nth s o 0 =? c1)) (sl_active sl))). { apply filter_In. split; auto. rewrite (nth_error_nth _ _ 0 E2). apply negb_true_iff, Nat.eqb_neq. auto. }
    destruct (filter _ (sl_active sl)); [destruct F|cbn; lia]. }
  apply prob_outcome_ne' in Pos as (st & Hst & M). destruct st as [|[a x] [|[b y] [|? ?]]]; try discriminate. repeat (apply andb_true_iff in M as [M ?]). rewrite Nat.eqb_eq in *. subst. auto.
Qed.
(** Active sites of differing occupancies. *)
Lemma differing_active o o' s : valid_occu sls N o -> valid_occu sls N o' -> same_fixed sls o o' -> s < N -> differs o o' s = true ->
  exists sl c c', In sl sls /\ In s (sl_active sl) /\ nth_error o s = Some c /\ nth_error o' s = Some c' /\ c <> c' /\ In c' (sl_encoding sl).
Proof.
  intros V V' F Hs D. destruct (existsb (fun sl => existsb (Nat.eqb s) (sl_active sl)) sls) eqn:E.
  - apply existsb_exists in E as (sl & I & E). apply existsb_exists in E as (t & A & E). apply Nat.eqb_eq in E. subst t.
    pose proof (@lay_active _ _ L _ _ I A) as S. destruct (proj2 V sl s I S) as (c & Ec & _). destruct (proj2 V' sl s I S) as (c' & Ec' & C').
    exists sl, c, c'. repeat split; auto. unfold differs in D. rewrite (nth_error_nth _ _ 0 Ec), (nth_error_nth _ _ 0 Ec') in D. apply negb_true_iff, Nat.eqb_neq in D. auto.
  - exfalso. assert (Q : nth_error o s = nth_error o' s).
    { apply F. intros sl I A. rewrite <- Bool.not_true_iff_false in E. apply E. apply existsb_exists. exists sl. split; auto. apply existsb_exists. exists s. split; auto. apply Nat.eqb_refl. }
    unfold differs in D. apply negb_true_iff, Nat.eqb_neq in D. apply D. destruct (nth_error o' s) as [x|] eqn:X; [rewrite (nth_error_nth _ _ 0 Q), (nth_error_nth _ _ 0 X); auto|]. rewrite !nth_overflow; auto; apply nth_error_None; auto.
Qed.
Lemma fixed_upd o o' s c sl : In sl sls -> In s (sl_active sl) -> same_fixed sls o o' -> same_fixed sls (upd o s c) o'.
Proof. intros I A F t Ht. destruct (Nat.eq_dec s t) as [->|Ne]; [exfalso; apply (Ht sl); auto|]. rewrite nth_error_upd_neq by auto. apply F. auto. Qed.

(** Flips reach exactly the valid occupancies with the same codes on sites that are not active. *)
Theorem C146_flips o o' : valid_occu sls N o -> (reached (flip_propose u) o o' <-> valid_occu sls N o' /\ same_fixed sls o o').
Proof.
  intros V. split.
  - intros (sts & C & E). revert V o' E. induction C as [o|o st sts Hst C IH]; intros V o' E; cbn [fold_left] in E; [subst; split; [auto|intros s _; auto]|].
    destruct (@C05_flip_legal sls N given u o st L HU HP V Hst) as (s & c & -> & (sl & [I A] & _) & V1). destruct (IH V1 o' E) as [V' F]. split; auto.
    intros t Ht. rewrite <- (F t Ht). unfold apply_step. cbn [fold_left fst snd]. rewrite nth_error_upd_neq; auto. intros ->. apply (Ht sl); auto.
  - intros [V' F]. remember (diff N o o') as n eqn:En. revert o V F En. induction n as [n IH] using lt_wf_ind. intros o V F En.
    destruct (@differ_or_same N o o' (proj1 V) (proj1 V')) as [->|(s & Hs & D)]; [apply reached_refl|].
    destruct (differing_active V V' F Hs D) as (sl & c & c' & I & A & E & E' & Ne & C').
    assert (Lg : legal_flip sls o s c') by (exists sl; split; [split; auto|]; split; auto; congruence).
    assert (Hl : s < length o) by (rewrite (proj1 V); auto).
    apply reached_step with (st := [(s, c')]); [apply flip_possible; auto|]. eapply IH; [|apply flip_valid; auto| |reflexivity].
    + subst n. unfold apply_step. cbn [fold_left fst snd]. apply filter_strict.
      * intros t _ Ht. unfold differs in *. destruct (Nat.eq_dec s t) as [<-|X]; [rewrite nth_upd_same in Ht by auto; rewrite (nth_error_nth _ _ 0 E'), Nat.eqb_refl in Ht; discriminate|rewrite nth_upd_other in Ht; auto].
      * exists s. split; [apply in_seq; lia|]. split; auto. unfold differs. rewrite nth_upd_same by auto. rewrite (nth_error_nth _ _ 0 E'), Nat.eqb_refl. auto.
    + unfold apply_step. cbn [fold_left fst snd]. eapply fixed_upd; eauto.
Qed.
(** Swaps reach exactly those with the same numbers of every code on every sublattice as well. *)
Theorem C146_swaps o o' : valid_occu sls N o -> (reached (swap_propose u) o o' <-> valid_occu sls N o' /\ same_fixed sls o o' /\ same_numbers sls o o').
Proof.
  intros V. split.
  - intros (sts & C & E). revert V o' E. induction C as [o|o st sts Hst C IH]; intros V o' E; cbn [fold_left] in E; [subst; split; [auto|split; [intros s _; auto|intros sl c _; auto]]|].
    destruct (@C06_swap_legal sls N given u o st L HU HP V Hst) as [(s1 & s2 & c1 & c2 & -> & Ne & Lg)|[-> _]]; [|apply IH; auto].
    destruct (IH (swap_valid L V Lg) o' E) as (V' & F & M). split; auto. split.
    + destruct Lg as (sl & [I A1] & [_ A2] & _). intros t Ht. rewrite <- (F t Ht). unfold apply_step. cbn [fold_left fst snd].
      rewrite !nth_error_upd_neq; auto; intros ->; apply (Ht sl); auto.
    + intros sl c I. rewrite <- (M sl c I). symmetry. eapply swap_carried; eauto.
  - intros (V' & F & M). remember (diff N o o') as n eqn:En. revert o V F M En. induction n as [n IH] using lt_wf_ind. intros o V F M En.
    destruct (@differ_or_same N o o' (proj1 V) (proj1 V')) as [->|(s & Hs & D)]; [apply reached_refl|].
    destruct (differing_active V V' F Hs D) as (sl & c & c' & I & A & E & E' & Ne & C').
    assert (X : exists t, In t (sl_sites sl) /\ nth_error o t = Some c' /\ nth_error o' t <> Some c').
    { assert (Q : forall w t, at_code w c' t = true <-> nth_error w t = Some c') by (intros w t; unfold at_code; destruct (nth_error w t) as [x|]; [rewrite Nat.eqb_eq; intuition congruence|intuition discriminate]).
      destruct (@filter_same_exchange _ (at_code o c') (at_code o' c') (sl_sites sl) (M sl c' I)) as (t & Ht & P1 & P2).
      - exists s. split; [apply (@lay_active _ _ L _ _ I A)|]. split; [apply Q; auto|]. rewrite <- Bool.not_true_iff_false, Q. congruence.
      - exists t. split; auto. split; [apply Q; auto|]. rewrite <- Q, P2. discriminate. }
    destruct X as (t & St & Et & Et'). destruct (proj2 V' sl t I St) as (d & Ed & _). assert (Dd : d <> c') by congruence.
    assert (Ht : t < N) by (rewrite <- (proj1 V); apply nth_error_Some; congruence).
    assert (Dt : differs o o' t = true) by (unfold differs; rewrite (nth_error_nth _ _ 0 Et), (nth_error_nth _ _ 0 Ed); apply negb_true_iff, Nat.eqb_neq; auto).
    destruct (differing_active V V' F Ht Dt) as (sl2 & x & y & I2 & A2 & _). assert (sl2 = sl) as -> by (eapply site_sublattice_unique; eauto; apply (@lay_active _ _ L _ _ I2 A2)).
    assert (Nst : s <> t) by (intros ->; congruence).
    assert (Lg : legal_swap sls o s t c c') by (exists sl; repeat split; auto).
    assert (Ls : s < length o) by (rewrite (proj1 V); auto). assert (Lt : t < length o) by (rewrite (proj1 V); auto).
    apply reached_step with (st := [(s, c'); (t, c)]); [apply swap_possible; auto|]. eapply IH; [|apply swap_valid; auto| | |reflexivity].
    + subst n. unfold apply_step. cbn [fold_left fst snd]. apply filter_strict.
      * intros r _ Hr. unfold differs in *. destruct (Nat.eq_dec t r) as [<-|X1]; [auto|]. rewrite nth_upd_other in Hr by auto. destruct (Nat.eq_dec s r) as [<-|X2]; [auto|]. rewrite nth_upd_other in Hr by auto. auto.
      * exists s. split; [apply in_seq; lia|]. split; auto. unfold differs. rewrite nth_upd_other by auto. rewrite nth_upd_same by auto. rewrite (nth_error_nth _ _ 0 E'), Nat.eqb_refl. auto.
    + unfold apply_step. cbn [fold_left fst snd]. eapply fixed_upd; eauto. eapply fixed_upd; eauto.
    + intros sl' d' I'. rewrite <- (M sl' d' I'). eapply swap_carried; eauto.
Qed.
End Reach.

(** ** The chain of a kernel *)
Local Open Scope R_scope.
(** The probability that one step from [o] ends in [o']: a proposal is accepted with [accept_prob], and a rejected one leaves [o]. *)
Definition step_prob (K : mckernel) (rule : Qc -> R -> option R -> R) (o o' : list nat) : R :=
  rsum (map (fun p => match snd p with
     | Some st => match k_logp K o st with
                  | Some lf => let d := compute_step_trace K o st in let a := accept_prob (rule (d_enth d) lf (d_bias d)) in
                               Qc2R (fst p) * ((if occu_eqb (apply_step o st) o' then a else 0) + (if occu_eqb o o' then 1 - a else 0))
                  | None => 0
                  end
     | None => 0
     end) (k_propose K o)).
(** A distribution on [X] that a step does not change. *)
Definition stationary_on (K : mckernel) (rule : Qc -> R -> option R -> R) (X : list (list nat)) (mu : list nat -> R) : Prop :=
  rsum (map mu X) = 1 /\ forall o', In o' X -> rsum (map (fun o => mu o * step_prob K rule o o') X) = mu o'.

(** The probabilities are those of the sampler's step: of the uniform draws between 0 and 1, those below [accept_prob] accept the proposal. *)
Theorem C147_step_draws K rule o st lf x : 0 < x < 1 -> k_logp K o st = Some lf ->
  let d := compute_step_trace K o st in let a := accept_prob (rule (d_enth d) lf (d_bias d)) in
  0 < a <= 1 /\ exists tr, single_step K rule o st x = Some tr /\ (x < a -> s_occu tr = apply_step o st /\ s_accepted tr = true) /\ (a <= x -> s_occu tr = o /\ s_accepted tr = false).
Proof.
  intros Hx E. cbv zeta. unfold single_step. rewrite E. cbn [option_bind]. set (e := rule _ lf _). clearbody e. pose proof (exp_pos e) as Ep.
  assert (M : accept_prob e = 1 /\ 0 <= e \/ accept_prob e = exp e /\ e < 0 /\ exp e < 1).
  { unfold accept_prob, Rmin. destruct (Rle_lt_dec 0 e) as [G|G].
    - left. split; auto. destruct (Rle_dec 1 (exp e)) as [|n]; auto. exfalso. apply n. rewrite <- exp_0. destruct G as [G|G]; [apply Rlt_le, exp_increasing; auto|rewrite G; lra].
    - right. assert (exp e < 1) by (rewrite <- exp_0; apply exp_increasing; auto). destruct (Rle_dec 1 (exp e)); [lra|auto]. }
  split; [destruct M as [[-> _]|(-> & _ & ?)]; lra|]. unfold accept_test. destruct (Rle_dec 0 e) as [G|G].
  - cbn [option_bind]. eexists. split; [reflexivity|]. cbn [s_occu s_accepted]. destruct M as [[-> _]|(_ & ? & _)]; [|lra]. split; [auto|lra].
  - destruct (Rle_dec x 0); [lra|]. cbn [option_bind]. destruct M as [[_ ?]|(-> & _ & _)]; [lra|]. destruct (Rlt_dec (ln x) e) as [I|I]; eexists; (split; [reflexivity|]); cbn [s_occu s_accepted]; (split; [|]); auto; intros H; exfalso.
    + apply exp_increasing in I. rewrite exp_ln in I; lra.
    + apply I. rewrite <- (ln_exp e). apply ln_increasing; lra.
Qed.
Print Assumptions C147_step_draws.

(** ** Harmonic functions of reversible chains *)
Lemma rsum_nonneg_zero {A} (f : A -> R) l : (forall x, In x l -> 0 <= f x) -> rsum (map f l) = 0 -> forall x, In x l -> f x = 0.
Proof.
  intros H. assert (NN : forall m, (forall x, In x m -> 0 <= f x) -> 0 <= rsum (map f m)).
  { induction m as [|a m IH]; intros Hm; cbn; [lra|]. specialize (Hm a (or_introl eq_refl)) as Ha. assert (0 <= rsum (map f m)) by (apply IH; intros; apply Hm; right; auto). lra. }
  induction l as [|a l IH]; intros E x Hx; [destruct Hx|]. cbn in E. pose proof (H a (or_introl eq_refl)) as Ha. assert (Hl : 0 <= rsum (map f l)) by (apply NN; intros; apply H; right; auto).
  destruct Hx as [<-|Hx]; [unfold rsum in *; lra|]. apply IH; auto; [intros; apply H; right; auto|unfold rsum in *; lra].
Qed.
Lemma arg_max {A} (f : A -> R) l : l <> [] -> exists x, In x l /\ forall y, In y l -> f y <= f x.
Proof.
  induction l as [|a l IH]; intros H; [congruence|]. destruct l as [|b l]; [exists a; split; [left; auto|]; intros y [<-|[]]; lra|].
  destruct IH as (x & Hx & M); [discriminate|]. destruct (Rle_lt_dec (f x) (f a)).
  - exists a. split; [left; auto|]. intros y [<-|Hy]; [lra|]. specialize (M y Hy). lra.
  - exists x. split; [right; auto|]. intros y [<-|Hy]; [lra|]. auto.
Qed.
Lemma rsum_indicator (a : list nat) k X : NoDup X -> In a X -> rsum (map (fun o => if occu_eqb a o then k else 0) X) = k.
Proof.
  intros N I. induction X as [|b X IH]; [destruct I|]. inversion N as [|? ? Nb NX]; subst. cbn. unfold occu_eqb at 1. destruct (list_eq_dec Nat.eq_dec a b) as [E|Ne].
  - subst b. change (k + rsum (map (fun o => if occu_eqb a o then k else 0) X) = k). rewrite rsum_map_0; [lra|]. intros x Hx. unfold occu_eqb. destruct (list_eq_dec Nat.eq_dec a x); subst; tauto.
  - destruct I as [<-|I]; [congruence|]. rewrite Rplus_0_l. apply IH; auto.
Qed.

Section Chain.
Context (K : mckernel) (beta : R) (X : list (list nat)).
Hypothesis ND : NoDup X.
Hypothesis Safe : forall o, In o X -> never_raises (k_propose K o) /\ prob (k_propose K o) (fun _ => true) = 1%Qc.
Hypothesis Pos : forall o, In o X -> pos_prog (k_propose K o).
Hypothesis Closed : forall o st, In o X -> outcome (k_propose K o) st -> In (apply_step o st) X /\ exists r, k_logp K o st = Some r.
Hypothesis Bal : forall o o', In o X -> In o' X ->
  stationary_weight K beta o * move_prob K (metropolis_rule beta) o o' = stationary_weight K beta o' * move_prob K (metropolis_rule beta) o' o.
Hypothesis Con : forall o o', In o X -> In o' X -> reached (k_propose K) o o'.
Hypothesis NE : X <> [].
Local Notation P := (step_prob K (metropolis_rule beta)).
Local Notation w := (stationary_weight K beta).
Lemma w_pos o : 0 < w o.
Proof. apply exp_pos. Qed.
Lemma accept_range e : 0 < accept_prob e <= 1.
Proof. unfold accept_prob. pose proof (exp_pos e). unfold Rmin. destruct (Rle_dec 1 (exp e)); lra. Qed.
Lemma P_nonneg o o' : In o X -> 0 <= P o o'.
Proof.
  intros Ho. unfold step_prob. assert (G : forall l : prog step, (forall p, In p l -> 0 < Qc2R (fst p)) -> forall f, (forall p, In p l -> 0 <= f p) -> 0 <= rsum (map f l)).
  { intros l Hl f. clear Hl. induction l as [|a l IH]; intros Hf; cbn; [lra|]. pose proof (Hf a (or_introl eq_refl)). assert (0 <= rsum (map f l)) by (apply IH; intros; apply Hf; right; auto). unfold rsum in *. lra. }
  assert (Q : forall p, In p (k_propose K o) -> 0 < Qc2R (fst p)) by (intros [q x] Hp; apply Qc2R_pos, (Pos Ho Hp)).
  apply G; auto. intros [q [st|]] Hp; cbn [fst snd]; [|lra]. destruct (k_logp K o st) as [lf|]; [|lra]. cbv zeta. pose proof (Q _ Hp) as Hq. cbn [fst] in Hq.
  match goal with |- context [accept_prob ?e] => pose proof (accept_range e) as A end. apply Rmult_le_pos; [lra|]. destruct (occu_eqb (apply_step o st) o'), (occu_eqb o o'); lra.
Qed.
Lemma P_move o o' : o <> o' -> P o o' = move_prob K (metropolis_rule beta) o o'.
Proof.
  intros Ne. unfold step_prob, move_prob. apply rsum_map_ext. intros [q [st|]] _; cbn [fst snd]; auto. assert (E : occu_eqb o o' = false) by (unfold occu_eqb; destruct (list_eq_dec Nat.eq_dec o o'); congruence).
  rewrite E. destruct (occu_eqb (apply_step o st) o'), (k_logp K o st); cbv zeta; lra.
Qed.
Lemma P_balance o o' : In o X -> In o' X -> w o * P o o' = w o' * P o' o.
Proof. intros H H'. destruct (list_eq_dec Nat.eq_dec o o') as [->|Ne]; auto. rewrite !P_move by congruence. auto. Qed.
Lemma P_row o : In o X -> rsum (map (P o) X) = 1.
Proof.
  intros Ho. unfold step_prob. rewrite rs_swap. destruct (Safe Ho) as [NR T].
  rewrite (rsum_map_ext (g := fun p => Qc2R (match snd p with Some _ => fst p | None => 0%Qc end))).
  - rewrite <- Qc2R_1, <- T. unfold prob. rewrite Qc2R_qsum, map_map. reflexivity.
  - intros [q [st|]] Hp; cbn [fst snd]; [|destruct (NR q Hp)]. destruct (Closed Ho (ex_intro _ q Hp)) as [C [r Er]]. rewrite Er. cbv zeta.
    match goal with |- context [accept_prob ?e] => generalize (accept_prob e) end. intros a.
    rewrite rs_scale, rs_plus, !rsum_indicator by auto. lra.
Qed.
Lemma P_step o st : In o X -> outcome (k_propose K o) st -> 0 < P o (apply_step o st).
Proof.
  intros Ho Hst. pose proof Hst as [q Hq]. destruct (Closed Ho Hst) as [_ [r Er]].
  destruct (Rle_lt_or_eq_dec 0 (P o (apply_step o st)) (P_nonneg _ Ho)) as [G|Z]; auto. exfalso. symmetry in Z.
  assert (T : forall p, In p (k_propose K o) -> (fun p : Qc * option step => match snd p with
     | Some st0 => match k_logp K o st0 with
                  | Some lf => let d := compute_step_trace K o st0 in let a := accept_prob (metropolis_rule beta (d_enth d) lf (d_bias d)) in
                               Qc2R (fst p) * ((if occu_eqb (apply_step o st0) (apply_step o st) then a else 0) + (if occu_eqb o (apply_step o st) then 1 - a else 0))
                  | None => 0 end
     | None => 0 end) p = 0).
  { apply rsum_nonneg_zero; [|exact Z]. intros [v [st'|]] Hp; cbn [fst snd]; [|lra]. destruct (k_logp K o st') as [lf|]; [|lra]. cbv zeta.
    pose proof (Qc2R_pos (Pos Ho Hp)). match goal with |- context [accept_prob ?e] => pose proof (accept_range e) as A end. apply Rmult_le_pos; [lra|]. destruct (occu_eqb (apply_step o st') _), (occu_eqb o _); lra. }
  specialize (T _ Hq). cbn [fst snd] in T. rewrite Er in T. cbv zeta in T. pose proof (Qc2R_pos (Pos Ho Hq)) as Hv.
  match type of T with context [accept_prob ?e] => pose proof (accept_range e) as A; set (a := accept_prob e) in *; clearbody a end.
  assert (E1 : occu_eqb (apply_step o st) (apply_step o st) = true) by (unfold occu_eqb; destruct (list_eq_dec Nat.eq_dec _ _); congruence). rewrite E1 in T.
  apply Rmult_integral in T as [T|T]; [lra|]. destruct (occu_eqb o (apply_step o st)); lra.
Qed.
Lemma harmonic_constant f : (forall o, In o X -> rsum (map (fun o' => P o o' * f o') X) = f o) -> exists c, forall o, In o X -> f o = c.
Proof.
  intros H. destruct (@arg_max _ f X NE) as (m & Hm & M). exists (f m). intros o Ho. destruct (Con Hm Ho) as (sts & C & E).
  assert (G : forall a, In a X -> f a = f m -> forall l, chained (k_propose K) a l -> f (fold_left apply_step l a) = f m).
  { intros a Ha Fa l Hl. revert Ha Fa. induction Hl as [a|a st l Hst Hl IH]; intros Ha Fa; cbn [fold_left]; auto. destruct (Closed Ha Hst) as [Hb _]. apply IH; auto.
    assert (Z : rsum (map (fun o' => P a o' * (f m - f o')) X) = 0).
    { rewrite (rsum_map_ext (g := fun o' => f m * P a o' + (-1) * (P a o' * f o'))); [|intros; lra]. rewrite rs_plus, !rs_scale, (H a Ha). change (fun x => P a x) with (P a). rewrite P_row by auto. lra. }
    assert (NN : forall x, In x X -> 0 <= P a x * (f m - f x)) by (intros x Hx; apply Rmult_le_pos; [apply P_nonneg; auto|specialize (M x Hx); lra]).
    pose proof (rsum_nonneg_zero NN Z Hb) as Q. cbv beta in Q. pose proof (P_step Ha Hst). apply Rmult_integral in Q as [Q|Q]; lra. }
  rewrite <- E. apply G; auto.
Qed.
Lemma weights_pos : 0 < rsum (map w X).
Proof.
  destruct X as [|a l]; [congruence|]. cbn. assert (0 <= rsum (map w l)); [|unfold rsum in *; pose proof (w_pos a); lra]. clear. induction l as [|b l IH]; cbn; [lra|]. unfold rsum in *. pose proof (w_pos b). lra.
Qed.
Lemma unique_stationary mu : stationary_on K (metropolis_rule beta) X mu <-> forall o, In o X -> mu o = w o / rsum (map w X).
Proof.
  pose proof weights_pos as W. split.
  - intros [Tot St]. destruct (@harmonic_constant (fun o => mu o / w o)) as (c & Hc).
    { intros o Ho. rewrite <- (St o Ho) at 1. pose proof (w_pos o). unfold Rdiv. rewrite <- rsum_map_scale. apply rsum_map_ext. intros x Hx. pose proof (w_pos x).
      apply (Rmult_eq_reg_r (w o * w x)); [|nra]. field_simplify; [|lra|lra]. transitivity (mu x * (w o * P o x)); [ring|]. rewrite (P_balance Ho Hx). ring. }
    assert (Mu : forall o, In o X -> mu o = w o * c). { intros o Ho. rewrite <- (Hc o Ho). pose proof (w_pos o). field. lra. }
    assert (T : rsum (map w X) * c = 1) by (rewrite <- Tot, <- rsum_map_scale; apply rsum_map_ext; intros; symmetry; auto).
    intros o Ho. rewrite (Mu o Ho). replace c with (/ rsum (map w X)); [reflexivity|]. apply (Rmult_eq_reg_l (rsum (map w X))); [|lra]. rewrite T. field. lra.
  - intros Mu. split.
    + rewrite (rsum_map_ext (g := fun o => w o * / rsum (map w X))); [|intros; apply Mu; auto]. rewrite rsum_map_scale. field. lra.
    + intros o Ho. rewrite (rsum_map_ext (g := fun x => (w o / rsum (map w X)) * P o x)).
      * rewrite rs_scale. change (fun x => P o x) with (P o). rewrite P_row by auto. rewrite (Mu o Ho). lra.
      * intros x Hx. rewrite (Mu x Hx). unfold Rdiv. transitivity ((w x * P x o) * / rsum (map w X)); [ring|]. rewrite (P_balance Hx Ho). ring.
Qed.
End Chain.

(** ** The reached occupancies are finitely many *)
Local Open Scope nat_scope.
Fixpoint words (n : nat) (cs : list nat) : list (list nat) :=
  match n with 0 => [[]] | S n' => flat_map (fun c => map (cons c) (words n' cs)) cs end.
Lemma in_words n cs : forall l, length l = n -> (forall x, In x l -> In x cs) -> In l (words n cs).
Proof.
  induction n as [|n IH]; intros [|a l] H F; try discriminate; [left; auto|]. cbn [words]. apply in_flat_map. exists a. split; [apply F; left; auto|]. apply in_map. apply IH; [cbn in H; lia|]. intros x Hx. apply F. right. auto.
Qed.
Definition decided (P : Prop) : Prop := P \/ ~ P.
Lemma decided_all {A} (Q : A -> Prop) l : (forall x, In x l -> decided (Q x)) -> decided (forall x, In x l -> Q x).
Proof.
  induction l as [|a l IH]; intros H; [left; intros x []|]. destruct (H a (or_introl eq_refl)) as [Y|Y]; [|right; intros Z; apply Y, Z; left; auto].
  destruct IH as [Z|Z]; [intros; apply H; right; auto| |]; [left; intros x [<-|Hx]; auto|right; intros W; apply Z; intros; apply W; right; auto].
Qed.
Lemma decided_and (A B : Prop) : decided A -> decided B -> decided (A /\ B).
Proof. unfold decided. tauto. Qed.
Lemma decided_iff (A B : Prop) : (A <-> B) -> decided A -> decided B.
Proof. unfold decided. tauto. Qed.
Lemma decided_filter {A} (Q : A -> Prop) l : (forall x, In x l -> decided (Q x)) -> exists m, forall x, In x m <-> In x l /\ Q x.
Proof.
  induction l as [|a l IH]; intros H; [exists []; intros x; cbn; tauto|]. destruct IH as (m & Hm); [intros; apply H; right; auto|].
  destruct (H a (or_introl eq_refl)) as [Y|Y]; [exists (a :: m)|exists m]; intros x; cbn; rewrite Hm; split; try tauto; intuition (subst; tauto).
Qed.
Lemma decided_nat (a b : nat) : decided (a = b).
Proof. destruct (Nat.eq_dec a b); [left|right]; auto. Qed.
Lemma decided_opt (a b : option nat) : decided (a = b).
Proof. destruct a as [x|], b as [y|]; try (right; discriminate); [|left; auto]. destruct (Nat.eq_dec x y); [left; congruence|right; congruence]. Qed.
Lemma decided_valid sls N o : decided (valid_occu sls N o).
Proof.
  unfold valid_occu. apply decided_and; [apply decided_nat|].
  apply (@decided_iff (forall sl, In sl sls -> forall s, In s (sl_sites sl) -> exists c, nth_error o s = Some c /\ In c (sl_encoding sl))); [split; intros H; intros; apply H; auto|].
  apply decided_all. intros sl _. apply decided_all. intros s _. destruct (nth_error o s) as [c|]; [|right; intros (c & E & _); discriminate].
  destruct (in_dec Nat.eq_dec c (sl_encoding sl)); [left; eauto|right; intros (c' & E & I); congruence].
Qed.
Lemma decided_fixed sls N o o' : length o = N -> length o' = N -> decided (same_fixed sls o o').
Proof.
  intros L L'. apply (@decided_iff (forall s, In s (seq 0 N) -> (forall sl, In sl sls -> ~ In s (sl_active sl)) -> nth_error o s = nth_error o' s)).
  - split; intros H s; [|intros _; apply H]. intros A. destruct (Nat.lt_ge_cases s N) as [G|G]; [apply H; auto; apply in_seq; lia|]. rewrite !(proj2 (nth_error_None _ _)); auto; lia.
  - apply decided_all. intros s _. assert (D : decided (forall sl, In sl sls -> ~ In s (sl_active sl))). { apply decided_all. intros sl _. destruct (in_dec Nat.eq_dec s (sl_active sl)); [right; tauto|left; auto]. }
    destruct D as [D|D]; [|left; tauto]. destruct (decided_opt (nth_error o s) (nth_error o' s)); [left; auto|right; auto].
Qed.
Lemma carried_none o sl c : ~ In c o -> carried o sl c = 0.
Proof.
  intros H. unfold carried. induction (sl_sites sl) as [|s l IH]; auto. cbn [filter]. destruct (nth_error o s) as [x|] eqn:E; auto. destruct (x =? c) eqn:X; auto. apply Nat.eqb_eq in X. subst. exfalso. apply H. eapply nth_error_In; eauto.
Qed.
Lemma decided_numbers sls o o' : decided (same_numbers sls o o').
Proof.
  apply (@decided_iff (forall sl, In sl sls -> forall c, In c (o ++ o') -> carried o sl c = carried o' sl c)).
  - split; intros H sl c; [|intros; apply H; auto]. intros I. destruct (in_dec Nat.eq_dec c (o ++ o')) as [J|J]; [apply H; auto|]. rewrite !carried_none; auto; intros Q; apply J, in_or_app; auto.
  - apply decided_all. intros sl _. apply decided_all. intros c _. apply decided_nat.
Qed.
Lemma finite_class sls N o (Q : list nat -> Prop) : layout sls N -> valid_occu sls N o -> (forall o', valid_occu sls N o' -> decided (Q o')) ->
  exists X, NoDup X /\ forall o', In o' X <-> valid_occu sls N o' /\ same_fixed sls o o' /\ Q o'.
Proof.
  intros L V DQ. destruct (@decided_filter _ (fun o' => valid_occu sls N o' /\ same_fixed sls o o' /\ Q o') (words N (flat_map sl_encoding sls ++ o))) as (m & Hm).
  { intros o' _. destruct (decided_valid sls N o') as [V'|V']; [|right; tauto]. apply decided_and; [left; auto|]. apply decided_and; [apply decided_fixed with (N := N); [apply V|apply V']|auto]. }
  exists (nodup (list_eq_dec Nat.eq_dec) m). split; [apply NoDup_nodup|]. intros o'. rewrite nodup_In, Hm. split; [tauto|]. intros (V' & F & HQ). split; auto. apply in_words; [apply V'|].
  intros x Hx. apply In_nth_error in Hx as (s & Hs). apply in_or_app. destruct (existsb (fun sl => existsb (Nat.eqb s) (sl_active sl)) sls) eqn:E.
  - left. apply existsb_exists in E as (sl & I & E). apply existsb_exists in E as (t & A & E). apply Nat.eqb_eq in E. subst t.
    destruct (proj2 V' sl s I (@lay_active _ _ L _ _ I A)) as (c & Ec & Hc). apply in_flat_map. exists sl. split; auto. congruence.
  - right. apply nth_error_In with (n := s). rewrite (F s); auto. intros sl I A. rewrite <- Bool.not_true_iff_false in E. apply E. apply existsb_exists. exists sl. split; auto. apply existsb_exists. exists s. split; auto. apply Nat.eqb_refl.
Qed.

(** ** One stationary distribution *)
Lemma fixed_refl sls o : same_fixed sls o o. Proof. intros s _. auto. Qed.
Lemma fixed_back sls o a b : same_fixed sls o a -> same_fixed sls o b -> same_fixed sls a b.
Proof. intros A B s H. rewrite <- (A s H). auto. Qed.
Lemma numbers_back sls o a b : same_numbers sls o a -> same_numbers sls o b -> same_numbers sls a b.
Proof. intros A B sl c H. rewrite <- (A sl c H). auto. Qed.
Lemma fixed_trans sls o a b : same_fixed sls o a -> same_fixed sls a b -> same_fixed sls o b.
Proof. intros A B s H. rewrite (A s H). auto. Qed.
Lemma numbers_trans sls o a b : same_numbers sls o a -> same_numbers sls a b -> same_numbers sls o b.
Proof. intros A B sl c H. rewrite (A sl c H). auto. Qed.
Lemma reached_one p o st : outcome (p o) st -> reached p o (apply_step o st).
Proof. intros H. eapply reached_step; [exact H|apply reached_refl]. Qed.

(** Metropolis sampling with flips: the occupancies that are reached from a valid one carry one stationary distribution, the Boltzmann one. *)
Theorem C147_flips sls N given u params feat dfeat b beta o :
  let K := mkKernel params feat dfeat b (flip_propose u) (fun _ _ => Some 0%R) in
  layout sls N -> mk_usher sls given = Some u -> (forall p x, given = Some p -> In x p -> (0 <= x)%Qc) -> all_chosen u ->
  (forall sl, In sl sls -> sl_active sl <> [] -> 2 <= length (sl_encoding sl)) ->
  (forall a st, valid_occu sls N a -> outcome (flip_propose u a) st -> exact_changes K a st) ->
  valid_occu sls N o ->
  exists X, NoDup X /\ (forall o', In o' X <-> reached (flip_propose u) o o') /\
    forall mu, stationary_on K (metropolis_rule beta) X mu <-> forall o', In o' X -> mu o' = (stationary_weight K beta o' / rsum (map (stationary_weight K beta) X))%R.
Proof.
  intros K L HU HP HA Two Ex V. destruct (@finite_class sls N o (fun _ => True) L V) as (X & ND & HX); [intros; left; auto|].
  assert (R : forall o', In o' X <-> reached (flip_propose u) o o') by (intros o'; rewrite HX, (C146_flips L HU HP HA o' V); tauto).
  assert (VX : forall a, In a X -> valid_occu sls N a) by (intros a Ha; apply HX; auto).
  exists X. split; auto. split; auto. intros mu. apply unique_stationary; auto.
  - intros a Ha. apply (@C05_flip_total sls N given u a); auto.
  - intros a Ha. apply pos_flip.
  - intros a st Ha Hst. split; [|exists 0%R; auto]. apply HX in Ha as (Va & Fa & _). apply HX.
    destruct (proj1 (C146_flips L HU HP HA (apply_step a st) Va) (reached_one Hst)) as [V1 F1]. split; auto. split; auto. eapply fixed_trans; eauto.
  - intros a a' Ha Ha'. apply (@C11_detailed_balance K beta (valid_occu sls N)); auto; [intros; apply pos_flip|]. intros y st Hy Hst.
    destruct (@C05_flip_legal sls N given u y st L HU HP Hy Hst) as (s & c & E & _ & Hv). split; auto. split; auto. exists 0%R. split; auto. rewrite exp_0, Rmult_1_l. f_equal.
    apply (@C05_flip_symmetric sls N given u); auto.
  - intros a a' Ha Ha'. apply HX in Ha as (Va & Fa & _). apply HX in Ha' as (Va' & Fa' & _). apply (C146_flips L HU HP HA a' Va). split; auto. eapply fixed_back; eauto.
  - intros ->. apply (proj2 (HX o)). split; auto. split; auto. apply fixed_refl.
Qed.
Theorem C147_swaps sls N given u params feat dfeat b beta o :
  let K := mkKernel params feat dfeat b (swap_propose u) (fun _ _ => Some 0%R) in
  layout sls N -> mk_usher sls given = Some u -> (forall p x, given = Some p -> In x p -> (0 <= x)%Qc) -> all_chosen u ->
  (forall a st, valid_occu sls N a -> outcome (swap_propose u a) st -> exact_changes K a st) ->
  valid_occu sls N o ->
  exists X, NoDup X /\ (forall o', In o' X <-> reached (swap_propose u) o o') /\
    forall mu, stationary_on K (metropolis_rule beta) X mu <-> forall o', In o' X -> mu o' = (stationary_weight K beta o' / rsum (map (stationary_weight K beta) X))%R.
Proof.
  intros K L HU HP HA Ex V. destruct (@finite_class sls N o (same_numbers sls o) L V) as (X & ND & HX); [intros; apply decided_numbers|].
  assert (R : forall o', In o' X <-> reached (swap_propose u) o o') by (intros o'; rewrite HX, (C146_swaps L HU HP HA o' V); tauto).
  assert (VX : forall a, In a X -> valid_occu sls N a) by (intros a Ha; apply HX; auto).
  exists X. split; auto. split; auto. intros mu. apply unique_stationary; auto.
  - intros a Ha. apply (@C06_swap_total sls N given u a); auto.
  - intros a Ha. apply pos_swap.
  - intros a st Ha Hst. split; [|exists 0%R; auto]. apply HX in Ha as (Va & Fa & Ma). apply HX.
    destruct (proj1 (C146_swaps L HU HP HA (apply_step a st) Va) (reached_one Hst)) as (V1 & F1 & M1). split; auto. split; [eapply fixed_trans; eauto|eapply numbers_trans; eauto].
  - intros a a' Ha Ha'. apply (@C11_detailed_balance K beta (valid_occu sls N)); auto; [intros; apply pos_swap|]. intros y st Hy Hst.
    destruct (proj1 (C146_swaps L HU HP HA (apply_step y st) Hy) (reached_one Hst)) as (V1 & _). split; auto. split; auto. exists 0%R. split; auto. rewrite exp_0, Rmult_1_l. f_equal.
    apply (@C06_swap_symmetric sls N given u); auto.
  - intros a a' Ha Ha'. apply HX in Ha as (Va & Fa & Ma). apply HX in Ha' as (Va' & Fa' & Ma'). apply (C146_swaps L HU HP HA a' Va). split; auto. split; [eapply fixed_back; eauto|eapply numbers_back; eauto].
  - intros ->. apply (proj2 (HX o)). split; auto. split; [apply fixed_refl|intros sl c _; auto].
Qed.
Print Assumptions C146_flips.
Print Assumptions C146_swaps.
Print Assumptions C147_flips.
Print Assumptions C147_swaps.

(** Non-vacuity: two sublattices, chosen with probabilities of one and two thirds. *)
Definition third_probs : list Qc := [Qc_frac 1 3; Qc_frac 2 3].
Definition third_usher : usher := mkUsher ex_layout third_probs.
Lemma third_made : mk_usher ex_layout (Some third_probs) = Some third_usher.
Proof. reflexivity. Qed.
Lemma third_nonneg p x : Some third_probs = Some p -> In x p -> (0 <= x)%Qc.
Proof. intros [= <-] [<-|[<-|[]]]; discriminate. Qed.
Lemma third_chosen : all_chosen third_usher.
Proof. intros q [<-|[<-|[]]]; reflexivity. Qed.
Definition other_occu := [0; 0; 0; 1; 2].
Lemma other_valid : valid_occu ex_layout 5 other_occu.
Proof. split; [reflexivity|]. intros sl s [<-|[<-|[]]] H; simpl in H; repeat (destruct H as [<-|H]; [eexists; split; [reflexivity|simpl; auto]|]); tauto. Qed.
Lemma other_fixed : same_fixed ex_layout ex_occu other_occu.
Proof.
  intros s H. destruct s as [|[|[|[|[|s]]]]]; auto; exfalso.
  - apply (H (mkSL ex_space [0; 2; 3] [0; 3] [0; 1])); [left; auto|left; auto].
  - apply (H (mkSL ex_space [1; 4] [1; 4] [0; 2])); [right; left; auto|left; auto].
  - apply (H (mkSL ex_space [0; 2; 3] [0; 3] [0; 1])); [left; auto|right; left; auto].
  - apply (H (mkSL ex_space [1; 4] [1; 4] [0; 2])); [right; left; auto|right; left; auto].
Qed.
Lemma other_numbers : same_numbers ex_layout ex_occu other_occu.
Proof. intros sl c [<-|[<-|[]]]; unfold carried; cbn; destruct c as [|[|[|c]]]; reflexivity. Qed.
(** Both reach the other occupancy; none reaches one with another code on the restricted site, and swaps reach none with other numbers. *)
Example C146_case : reached (flip_propose third_usher) ex_occu other_occu /\ reached (swap_propose third_usher) ex_occu other_occu /\
  ~ reached (flip_propose third_usher) ex_occu [1; 2; 1; 0; 0] /\ ~ reached (swap_propose third_usher) ex_occu [0; 2; 0; 0; 0].
Proof.
  split; [|split; [|split]].
  - apply (C146_flips ex_layout_ok third_made third_nonneg third_chosen other_occu ex_occu_ok). split; [apply other_valid|apply other_fixed].
  - apply (C146_swaps ex_layout_ok third_made third_nonneg third_chosen other_occu ex_occu_ok). split; [apply other_valid|split; [apply other_fixed|apply other_numbers]].
  - intros R. apply (C146_flips ex_layout_ok third_made third_nonneg third_chosen _ ex_occu_ok) in R as [_ F]. specialize (F 2). cut (Some 0 = Some 1); [discriminate|]. apply F.
    intros sl [<-|[<-|[]]]; cbn; intuition discriminate.
  - intros R. apply (C146_swaps ex_layout_ok third_made third_nonneg third_chosen _ ex_occu_ok) in R as (_ & _ & M). specialize (M _ 1 (or_introl eq_refl)). discriminate M.
Qed.
Example C147_case beta : exists X, In other_occu X /\ NoDup X /\
  forall mu, stationary_on KernelProps.ex_kernel (metropolis_rule beta) X mu <-> forall o', In o' X -> mu o' = (stationary_weight KernelProps.ex_kernel beta o' / rsum (map (stationary_weight KernelProps.ex_kernel beta) X))%R.
Proof.
  assert (A : all_chosen UsherProps.ex_usher) by (intros q [<-|[<-|[]]]; reflexivity).
  assert (T : forall sl, In sl ex_layout -> sl_active sl <> [] -> 2 <= length (sl_encoding sl)) by (intros sl [<-|[<-|[]]] _; cbn; lia).
  pose proof (@C147_flips ex_layout 5 None UsherProps.ex_usher [Qc_frac 3 2; 1%Qc] ex_feat ex_dfeat (Some ex_bias) beta ex_occu ex_layout_ok eq_refl ltac:(discriminate) A T (fun a st _ _ => KernelProps.ex_kernel_exact a st) ex_occu_ok) as (X & ND & R & U).
  exists X. split; [|split; [exact ND|exact U]]. apply R. assert (G : forall p x, @None (list Qc) = Some p -> In x p -> (0 <= x)%Qc) by discriminate.
  apply (@C146_flips ex_layout 5 None UsherProps.ex_usher ex_layout_ok eq_refl G A ex_occu other_occu ex_occu_ok). split; [apply other_valid|apply other_fixed].
Qed.
