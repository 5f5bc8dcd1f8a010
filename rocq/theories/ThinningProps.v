(** Property C149: random sampling with thinning can record every occupancy. *)
From Verif Require Import LibProofs ProbProofs OccuUtilsSpec OccuUtilsProofs OccuUtilsProps UsherSpec UsherProofs UsherProps Sampler SamplerSpec SamplerProofs ReachProps.
From Coq Require Import Lia Lra Arith.
Set Implicit Arguments.
Unset Strict Implicit.
Local Open Scope nat_scope.

(** ** Specification *)
(** A walker that accepts all flips: the kernel of [UniformlyRandom] with the MCUsher of flips and without bias. *)
Definition random_walker (u : usher) (params : list Qc) (feat : list nat -> list Qc) (dfeat : list nat -> step -> list Qc) : walker :=
  mkWalker (mkKernel params feat dfeat None (flip_propose u) (fun _ _ => Some 0%R)) random_rule.
(** Some run of the sampler from [o], with proposals of the MCUsher, records [o']. *)
Definition recorded (sls : list sublattice) (N : nat) (w : walker) (thin : nat) (o o' : list nat) : Prop :=
  exists draws nsteps ys y, proposes [w] (fun _ => valid_occu sls N) draws /\ sample_run [w] draws nsteps thin [o] = Some ys /\ In [y] ys /\ w_occu y = o'.

(** ** Paths *)
Lemma chained_app p l : forall a m, chained p a l -> chained p (fold_left apply_step l a) m -> chained p a (l ++ m).
Proof. induction l as [|st l IH]; intros a m H H'; auto. inversion H; subst. cbn [app]. constructor; auto. Qed.
Lemma chained_cut p l m : forall a, chained p a (l ++ m) -> chained p a l /\ chained p (fold_left apply_step l a) m.
Proof. induction l as [|st l IH]; intros a H; [split; [constructor|auto]|]. inversion H as [|? ? ? H1 H2]; subst. destruct (IH _ H2). split; [constructor; auto|auto]. Qed.

Section Thin.
Context (sls : list sublattice) (N : nat) (given : option (list Qc)) (u : usher) (params : list Qc) (feat : list nat -> list Qc) (dfeat : list nat -> step -> list Qc).
Hypothesis L : layout sls N.
Hypothesis HU : mk_usher sls given = Some u.
Hypothesis HP : forall p x, given = Some p -> In x p -> (0 <= x)%Qc.
Hypothesis HA : all_chosen u.
Hypothesis Two : forall sl, In sl sls -> sl_active sl <> [] -> 2 <= length (sl_encoding sl).
Local Notation w := (random_walker u params feat dfeat).
Local Notation p := (flip_propose u).

(** Every proposal is accepted. *)
Lemma walk_accepts d x : exists y, walk_step w d x = Some y /\ w_occu y = apply_step (w_occu x) (fst (d (w_occu x))).
Proof.
  unfold walk_step. destruct (d (w_occu x)) as [st z]. cbn [fst]. assert (A : accept_test 0 z = Some true) by (unfold accept_test; destruct (Rle_dec 0 0) as [_|H]; [auto|exfalso; apply H; apply Rle_refl]).
  assert (E : single_step (wk_kernel w) (wk_rule w) (w_occu x) st z = Some (mkStep (apply_step (w_occu x) st) true (compute_step_trace (wk_kernel w) (w_occu x) st))).
  { unfold single_step. cbn [wk_kernel wk_rule random_walker k_logp option_bind]. unfold random_rule at 1, add_bias. cbn [compute_step_trace d_bias k_bias]. rewrite A. reflexivity. }
  rewrite E. cbn [option_bind s_accepted s_delta s_occu compute_step_trace d_bias k_bias wk_kernel random_walker]. destruct (w_bias x); cbn [option_bind]; eexists; split; reflexivity.
Qed.
Lemma steps_accept draws k : forall t x, exists y, steps_from [w] draws k t [x] = Some [y].
Proof.
  induction k as [|k IH]; intros t x; [exists x; auto|]. cbn [steps_from step_all]. destruct (walk_accepts (draws t 0) x) as (y & E & _). rewrite E. cbn [option_bind]. apply IH.
Qed.
Lemma steps_path draws l : forall t x y, (forall i, i < length l -> fst (draws (t + i) 0 (fold_left apply_step (firstn i l) (w_occu x))) = nth i l []) ->
  steps_from [w] draws (length l) t [x] = Some [y] -> w_occu y = fold_left apply_step l (w_occu x).
Proof.
  induction l as [|st l IH]; intros t x y D E; [cbn in E; injection E as ->; auto|]. cbn [length steps_from step_all] in E.
  destruct (walk_accepts (draws t 0) x) as (z & Ez & Oz). rewrite Ez in E. cbn [option_bind] in E. pose proof (D 0 ltac:(cbn; lia)) as D0. rewrite Nat.add_0_r in D0. cbn [firstn fold_left nth] in D0. rewrite D0 in Oz.
  cbn [fold_left]. rewrite <- Oz. apply (IH (S t) z y); auto. intros i Hi. specialize (D (S i) ltac:(cbn; lia)). cbn [firstn fold_left nth] in D. rewrite Oz. replace (S t + i) with (t + S i) by lia. auto.
Qed.
Lemma samples_path draws thin m : forall l t x, length l = S m * thin -> (forall i, i < length l -> fst (draws (t + i) 0 (fold_left apply_step (firstn i l) (w_occu x))) = nth i l []) ->
  exists ys y, samples_from [w] draws thin (S m) t [x] = Some ys /\ In [y] ys /\ w_occu y = fold_left apply_step l (w_occu x).
Proof.
  induction m as [|m IH]; intros l t x Len D; cbn [samples_from].
  - destruct (steps_accept draws thin t x) as (y & E). rewrite E. cbn [option_bind]. exists [[y]], y. split; auto. split; [left; auto|]. apply (steps_path (draws := draws) (t := t)); auto. replace (length l) with thin by lia. auto.
  - destruct (steps_accept draws thin t x) as (z & E). rewrite E. cbn [option_bind].
    assert (Lf : length (firstn thin l) = thin) by (rewrite firstn_length; lia).
    assert (Oz : w_occu z = fold_left apply_step (firstn thin l) (w_occu x)).
    { apply (steps_path (draws := draws) (t := t)); [|rewrite Lf; auto]. intros i Hi. rewrite Lf in Hi. rewrite firstn_firstn, Nat.min_l by lia. rewrite D by lia.
      replace (nth i l []) with (nth i (firstn thin l ++ skipn thin l) []) by (rewrite firstn_skipn; auto). rewrite app_nth1 by lia. auto. }
    destruct (IH (skipn thin l) (t + thin) z) as (ys & y & Ey & Iy & Oy).
    + rewrite skipn_length. lia.
    + intros i Hi. rewrite skipn_length in Hi. rewrite Oz, <- fold_left_app. replace (firstn thin l ++ firstn i (skipn thin l)) with (firstn (thin + i) l).
      * rewrite <- Nat.add_assoc, D by lia. replace (nth (thin + i) l []) with (nth (thin + i) (firstn thin l ++ skipn thin l) []) by (rewrite firstn_skipn; auto). rewrite app_nth2 by lia. f_equal. lia.
      * replace (firstn (thin + i) l) with (firstn (thin + i) (firstn thin l ++ skipn thin l)) by (rewrite firstn_skipn; auto). rewrite firstn_app, Lf. replace (thin + i - thin) with i by lia. f_equal. apply firstn_all2. lia.
    + cbn [samples_from] in Ey. rewrite Ey. cbn [option_bind]. exists ([z] :: ys), y. split; auto. split; [right; auto|]. rewrite Oy, Oz, <- fold_left_app, firstn_skipn. auto.
Qed.
(** Proposals along a path, and the first proposals elsewhere. *)
Definition follow (o : list nat) (l : list step) : stream := fun t _ a =>
  (if (t <? length l) && occu_eqb a (fold_left apply_step (firstn t l) o) then nth t l [] else match p a with (_, Some st) :: _ => st | _ => [] end, (/ 2)%R).
Lemma chained_nth l : forall a i, chained p a l -> i < length l -> outcome (p (fold_left apply_step (firstn i l) a)) (nth i l []).
Proof. induction l as [|st l IH]; intros a i H Hi; [cbn in Hi; lia|]. inversion H as [|? ? ? H1 H2]; subst. destruct i as [|i]; cbn [firstn fold_left nth]; [auto|]. apply IH; auto. cbn in Hi. lia. Qed.
Lemma follow_proposes o l : chained p o l -> proposes [w] (fun _ => valid_occu sls N) (follow o l).
Proof.
  intros C t i v a Hv V. assert (v = w) as -> by (destruct i as [|i]; cbn in Hv; [congruence|destruct i; discriminate]). cbn [wk_kernel random_walker k_propose]. unfold follow. cbn [fst].
  destruct ((t <? length l) && occu_eqb a (fold_left apply_step (firstn t l) o)) eqn:E.
  - apply andb_true_iff in E as [E1 E2]. apply Nat.ltb_lt in E1. unfold occu_eqb in E2. destruct (list_eq_dec _ _ _) as [->|]; [|discriminate]. apply chained_nth; auto.
  - destruct (@C05_flip_total sls N given u a L HU HP V Two) as [Hn Hm]. destruct (p a) as [|[q [st|]] r] eqn:Ep; [discriminate| |exfalso; apply (Hn q); left; auto]. exists q. left. auto.
Qed.
Lemma recorded_path thin m o l : 0 < thin -> chained p o l -> length l = S m * thin -> recorded sls N w thin o (fold_left apply_step l o).
Proof.
  intros Ht C Len. destruct (@samples_path (follow o l) thin m l 0 (initial_trace (wk_kernel w) o) Len) as (ys & y & E & I & O).
  - intros i Hi. cbn [plus initial_trace w_occu]. unfold follow. cbn [fst]. rewrite (proj2 (Nat.ltb_lt _ _) Hi). unfold occu_eqb. destruct (list_eq_dec _ _ _); [auto|congruence].
  - exists (follow o l), (S m * thin), ys, y. split; [apply follow_proposes; auto|]. split; [|split; auto]. unfold sample_run. destruct (Nat.eqb_spec thin 0); [lia|]. unfold setup_sample. cbn [length Nat.eqb combine map fst snd option_bind].
    rewrite Nat.div_mul by lia. exact E.
Qed.
(** There and back. *)
Lemma bounce a : valid_occu sls N a -> exists l, length l = 2 /\ chained p a l /\ fold_left apply_step l a = a.
Proof.
  intros V. pose proof (usher_ok_mk HU HP) as O. assert (X : exists sl s, In sl sls /\ In s (sl_active sl)).
  { destruct (us_active u) as [|sl r] eqn:E; [exfalso|].
    - destruct (@C05_flip_total sls N given u a L HU HP V Two) as [Hn _]. apply (Hn 1%Qc). unfold flip_propose, get_random_sublattice. rewrite E. pose proof (uo_len O) as UL. rewrite E in UL. destruct (us_probs u); [|discriminate]. left. reflexivity.
    - assert (I : In sl (us_active u)) by (rewrite E; left; auto). rewrite (uo_active O) in I. apply filter_In in I as [I A]. unfold is_active in A. apply Nat.ltb_lt in A. destruct (sl_active sl) as [|s t] eqn:Es; [cbn in A; lia|]. exists sl, s. rewrite Es. split; auto. left. auto. }
  destruct X as (sl & s & I & A). pose proof (@lay_active _ _ L _ _ I A) as S. destruct (proj2 V sl s I S) as (c & Ec & Hc).
  assert (T : 2 <= length (sl_encoding sl)) by (apply Two; auto; intros E; rewrite E in A; destruct A). pose proof (proj1 (@lay_codes _ _ L sl I)) as NDc.
  assert (D : exists d, In d (sl_encoding sl) /\ d <> c).
  { destruct (sl_encoding sl) as [|x [|y r]]; cbn in T; try lia. destruct (Nat.eq_dec x c) as [->|]; [exists y|exists x; split; [left; auto|auto]]. split; [right; left; auto|]. intros ->. inversion NDc; subst. apply H1. left. auto. }
  destruct D as (d & Hd & Nd). assert (Lg : legal_flip sls a s d) by (exists sl; split; [split; auto|]; split; auto; congruence).
  assert (V1 : valid_occu sls N (apply_step a [(s, d)])) by (apply flip_valid; auto). assert (Hs : s < length a) by (apply nth_error_Some; congruence).
  exists [[(s, d)]; [(s, c)]]. split; auto. split.
  - constructor; [eapply flip_possible; eauto|]. constructor; [|constructor]. eapply flip_possible; eauto. exists sl. split; [split; auto|]. split; auto. unfold apply_step. cbn [fold_left fst snd]. rewrite nth_error_upd_eq by auto. congruence.
  - unfold apply_step. cbn [fold_left fst snd]. apply nth_ext with (d := 0) (d' := 0); [rewrite !length_upd; auto|]. intros t Ht. destruct (Nat.eq_dec s t) as [<-|Ne]; [rewrite nth_upd_same by (rewrite length_upd; auto); symmetry; apply nth_error_nth; auto|rewrite !nth_upd_other; auto].
Qed.
Lemma bounces a k : valid_occu sls N a -> exists l, length l = 2 * k /\ chained p a l /\ fold_left apply_step l a = a.
Proof.
  intros V. destruct (bounce V) as (b & Lb & Cb & Eb). induction k as [|k (l & Ll & Cl & El)]; [exists []; split; auto; split; [constructor|auto]|].
  exists (b ++ l). split; [rewrite app_length; lia|]. split; [apply chained_app; auto; rewrite Eb; auto|]. rewrite fold_left_app, Eb. auto.
Qed.

(** With odd thinning every occupancy that is reached can be recorded. *)
Theorem C149_odd_partial thin o o' : Nat.Odd thin -> valid_occu sls N o -> (recorded sls N w thin o o' <-> valid_occu sls N o' /\ same_fixed sls o o').
Proof.
  intros [h Hh] V. split.
  - intros (draws & n & ys & y & Pr & E & I & Oy). unfold sample_run in E. destruct (Nat.eqb_spec thin 0); [discriminate|]. unfold setup_sample in E. cbn [length Nat.eqb combine map fst snd option_bind] in E.
    assert (S1 : forall k t x y, (valid_occu sls N (w_occu x) /\ same_fixed sls o (w_occu x)) -> steps_from [w] draws k t [x] = Some [y] -> valid_occu sls N (w_occu y) /\ same_fixed sls o (w_occu y)).
    { induction k as [|k IH]; intros t x z Hx Ez; [cbn in Ez; injection Ez as ->; auto|]. cbn [steps_from step_all] in Ez. destruct (walk_accepts (draws t 0) x) as (z' & Ez' & Oz'). rewrite Ez' in Ez. cbn [option_bind] in Ez.
      apply (IH (S t) z' z); auto. rewrite Oz'. destruct Hx as [Vx Fx]. pose proof (Pr t 0 w (w_occu x) eq_refl Vx) as Out. cbn [wk_kernel random_walker k_propose] in Out.
      destruct (proj1 (C146_flips L HU HP HA _ Vx) (reached_one Out)) as [V1 F1]. split; auto. eapply fixed_trans; eauto. }
    assert (S2 : forall m t x ys, (valid_occu sls N (w_occu x) /\ same_fixed sls o (w_occu x)) -> samples_from [w] draws thin m t [x] = Some ys -> In [y] ys -> valid_occu sls N (w_occu y) /\ same_fixed sls o (w_occu y)).
    { induction m as [|m IH]; intros t x zs Hx Ez Iz; cbn [samples_from] in Ez; [injection Ez as <-; destruct Iz|]. destruct (steps_accept draws thin t x) as (z & Es). rewrite Es in Ez. cbn [option_bind] in Ez.
      pose proof (S1 thin t x z Hx Es) as Hz. destruct (samples_from [w] draws thin m (t + thin) [z]) as [r|] eqn:Er; [|discriminate]. cbn [option_bind] in Ez. injection Ez as <-. destruct Iz as [Iz|Iz]; [injection Iz as <-; auto|eapply IH; eauto]. }
    rewrite <- Oy. eapply S2; [|exact E|exact I]. cbn [initial_trace w_occu]. split; auto. apply fixed_refl.
  - intros [V' F]. destruct (proj2 (C146_flips L HU HP HA o' V) (conj V' F)) as (l & Cl & El).
    destruct (@bounces o' (length l * h + thin) V') as (m & Lm & Cm & Em).
    assert (E : o' = fold_left apply_step (l ++ m) o) by (rewrite fold_left_app, El, Em; auto). rewrite E at 1.
    apply (@recorded_path thin (length l + 1) o (l ++ m)); [lia|apply chained_app; auto; rewrite El; auto|rewrite app_length; nia].
Qed.

(** ** Even thinning *)
Lemma toggle {A} (P Q : A -> bool) l s : NoDup l -> In s l -> P s = negb (Q s) -> (forall x, x <> s -> P x = Q x) -> Nat.odd (length (filter P l)) = negb (Nat.odd (length (filter Q l))).
Proof.
  intros ND I E H. induction l as [|a l IH]; [destruct I|]. inversion ND as [|? ? Na NDl]; subst. cbn [filter]. destruct I as [->|I].
  - assert (F : filter P l = filter Q l) by (apply filter_ext_in; intros x Hx; apply H; intros ->; auto). rewrite E, F. destruct (Q s); cbn [negb length]; rewrite Nat.odd_succ, <- Nat.negb_odd, ?negb_involutive; auto.
  - rewrite (H a) by (intros ->; auto). destruct (Q a); cbn [length]; [rewrite !Nat.odd_succ, <- !Nat.negb_odd, IH by auto|]; auto.
Qed.
Hypothesis Exactly : forall sl, In sl sls -> sl_active sl <> [] -> length (sl_encoding sl) = 2.
Lemma flip_parity o a st : valid_occu sls N o -> valid_occu sls N a -> outcome (p a) st -> Nat.odd (diff N o (apply_step a st)) = negb (Nat.odd (diff N o a)).
Proof.
  intros V Va Hst. destruct (@C05_flip_legal sls N given u a st L HU HP Va Hst) as (s & c & -> & (sl & [I A] & C & Ne) & V1). pose proof (@lay_active _ _ L _ _ I A) as S.
  destruct (proj2 Va sl s I S) as (d & Ed & Hd). destruct (proj2 V sl s I S) as (e & Ee & He). assert (Hs : s < length a) by (apply nth_error_Some; congruence).
  unfold diff. apply toggle with (s := s); [apply seq_NoDup|apply in_seq; rewrite <- (proj1 Va); lia| |].
  - unfold differs, apply_step. cbn [fold_left fst snd]. rewrite nth_upd_same by auto. rewrite (nth_error_nth _ _ 0 Ed), (nth_error_nth _ _ 0 Ee). f_equal.
    assert (Q : length (sl_encoding sl) = 2) by (apply Exactly; auto; intros Z; rewrite Z in A; destruct A). destruct (sl_encoding sl) as [|x [|y [|? ?]]]; try discriminate Q. rewrite Ed in Ne. assert (c <> d) by congruence.
    destruct (Nat.eqb_spec e c), (Nat.eqb_spec e d); auto; cbn in C, Hd, He; exfalso; intuition congruence.
  - intros x Hx. unfold differs, apply_step. cbn [fold_left fst snd]. rewrite nth_upd_other by auto. auto.
Qed.
Lemma recorded_parity thin o o' : Nat.Even thin -> valid_occu sls N o -> recorded sls N w thin o o' -> Nat.odd (diff N o o') = false.
Proof.
  intros [h Hh] V (draws & n & ys & y & Pr & E & I & Oy). unfold sample_run in E. destruct (Nat.eqb_spec thin 0); [discriminate|]. unfold setup_sample in E. cbn [length Nat.eqb combine map fst snd option_bind] in E.
  assert (S1 : forall k t x y, valid_occu sls N (w_occu x) -> steps_from [w] draws k t [x] = Some [y] -> valid_occu sls N (w_occu y) /\ Nat.odd (diff N o (w_occu y)) = xorb (Nat.odd k) (Nat.odd (diff N o (w_occu x)))).
  { induction k as [|k IH]; intros t x z Vx Ez; [cbn in Ez; injection Ez as ->; split; auto; destruct (Nat.odd _); auto|]. cbn [steps_from step_all] in Ez. destruct (walk_accepts (draws t 0) x) as (z' & Ez' & Oz'). rewrite Ez' in Ez. cbn [option_bind] in Ez.
    pose proof (Pr t 0 w (w_occu x) eq_refl Vx) as Out. cbn [wk_kernel random_walker k_propose] in Out. pose proof (flip_parity V Vx Out) as Pa. rewrite <- Oz' in Pa.
    assert (Vz : valid_occu sls N (w_occu z')) by (rewrite Oz'; apply (proj1 (C146_flips L HU HP HA _ Vx) (reached_one Out))).
    destruct (IH (S t) z' z Vz Ez) as [V2 P2]. split; auto. rewrite P2, Pa, Nat.odd_succ, <- Nat.negb_odd. destruct (Nat.odd k), (Nat.odd (diff N o (w_occu x))); auto. }
  assert (Te : Nat.odd thin = false) by (rewrite Hh, Nat.odd_mul; auto).
  assert (S2 : forall m t x ys, valid_occu sls N (w_occu x) -> Nat.odd (diff N o (w_occu x)) = false -> samples_from [w] draws thin m t [x] = Some ys -> In [y] ys -> Nat.odd (diff N o (w_occu y)) = false).
  { induction m as [|m IH]; intros t x zs Vx Px Ez Iz; cbn [samples_from] in Ez; [injection Ez as <-; destruct Iz|]. destruct (steps_accept draws thin t x) as (z & Es). rewrite Es in Ez. cbn [option_bind] in Ez.
    destruct (S1 thin t x z Vx Es) as [Vz Pz]. rewrite Te, Px in Pz. destruct (samples_from [w] draws thin m (t + thin) [z]) as [r|] eqn:Er; [|discriminate]. cbn [option_bind] in Ez. injection Ez as <-. destruct Iz as [Iz|Iz]; [injection Iz as <-; auto|eapply IH; eauto]. }
  rewrite <- Oy. eapply S2; [| |exact E|exact I]; cbn [initial_trace w_occu]; auto.
  unfold diff. replace (filter (differs o o) (seq 0 N)) with (@nil nat); auto. symmetry. assert (Z : forall l, filter (differs o o) l = []); auto. induction l as [|a l IH]; auto. cbn [filter]. unfold differs at 1. rewrite Nat.eqb_refl. cbn [negb]. auto.
Qed.
(** With even thinning and two species on every active sublattice, the occupancies that differ from the start in one site are reached but never recorded. *)
Theorem C149_even_refuted thin o : Nat.Even thin -> valid_occu sls N o -> exists o', reached p o o' /\ ~ recorded sls N w thin o o'.
Proof.
  intros Ev V. destruct (bounce V) as (l & Ll & Cl & _). destruct l as [|st l]; [discriminate|]. inversion Cl as [|? ? ? H1 _]; subst. exists (apply_step o st). split; [apply reached_one; auto|].
  intros R. pose proof (recorded_parity Ev V R) as P1. rewrite (flip_parity V V H1) in P1. destruct (Nat.odd (diff N o o)) eqn:D; [|discriminate].
  assert (Z : forall l, filter (differs o o) l = []) by (induction l0 as [|a l0 IH]; auto; cbn [filter]; unfold differs at 1; rewrite Nat.eqb_refl; cbn [negb]; auto). unfold diff in D. rewrite Z in D. discriminate.
Qed.
End Thin.
Print Assumptions C149_odd_partial.
Print Assumptions C149_even_refuted.

(** Non-vacuity: two sublattices with two codes each; thinning by 3 records [other_occu], thinning by 2 misses an occupancy. *)
Example C149_case : recorded ex_layout 5 (random_walker third_usher [] (fun _ => []) (fun _ _ => [])) 3 ex_occu other_occu /\
  exists o', reached (flip_propose third_usher) ex_occu o' /\ ~ recorded ex_layout 5 (random_walker third_usher [] (fun _ => []) (fun _ _ => [])) 2 ex_occu o'.
Proof.
  assert (T : forall sl, In sl ex_layout -> sl_active sl <> [] -> length (sl_encoding sl) = 2) by (intros sl [<-|[<-|[]]] _; reflexivity).
  assert (T' : forall sl, In sl ex_layout -> sl_active sl <> [] -> 2 <= length (sl_encoding sl)) by (intros sl I A; rewrite (T sl I A); auto).
  split.
  - apply (C149_odd_partial [] (fun _ => []) (fun _ _ => []) ex_layout_ok third_made third_nonneg third_chosen T' other_occu); [exists 1; reflexivity|apply ex_occu_ok|]. split; [apply other_valid|apply other_fixed].
  - apply (C149_even_refuted [] (fun _ => []) (fun _ _ => []) ex_layout_ok third_made third_nonneg third_chosen T' T); [exists 1; reflexivity|apply ex_occu_ok].
Qed.
