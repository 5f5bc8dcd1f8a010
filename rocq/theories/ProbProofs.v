From Verif Require Export LibProofs Prob.
Set Implicit Arguments.
Unset Strict Implicit.
Open Scope Qc_scope.

Lemma prob_nil {A} (P : A -> bool) : prob [] P = 0.
Proof. reflexivity. Qed.

Lemma prob_app {A} (m m' : prog A) P : prob (m ++ m') P = prob m P + prob m' P.
Proof. unfold prob. rewrite map_app, qsum_app. auto. Qed.

Lemma prob_map_scale {A} (w : Qc) (m : prog A) P :
  prob (map (fun q => (w * fst q, snd q)) m) P = w * prob m P.
Proof.
  unfold prob. rewrite map_map, <- qsum_map_scale. apply qsum_map_ext. intros [v [x|]] _; simpl.
  - destruct (P x); ring.
  - ring.
Qed.

Lemma prob_bind {A B} (m : prog A) (f : A -> prog B) P :
  prob (pbind m f) P =
  qsum (map (fun p => match snd p with Some x => fst p * prob (f x) P | None => 0 end) m).
Proof.
  induction m as [|[w [x|]] m IH]; simpl; auto.
  - rewrite prob_app, prob_map_scale, IH. auto.
  - unfold prob in *; simpl. rewrite IH. auto.
Qed.

Lemma prob_ret {A} (x : A) P : prob (pret x) P = if P x then 1 else 0.
Proof. unfold prob; simpl. destruct (P x); ring. Qed.

Lemma prob_fail0 {A} (P : A -> bool) : prob pfail P = 0.
Proof. unfold prob; simpl. ring. Qed.

Lemma prob_ext {A} (m : prog A) P Q :
  (forall x, outcome m x -> P x = Q x) -> prob m P = prob m Q.
Proof.
  intros H. unfold prob. apply qsum_map_ext. intros [w [x|]] Hin; simpl; auto.
  rewrite H; auto. exists w; auto.
Qed.

Lemma prob_uniform {A} (l : list A) P :
  prob (uniform l) P = qsum (map (fun x => if P x then 1 / Qc_of_nat (length l) else 0) l).
Proof.
  destruct l as [|a l]; [simpl; apply prob_fail0|].
  unfold uniform, prob. rewrite map_map. reflexivity.
Qed.

Lemma prob_bind_uniform {A B} (l : list A) (f : A -> prog B) P :
  prob (pbind (uniform l) f) P =
  qsum (map (fun x => 1 / Qc_of_nat (length l) * prob (f x) P) l).
Proof.
  rewrite prob_bind. destruct l as [|a l]; [simpl; ring|].
  unfold uniform. rewrite map_map. reflexivity.
Qed.

Lemma prob_false {A} (m : prog A) P : (forall x, outcome m x -> P x = false) -> prob m P = 0.
Proof.
  intros H. unfold prob. apply qsum_map_0. intros [w [x|]] Hin; simpl; auto.
  rewrite H; auto. exists w; auto.
Qed.

Lemma outcome_ret {A} (x y : A) : outcome (pret x) y <-> y = x.
Proof.
  split.
  - intros (w & [E|[]]). congruence.
  - intros ->. exists 1; left; auto.
Qed.

Lemma outcome_fail {A} (y : A) : ~ outcome pfail y.
Proof. intros (w & [E|[]]). congruence. Qed.

Lemma outcome_bind {A B} (m : prog A) (f : A -> prog B) y :
  outcome (pbind m f) y <-> exists x, outcome m x /\ outcome (f x) y.
Proof.
  unfold outcome, pbind. split.
  - intros (w & H). apply in_flat_map in H. destruct H as ([v [x|]] & Hin & H); simpl in H.
    + apply in_map_iff in H. destruct H as ([u o] & E & H). simpl in E. inversion E; subst.
      exists x; split; eauto.
    + destruct H as [H|[]]; congruence.
  - intros (x & (v & Hv) & (u & Hu)). exists (v * u). apply in_flat_map.
    exists (v, Some x). split; auto. simpl. apply in_map_iff. exists (u, Some y); auto.
Qed.

Lemma outcome_uniform {A} (l : list A) x : outcome (uniform l) x <-> In x l.
Proof.
  destruct l as [|a l].
  - split; [intros H; apply outcome_fail in H; tauto|intros []].
  - unfold outcome, uniform. split.
    + intros (w & H). apply in_map_iff in H. destruct H as (y & E & H). congruence.
    + intros H. eexists. apply in_map_iff. eexists; split; [reflexivity|auto].
Qed.

Lemma outcome_choice_p {A} (l : list A) p x :
  outcome (choice_p l p) x -> In x l.
Proof.
  unfold choice_p. destruct (_ && _).
  - intros (w & H). apply in_map_iff in H. destruct H as ([y q] & E & H). simpl in E.
    inversion E; subst. apply filter_In in H as [H _]. eapply in_combine_l; eauto.
  - intros H. apply outcome_fail in H; tauto.
Qed.

Lemma outcome_choice_p_nz {A} (l : list A) p x :
  outcome (choice_p l p) x -> exists q, In (x, q) (combine l p) /\ q <> 0.
Proof.
  unfold choice_p. destruct (_ && _).
  - intros (w & H). apply in_map_iff in H. destruct H as ([y q] & E & H). simpl in E.
    inversion E; subst. apply filter_In in H as [H H0]. exists w. split; auto.
    simpl in H0. destruct (Qceqb_spec w 0); [discriminate|auto].
  - intros H. apply outcome_fail in H; tauto.
Qed.

(** Dropping entries that contribute nothing. *)
Lemma qsum_filter_nz {A} (f : A -> bool) (g : A -> Qc) l :
  (forall x, In x l -> f x = false -> g x = 0) -> qsum (map g (filter f l)) = qsum (map g l).
Proof.
  induction l as [|x l IH]; intros H; simpl; auto. destruct (f x) eqn:E; simpl; rewrite IH; auto.
  - intros; apply H; [right; auto|auto].
  - rewrite (H x); [ring|left; auto|auto].
  - intros; apply H; [right; auto|auto].
Qed.

Lemma never_raises_bind {A B} (m : prog A) (f : A -> prog B) :
  never_raises m -> (forall x, outcome m x -> never_raises (f x)) -> never_raises (pbind m f).
Proof.
  intros Hm Hf w H. unfold pbind in H. apply in_flat_map in H.
  destruct H as ([v [x|]] & Hin & H); simpl in H.
  - apply in_map_iff in H. destruct H as ([u o] & E & H). simpl in E. inversion E; subst.
    apply (Hf x) in H; auto. exists v; auto.
  - eapply Hm; eauto.
Qed.

Lemma never_raises_ret {A} (x : A) : never_raises (pret x).
Proof. intros w [E|[]]. congruence. Qed.

Lemma never_raises_uniform {A} (l : list A) : l <> [] -> never_raises (uniform l).
Proof.
  intros Hl w. destruct l as [|a l]; [congruence|]. unfold uniform. intros H.
  apply in_map_iff in H. destruct H as (y & E & H). congruence.
Qed.

(** Masses: a computation built from draws has total weight one. *)
Lemma mass_app {A} (m m' : prog A) : mass (m ++ m') = mass m + mass m'.
Proof. unfold mass. rewrite map_app, qsum_app; auto. Qed.

Lemma mass_bind {A B} (m : prog A) (f : A -> prog B) :
  (forall x, outcome m x -> mass (f x) = 1) -> mass (pbind m f) = mass m.
Proof.
  induction m as [|[w [x|]] m IH]; intros H; simpl; auto.
  - rewrite mass_app, IH.
    + unfold mass at 1. rewrite map_map. simpl.
      replace (qsum (map (fun x0 => w * fst x0) (f x))) with (w * mass (f x))
        by (unfold mass; rewrite <- qsum_map_scale; auto).
      rewrite H by (exists w; left; auto). unfold mass; simpl. ring.
    + intros y (v & Hv). apply H. exists v; right; auto.
  - unfold mass in *; simpl. rewrite IH; auto. intros y (v & Hv). apply H. exists v; right; auto.
Qed.

Lemma mass_ret {A} (x : A) : mass (pret x) = 1.
Proof. unfold mass; simpl; ring. Qed.
Lemma mass_fail {A} : mass (@pfail A) = 1.
Proof. unfold mass; simpl; ring. Qed.

Lemma mass_uniform {A} (l : list A) : mass (uniform l) = 1.
Proof.
  destruct l as [|a l]; [apply mass_fail|]. unfold uniform, mass. rewrite map_map. simpl fst.
  rewrite qsum_const. unfold Qcdiv. rewrite Qcmult_1_l.
  apply Qcmult_inv_r. apply Qc_of_nat_nz. simpl; lia.
Qed.

Lemma mass_choice_p {A} (l : list A) p : mass (choice_p l p) = 1.
Proof.
  unfold choice_p. destruct (_ && _) eqn:E; [|apply mass_fail].
  rewrite !andb_true_iff in E. destruct E as [[[E1 _] _] E4].
  apply Nat.eqb_eq in E1. destruct (Qceqb_spec (qsum p) 1) as [E|]; [|discriminate].
  unfold mass. rewrite map_map. simpl. rewrite <- E.
  rewrite (@qsum_filter_nz _ _ (fun q : A * Qc => snd q)).
  2: { intros [a q] _ H. simpl in *. destruct (Qceqb_spec q 0); [auto|discriminate]. }
  f_equal. clear E E4. revert p E1; induction l as [|a l IH]; intros [|q p] E; simpl in *; try lia; auto.
  f_equal. apply IH; lia.
Qed.

(** Non-negative weights. *)
Definition weights_nonneg {A} (m : prog A) : Prop := forall w o, In (w, o) m -> 0 <= w.

Lemma nonneg_bind {A B} (m : prog A) (f : A -> prog B) :
  weights_nonneg m -> (forall x, outcome m x -> weights_nonneg (f x)) -> weights_nonneg (pbind m f).
Proof.
  intros Hm Hf w o H. unfold pbind in H. apply in_flat_map in H.
  destruct H as ([v [x|]] & Hin & H); simpl in H.
  - apply in_map_iff in H. destruct H as ([u o'] & E & H). simpl in E. inversion E; subst.
    assert (0 <= v) by (eapply Hm; eauto).
    assert (0 <= u) by (eapply (Hf x); eauto; exists v; auto). qcnra.
  - destruct H as [H|[]]. inversion H; subst. eapply Hm; eauto.
Qed.

Lemma nonneg_uniform {A} (l : list A) : weights_nonneg (uniform l).
Proof.
  intros w o H. destruct l as [|a l].
  - destruct H as [E|[]]. inversion E. discriminate.
  - unfold uniform in H. apply in_map_iff in H. destruct H as (y & E & _). inversion E; subst.
    apply Qcdiv_ge_iff; [apply Qc_of_nat_pos; simpl; lia|].
    rewrite Qcmult_0_l. discriminate.
Qed.

Lemma nonneg_choice_p {A} (l : list A) p : weights_nonneg (choice_p l p).
Proof.
  intros w o H. unfold choice_p in H. destruct (_ && _) eqn:E.
  - rewrite !andb_true_iff in E. destruct E as [[_ E3] _].
    apply in_map_iff in H. destruct H as ([y q] & E & H). simpl in E. inversion E; subst.
    apply filter_In in H as [H _]. apply in_combine_r in H. rewrite forallb_forall in E3. specialize (E3 _ H).
    destruct (Qcleb_spec 0 w); auto; discriminate.
  - destruct H as [E'|[]]. inversion E'. discriminate.
Qed.

Lemma nonneg_ret {A} (x : A) : weights_nonneg (pret x).
Proof. intros w o [E|[]]. inversion E; subst. discriminate. Qed.

Lemma prob_nonneg {A} (m : prog A) P : weights_nonneg m -> 0 <= prob m P.
Proof.
  intros H. unfold prob. apply qsum_nonneg. intros x Hx. apply in_map_iff in Hx.
  destruct Hx as ([w [y|]] & <- & Hin); simpl; [destruct (P y)|]; try apply Qcle_refl; eapply H; eauto.
Qed.

(** Sums with a single non-zero term. *)
Lemma qsum_pick {A} (l : list A) (f : A -> Qc) x :
  NoDup l -> In x l -> (forall y, In y l -> y <> x -> f y = 0) -> qsum (map f l) = f x.
Proof.
  intros Hn; induction Hn as [|a l Ha Hn IH]; intros Hin H; [destruct Hin|].
  simpl. destruct Hin as [->|Hin].
  - rewrite qsum_map_0; [ring|]. intros y Hy. apply H; [right; auto|]. intros ->; tauto.
  - rewrite IH; auto; [|intros; apply H; auto; right; auto].
    rewrite (H a); [ring|left; auto|]. intros ->; tauto.
Qed.

Lemma qsum_filter {A} (f : A -> bool) (g : A -> Qc) l :
  qsum (map g (filter f l)) = qsum (map (fun x => if f x then g x else 0) l).
Proof.
  induction l as [|x l IH]; simpl; auto. destruct (f x); simpl; rewrite IH; ring.
Qed.

Lemma qsum_filter_const {A} (f : A -> bool) (k : Qc) l :
  qsum (map (fun _ => k) (filter f l)) = qsum (map (fun x => if f x then k else 0) l).
Proof. apply qsum_filter. Qed.

(** ** Outcomes have positive weights *)
Definition pos_prog {A} (m : prog A) : Prop := forall w x, In (w, x) m -> (0 < w)%Qc.

Lemma pos_ret {A} (x : A) : pos_prog (pret x).
Proof. intros w y [E|[]]. injection E as <- _. reflexivity. Qed.
Lemma pos_fail {A} : pos_prog (@pfail A).
Proof. intros w y [E|[]]. injection E as <- _. reflexivity. Qed.
Lemma pos_bind {A B} (m : prog A) (f : A -> prog B) :
  pos_prog m -> (forall x, outcome m x -> pos_prog (f x)) -> pos_prog (pbind m f).
Proof.
  intros Hm Hf w y H. unfold pbind in H. apply in_flat_map in H as ([w1 [x|]] & H1 & H); simpl in H.
  - apply in_map_iff in H as ([w2 z] & E & H2). simpl in E. injection E as <- <-.
    assert (0 < w1)%Qc by (eapply Hm; eauto).
    assert (0 < w2)%Qc by (eapply Hf; eauto; exists w1; eauto).
    replace 0%Qc with (0 * w2)%Qc by ring. apply Qcmult_lt_compat_r; auto.
  - destruct H as [E|[]]. injection E as <- <-. eapply Hm; eauto.
Qed.
Lemma pos_uniform {A} (l : list A) : pos_prog (uniform l).
Proof.
  destruct l as [|a l]; [apply pos_fail|]. intros w x H. unfold uniform in H.
  apply in_map_iff in H as (y & E & _). injection E as <- <-.
  apply Qcdiv_gt_iff; [apply Qc_of_nat_pos; simpl; lia|]. rewrite Qcmult_0_l. reflexivity.
Qed.
Lemma pos_choice_p {A} (l : list A) p : pos_prog (choice_p l p).
Proof.
  unfold choice_p. destruct (_ && _ && _ && _) eqn:E; [|apply pos_fail].
  apply andb_true_iff in E as [E _]. apply andb_true_iff in E as [_ E]. rewrite forallb_forall in E.
  intros w x H. apply in_map_iff in H as ([y q] & Eq & H). simpl in Eq. injection Eq as <- <-.
  apply filter_In in H as [H Hn]. simpl in Hn. apply in_combine_r in H. apply E in H.
  destruct (Qcleb_spec 0 q) as [Hq|]; [|discriminate]. destruct (Qceqb_spec q 0) as [|Hq0]; [discriminate|].
  apply Qcle_lt_or_eq in Hq as [|]; auto. congruence.
Qed.
Lemma prob_pos_outcome {A} (m : prog A) P x : pos_prog m -> outcome m x -> P x = true -> (0 < prob m P)%Qc.
Proof.
  intros Hm [w Hw] HP. unfold prob. induction m as [|[w1 y] m IH]; [destruct Hw|].
  assert (H0 : (0 < w1)%Qc) by (apply (Hm w1 y); left; auto).
  assert (Hm' : pos_prog m) by (intros a b Hab; apply (Hm a b); right; auto).
  assert (Hr : (0 <= qsum (map (fun p => match snd p with Some x => if P x then fst p else 0 | None => 0 end) m))%Qc).
  { apply qsum_nonneg. intros q Hq. apply in_map_iff in Hq as ([w2 z] & <- & Hz). apply Hm' in Hz. simpl.
    destruct z as [z|]; [destruct (P z)|]; first [apply Qcle_refl|apply Qclt_le_weak; assumption]. }
  simpl in *. destruct Hw as [E|Hw].
  - injection E as -> ->. rewrite HP. simpl. qclra.
  - specialize (IH Hm' Hw). destruct y as [y|]; [destruct (P y)|]; qclra.
Qed.
