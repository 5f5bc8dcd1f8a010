From Verif Require Export SamplerSpec KernelProofs ContainerProofs.
Set Implicit Arguments.
Unset Strict Implicit.
Open Scope nat_scope.

Lemma step_all_spec ws : forall i draws xs zs, length xs = length ws ->
  step_all ws i draws xs = Some zs ->
  length zs = length xs /\
  forall j w y z, nth_error ws j = Some w -> nth_error xs j = Some y -> nth_error zs j = Some z ->
    walk_step w (draws (i + j)) y = Some z.
Proof.
  induction ws as [|w ws IH]; intros i draws xs zs Hl H; destruct xs as [|x xs]; try discriminate; simpl in H.
  - inversion H; subst. split; auto. intros j ? ? ? Hj. rewrite nth_nil in Hj. discriminate.
  - destruct (walk_step w (draws i) x) as [x'|] eqn:Ew; simpl in H; [|discriminate].
    destruct (step_all ws (S i) draws xs) as [r|] eqn:Er; simpl in H; [|discriminate].
    inversion H; subst zs. injection Hl as Hl. destruct (IH _ _ _ _ Hl Er) as [L N].
    split; [simpl; auto|]. intros [|j] w' y z Hw Hy Hz; simpl in *.
    + rewrite Nat.add_0_r. congruence.
    + rewrite Nat.add_succ_r. apply (N j w' y z); auto.
Qed.

Lemma step_all_total ws : forall i draws xs, length xs = length ws ->
  (forall j w y, nth_error ws j = Some w -> nth_error xs j = Some y -> walk_step w (draws (i + j)) y <> None) ->
  exists zs, step_all ws i draws xs = Some zs.
Proof.
  induction ws as [|w ws IH]; intros i draws xs Hl H; destruct xs as [|x xs]; try discriminate; simpl; eauto.
  destruct (walk_step w (draws i) x) as [x'|] eqn:E.
  - simpl. destruct (IH (S i) draws xs) as (r & Hr).
    + simpl in Hl; lia.
    + intros j w' y Hw Hy. specialize (H (S j) w' y Hw Hy). rewrite Nat.add_succ_r in H. auto.
    + rewrite Hr. simpl. eauto.
  - exfalso. apply (H 0 w x); auto. rewrite Nat.add_0_r. auto.
Qed.

Lemma after_length ws draws xs t ys : after ws draws xs t ys -> length ys = length xs.
Proof. induction 1; congruence. Qed.

Lemma list_ext {A} (l1 : list A) : forall l2, (forall i, nth_error l1 i = nth_error l2 i) -> l1 = l2.
Proof.
  induction l1 as [|a l1 IH]; intros [|b l2] H; auto.
  - specialize (H 0). discriminate.
  - specialize (H 0). discriminate.
  - pose proof (H 0) as H0. injection H0 as ->. f_equal. apply IH. intros i. apply (H (S i)).
Qed.

Lemma after_fun ws draws xs : length xs = length ws -> forall t ys zs,
  after ws draws xs t ys -> after ws draws xs t zs -> ys = zs.
Proof.
  intros Hl t ys zs H. revert zs. induction H as [|t ys ys' H IH Hlen Hs]; intros zs H2.
  - inversion H2; auto.
  - inversion H2 as [|t' us zs' H3 Hlen' Hs']; subst. rewrite <- (IH us H3) in *.
    apply list_ext. intros i.
    destruct (nth_error ys i) as [y|] eqn:Ey.
    + assert (Hi : i < length ys) by (apply nth_error_Some; congruence).
      destruct (nth_error ys' i) as [z|] eqn:Ez; [|apply nth_error_None in Ez; lia].
      destruct (nth_error zs i) as [z'|] eqn:Ez'; [|apply nth_error_None in Ez'; lia].
      destruct (nth_error ws i) as [w|] eqn:Ew.
      * rewrite <- (Hs _ _ _ _ Ew Ey Ez). apply (Hs' _ _ _ _ Ew Ey Ez').
      * apply nth_error_None in Ew. apply after_length in H. lia.
    + apply nth_error_None in Ey.
      rewrite (proj2 (nth_error_None ys' i)), (proj2 (nth_error_None zs i)) by lia. auto.
Qed.

Lemma steps_from_after ws draws xs : length xs = length ws -> forall k t ys zs,
  after ws draws xs t ys -> steps_from ws draws k t ys = Some zs -> after ws draws xs (t + k) zs.
Proof.
  intros Hl. induction k as [|k IH]; intros t ys zs Ha H; simpl in H.
  - inversion H; subst. rewrite Nat.add_0_r. auto.
  - destruct (step_all ws 0 (draws t) ys) as [us|] eqn:E; simpl in H; [|discriminate].
    pose proof (after_length Ha) as Hy.
    destruct (@step_all_spec ws 0 (draws t) ys us) as [L N]; [congruence|auto|].
    replace (t + S k) with (S t + k) by lia. apply IH with us; auto.
    econstructor; eauto.
Qed.

Lemma samples_from_after ws draws xs thin : length xs = length ws -> forall m t ys l,
  after ws draws xs t ys -> samples_from ws draws thin m t ys = Some l ->
  length l = m /\ forall j y, nth_error l j = Some y -> after ws draws xs (t + (j + 1) * thin) y.
Proof.
  intros Hl. induction m as [|m IH]; intros t ys l Ha H; simpl in H.
  - inversion H; subst. split; auto. intros j y Hj. rewrite nth_nil in Hj. discriminate.
  - destruct (steps_from ws draws thin t ys) as [us|] eqn:E; simpl in H; [|discriminate].
    destruct (samples_from ws draws thin m (t + thin) us) as [r|] eqn:Er; simpl in H; [|discriminate].
    inversion H; subst l. pose proof (steps_from_after Hl Ha E) as Hu.
    destruct (IH _ _ _ Hu Er) as [L N]. split; [simpl; auto|].
    intros [|j] y Hj; simpl in Hj.
    + injection Hj as <-. replace (t + (0 + 1) * thin) with (t + thin) by lia. auto.
    + replace (t + (S j + 1) * thin) with (t + thin + (j + 1) * thin) by lia. auto.
Qed.

(** Invariants of all walkers carry over to every later time. *)
Lemma after_invariant ws draws xs (P : nat -> wtrace -> Prop) :
  length xs = length ws ->
  (forall i x, nth_error xs i = Some x -> P i x) ->
  (forall t i w x z, nth_error ws i = Some w -> P i x -> walk_step w (draws t i) x = Some z -> P i z) ->
  forall t ys, after ws draws xs t ys -> forall i y, nth_error ys i = Some y -> P i y.
Proof.
  intros Hl H0 HS. induction 1 as [|t ys zs H IH Hlen Hs]; auto.
  intros i z Hz.
  assert (Hi : i < length ys) by (rewrite <- Hlen; apply nth_error_Some; congruence).
  destruct (nth_error ys i) as [y|] eqn:Ey; [|apply nth_error_None in Ey; lia].
  destruct (nth_error ws i) as [w|] eqn:Ew; [|apply nth_error_None in Ew; apply after_length in H; lia].
  eapply HS; eauto.
Qed.

Lemma setup_sample_spec ws occus xs : setup_sample ws occus = Some xs ->
  length xs = length ws /\ length occus = length ws /\
  forall i x, nth_error xs i = Some x ->
    exists w o, nth_error ws i = Some w /\ nth_error occus i = Some o /\ x = initial_trace (wk_kernel w) o.
Proof.
  unfold setup_sample. destruct (length occus =? length ws) eqn:E; [|discriminate].
  apply Nat.eqb_eq in E. intros H; injection H as <-.
  rewrite map_length, combine_length, E, Nat.min_id. repeat split; auto.
  clear E. revert occus. induction ws as [|w ws IH]; intros [|o occus] i x H; simpl in H; try (rewrite nth_nil in H; discriminate).
  destruct i as [|i]; simpl in *.
  - injection H as <-. eauto.
  - apply IH; auto.
Qed.

(** Saving. *)
Lemma save_all_spec th : forall ys c xs k s, filled c xs (length ys + k) s ->
  exists c', save_all c th ys = Some c' /\ filled c' (xs ++ ys) k (s + th * length ys).
Proof.
  induction ys as [|y ys IH]; intros c xs k s H; simpl in *.
  - exists c. split; auto. rewrite app_nil_r, Nat.mul_0_r, Nat.add_0_r. auto.
  - destruct (@filled_save _ c xs (length ys + k) s y th H) as (c1 & E1 & H1). rewrite E1. simpl.
    destruct (IH c1 _ k _ H1) as (c2 & E2 & H2). exists c2. split; auto.
    rewrite <- app_assoc in H2. simpl in H2. replace (s + th * S (length ys)) with (s + th + th * length ys) by lia. auto.
Qed.

Lemma last_holds W (c : container W) xs s : holds c xs s ->
  last (c_rows c) None = match rev xs with [] => None | x :: _ => Some x end.
Proof.
  intros (A & _ & _). rewrite A. clear A. induction xs as [|x xs IH] using rev_ind; simpl; auto.
  rewrite map_app, rev_app_distr. simpl. apply last_last.
Qed.

(** Streaming. *)
Section Stream.
Variables (thin chunk : nat).
Hypothesis Hchunk : 0 < chunk.

Definition chunked (c : container wtrace) zs :=
  length (c_rows c) = chunk /\ c_n c = length zs /\ firstn (length zs) (c_rows c) = map Some zs /\
  c_steps c = thin * length zs.

Lemma chunked_save c zs y : chunked c zs -> length zs < chunk ->
  exists c', save_sample c y thin = Some c' /\ chunked c' (zs ++ [y]).
Proof.
  intros (A & B & C & D) Hz. unfold save_sample. rewrite A, B.
  assert (E : length zs <? chunk = true) by (apply Nat.ltb_lt; auto). rewrite E.
  eexists; split; [reflexivity|]. unfold chunked; simpl. repeat split.
  - rewrite length_upd. auto.
  - rewrite app_length. simpl. lia.
  - rewrite app_length. simpl. rewrite <- (firstn_skipn (length zs) (c_rows c)).
    rewrite C. destruct (skipn (length zs) (c_rows c)) as [|r rest] eqn:Er.
    { apply (f_equal (@length _)) in Er. rewrite skipn_length in Er. simpl in Er. lia. }
    rewrite <- (map_length Some zs), upd_middle.
    rewrite firstn_app. rewrite firstn_all2 by lia.
    replace (length (map Some zs) + 1 - length (map Some zs)) with 1 by lia. simpl. rewrite map_app. auto.
  - rewrite app_length. simpl. rewrite D. lia.
Qed.

Lemma chunked_holds c zs : chunked c zs -> length zs = chunk -> holds c zs (thin * length zs).
Proof.
  intros (A & B & C & D) H. repeat split; auto. rewrite <- C. rewrite firstn_all2; auto. lia.
Qed.

Lemma stream_all_spec : forall ys i c b zs fs k s,
  chunked c zs -> length zs = i mod chunk -> file_filled b fs k s -> length zs + length ys <= length k ->
  exists c' b' out rest k', stream_all c b thin chunk i ys = Some (c', b') /\
    zs ++ ys = out ++ rest /\ length rest = (i + length ys) mod chunk /\ chunked c' rest /\
    file_filled b' (fs ++ out) k' (s + thin * length out).
Proof.
  induction ys as [|y ys IH]; intros i c b zs fs k s Hc Hz Hb Hk; cbn [stream_all].
  - exists c, b, [], zs, k. simpl. rewrite app_nil_r, !Nat.add_0_r. rewrite app_nil_r. 
    replace (s + thin * 0) with s by lia. auto.
  - assert (Hlt : length zs < chunk) by (rewrite Hz; apply Nat.mod_upper_bound; lia).
    destruct (@chunked_save c zs y Hc Hlt) as (c1 & E1 & H1). rewrite E1. cbn [option_bind].
    assert (Hmod : (i + 1) mod chunk = if S (length zs) =? chunk then 0 else S (length zs)).
    { pose proof (Nat.div_mod_eq i chunk) as Hd. destruct (S (length zs) =? chunk) eqn:E.
      - apply Nat.eqb_eq in E. symmetry. apply Nat.mod_unique with (q := S (i / chunk)); lia.
      - apply Nat.eqb_neq in E. symmetry. apply Nat.mod_unique with (q := i / chunk); lia. }
    destruct (S (length zs) =? chunk) eqn:E.
    + apply Nat.eqb_eq in E. rewrite Hmod. simpl (0 =? 0).
      assert (Hfull : length (zs ++ [y]) = chunk) by (rewrite app_length; simpl; lia).
      pose proof (chunked_holds H1 Hfull) as Hh.
      assert (Hle : length (zs ++ [y]) <= length k) by (rewrite app_length; simpl in *; lia).
      destruct (flush_spec Hh Hb Hle) as (b1 & Ef & Hb1). rewrite Ef. cbn [option_bind fst snd].
      destruct (IH (S i) (mkC (c_rows c1) 0 0) b1 [] (fs ++ zs ++ [y]) (skipn (length (zs ++ [y])) k) (s + thin * length (zs ++ [y])))
        as (c' & b' & out & rest & k' & Es & Eq & Er & Hc' & Hb').
      { unfold chunked. simpl. destruct H1 as (A1 & _). repeat split; auto. }
      { simpl. rewrite <- Hmod. f_equal. lia. }
      { auto. }
      { rewrite skipn_length, Hfull. simpl in *. lia. }
      exists c', b', (zs ++ y :: out), rest, k'. split; [exact Es|]. repeat split; try apply Hc'.
      * simpl in Eq. rewrite Eq, <- app_assoc. auto.
      * rewrite Er. f_equal. simpl. lia.
      * destruct Hb' as (B1 & _). rewrite B1. rewrite <- !app_assoc. simpl. rewrite <- ?app_assoc. auto.
      * destruct Hb' as (_ & B2 & _). rewrite B2. rewrite !app_length. simpl. rewrite ?app_length. simpl. lia.
      * destruct Hb' as (_ & _ & B3). rewrite B3. rewrite !app_length. simpl. lia.
    + rewrite Hmod. simpl (S (length zs) =? 0). cbn [option_bind fst snd].
      destruct (IH (S i) c1 b (zs ++ [y]) fs k s) as (c' & b' & out & rest & k' & Es & Eq & Er & Hc' & Hb'); auto.
      { rewrite app_length. simpl. replace (S i) with (i + 1) by lia. rewrite Hmod. lia. }
      { rewrite app_length. simpl in *. lia. }
      exists c', b', out, rest, k'. split; [exact Es|]. split; [|split; [|split]]; auto.
      * rewrite <- Eq, <- app_assoc. auto.
      * rewrite Er. f_equal. simpl. lia.
Qed.
End Stream.
