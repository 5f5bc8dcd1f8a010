(** Table flips over all sublattices and reverse proposals. *)
From Verif Require Export TableFlipProofs.
Set Implicit Arguments.
Unset Strict Implicit.
Open Scope nat_scope.

Definition us_at (u : list Z) (dims : list nat) : list Z := map (fun d => nth d u 0%Z) dims.

Lemma realises_app a1 a2 o o' st1 st2 :
  incl (map fst st1) a1 -> incl (map fst st2) a2 -> (forall s, In s a1 -> ~ In s a2) ->
  realises (a1 ++ a2) o o' (st1 ++ st2) = realises a1 o o' st1 && realises a2 o o' st2.
Proof.
  intros H1 H2 Hd. unfold realises. rewrite !forallb_app, map_app.
  rewrite (@forallb_ext_in _ (fun s => memb s (map fst st1 ++ map fst st2) || carries o' (nth s o 0) s)
             (fun s => memb s (map fst st1) || carries o' (nth s o 0) s) a1).
  2: { intros s Hs. f_equal. rewrite memb_app. destruct (memb s (map fst st2)) eqn:E; [|apply orb_false_r].
       apply memb_In, H2 in E. exfalso. eapply Hd; eauto. }
  rewrite (@forallb_ext_in _ (fun s => memb s (map fst st1 ++ map fst st2) || carries o' (nth s o 0) s)
             (fun s => memb s (map fst st2) || carries o' (nth s o 0) s) a2).
  2: { intros s Hs. f_equal. rewrite memb_app. destruct (memb s (map fst st1)) eqn:E; auto.
       apply memb_In, H1 in E. exfalso. eapply Hd; eauto. }
  destruct (forallb (fun f => carries o' (snd f) (fst f)) st1);
  destruct (forallb (fun f => carries o' (snd f) (fst f)) st2); simpl; auto;
  rewrite ?andb_false_r; auto.
Qed.

Section All.
Variables (u : list Z) (o : list nat) (L : list (list nat)).

(** A sublattice with its dimensions is well set up. *)
Record pair_ok (q : sublattice * list nat) : Prop := {
  po_act : NoDup (sl_active (fst q));
  po_codes : NoDup (sl_encoding (fst q));
  po_val : allowed (sl_active (fst q)) (sl_encoding (fst q)) o;
  po_len : length (snd q) = length (sl_encoding (fst q));
  po_sum : zsum (us_at u (snd q)) = 0%Z;
  po_zero : sl_active (fst q) = [] -> forall d, In d (snd q) -> nth d u 0%Z = 0%Z;
  po_items : exists items, flip_items u L (snd q) (sl_encoding (fst q)) = Some items /\
                items_ok (sl_active (fst q)) (sl_encoding (fst q)) (us_at u (snd q)) o items
}.

Definition acts (l : list (sublattice * list nat)) : list nat := flat_map (fun q => sl_active (fst q)) l.

Definition pair_moves o' (q : sublattice * list nat) : Prop :=
  site_moves (sl_active (fst q)) (sl_encoding (fst q)) (us_at u (snd q)) o o'.

Lemma active_dec sl : is_active sl = false -> sl_active sl = [].
Proof. unfold is_active. rewrite Nat.ltb_ge. destruct (sl_active sl); simpl; auto. lia. Qed.

Lemma flip_sublattice_local q items : is_active (fst q) = true ->
  flip_items u L (snd q) (sl_encoding (fst q)) = Some items ->
  forall P, prob (flip_sublattice u L (fst q) (snd q)) P = prob (local_flip items) P.
Proof.
  intros Ha Hi P. unfold flip_sublattice. rewrite Ha. simpl. rewrite prob_bind_of_opt, Hi. auto.
Qed.

Lemma flip_sublattice_outcome q st : pair_ok q ->
  outcome (flip_sublattice u L (fst q) (snd q)) st ->
  NoDup (map fst st) /\ incl (map fst st) (sl_active (fst q)) /\
  (forall s c, In (s, c) st -> In c (sl_encoding (fst q))) /\
  (forall s c, In (s, c) st -> nth_error o s <> Some c) /\
  forall o', (forall s c, In (s, c) st -> nth_error o' s = Some c) ->
             (forall s, In s (sl_active (fst q)) -> ~ In s (map fst st) -> nth_error o' s = nth_error o s) ->
             pair_moves o' q.
Proof.
  intros Ok H. destruct (po_items Ok) as (items & Hi & Io).
  unfold flip_sublattice in H. destruct (is_active (fst q)) eqn:Ha; simpl in H.
  - apply outcome_bind in H as (it & Hit & H). apply outcome_of_opt in Hit.
    assert (it = items) by congruence. subst it.
    apply (local_outcome (po_act Ok) (po_codes Ok) Io H).
  - apply outcome_ret in H. subst st. pose proof (active_dec Ha) as E.
    split; [constructor|]. split; [intros s []|]. split; [intros s c []|]. split; [intros s c []|].
    intros o' _ _ p c z Hc Hz. rewrite E. unfold us_at in Hz.
    apply nth_error_map_inv in Hz as (d & Hd & ->). rewrite (po_zero Ok E) by (eapply nth_error_In; eauto).
    auto.
Qed.

Lemma flip_sublattices_outcome l : forall st,
  (forall q, In q l -> pair_ok q) -> NoDup (acts l) ->
  outcome (flip_sublattices u L l) st ->
  NoDup (map fst st) /\ incl (map fst st) (acts l) /\
  (forall s c, In (s, c) st -> nth_error o s <> Some c /\
     exists q, In q l /\ In s (sl_active (fst q)) /\ In c (sl_encoding (fst q))) /\
  forall o', (forall s c, In (s, c) st -> nth_error o' s = Some c) ->
             (forall s, In s (acts l) -> ~ In s (map fst st) -> nth_error o' s = nth_error o s) ->
             forall q, In q l -> pair_moves o' q.
Proof.
  induction l as [|[sl dims] l IH]; intros st Hok Hn H; simpl in H.
  - apply outcome_ret in H. subst. split; [constructor|]. split; [intros s []|]. split; [intros s c []|intros o' _ _ q []].
  - apply outcome_bind in H as (a & Ha & H). apply outcome_bind in H as (b & Hb & H).
    apply outcome_ret in H. subst st. simpl in Hn.
    apply (@flip_sublattice_outcome (sl, dims)) in Ha as (Na & Ia & Ca & Da & Ma); [|apply Hok; left; auto].
    simpl in Ia, Ca, Ma.
    apply IH in Hb as (Nb & Ib & Cb & Mb); [|intros; apply Hok; right; auto|eapply NoDup_app_remove_l; eauto].
    assert (Hd : forall s, In s (sl_active sl) -> ~ In s (acts l)).
    { intros s Hs. eapply NoDup_app_disj; eauto. }
    split; [|split; [|split]].
    + rewrite map_app. apply NoDup_app_intro; auto. intros s Hs Hs'. eapply Hd; eauto.
    + rewrite map_app. simpl. intros s Hs. apply in_app_or in Hs as [Hs|Hs]; apply in_or_app; auto.
    + intros s c Hsc. apply in_app_or in Hsc as [Hsc|Hsc].
      * split; [apply Da; auto|]. exists (sl, dims). split; [left; auto|]. split; [|eapply Ca; eauto].
        apply Ia. apply (in_map fst) in Hsc. auto.
      * apply Cb in Hsc as (H1 & q & H2 & H3). split; auto. exists q. split; auto. right; auto.
    + intros o' Hset Hkeep q [<-|Hq].
      * apply Ma; [intros; apply Hset, in_or_app; auto|].
        intros s Hs Hs'. apply Hkeep; [simpl; apply in_or_app; auto|].
        rewrite map_app. intros Hs2. apply in_app_or in Hs2 as [|Hs2]; auto. apply Ib in Hs2. eapply Hd; eauto.
      * apply Mb; auto; [intros; apply Hset, in_or_app; auto|].
        intros s Hs Hs'. apply Hkeep; [simpl; apply in_or_app; auto|].
        rewrite map_app. intros Hs2. apply in_app_or in Hs2 as [Hs2|]; auto. apply Ia in Hs2. eapply Hd; eauto.
Qed.

Definition pair_prob (q : sublattice * list nat) : Qc :=
  match flip_items u L (snd q) (sl_encoding (fst q)) with Some items => local_prob items | None => 0%Qc end.
Fixpoint pairs_prob (l : list (sublattice * list nat)) : Qc :=
  match l with [] => 1%Qc | q :: l' => (pair_prob q * pairs_prob l')%Qc end.

Lemma from_factor_one items : (forall i, In i items -> it_z i = 0%Z) -> from_factor items = 1%Qc /\ to_factor items = 1%Qc.
Proof.
  induction items as [|[[z c] l] items IH]; intros H; auto. simpl.
  assert (z = 0%Z) by (apply (H (z, c, l)); left; auto). subst. simpl.
  apply IH. intros; apply H; right; auto.
Qed.

Lemma flip_sublattice_prob q o' : pair_ok q -> allowed (sl_active (fst q)) (sl_encoding (fst q)) o' ->
  pair_moves o' q ->
  prob (flip_sublattice u L (fst q) (snd q)) (realises (sl_active (fst q)) o o') = pair_prob q.
Proof.
  intros Ok Hv Hm. destruct (po_items Ok) as (items & Hi & Io). unfold pair_prob. rewrite Hi.
  destruct (is_active (fst q)) eqn:Ha.
  - rewrite (flip_sublattice_local Ha Hi).
    apply (local_prob_eq (po_act Ok) (po_codes Ok) (po_val Ok) Io (po_sum Ok) Hv Hm).
  - unfold flip_sublattice. rewrite Ha. simpl. rewrite prob_ret. pose proof (active_dec Ha) as E.
    rewrite E. unfold realises. simpl.
    assert (Hz : forall i, In i items -> it_z i = 0%Z).
    { intros i Hin. assert (Hz : In (it_z i) (us_at u (snd q))) by (rewrite <- (io_z Io); apply in_map; auto).
      unfold us_at in Hz. apply in_map_iff in Hz as (d & <- & Hd). apply (po_zero Ok E Hd). }
    destruct (from_factor_one Hz) as [E1 E2].
    unfold local_prob. rewrite E1, E2.
    assert (E3 : plus_total items = 0).
    { unfold plus_total. clear - Hz. induction items as [|i items IH]; auto. simpl.
      rewrite Hz by (left; auto). simpl. apply IH. intros; apply Hz; right; auto. }
    rewrite E3. apply Qc_is_canon. reflexivity.
Qed.

Lemma flip_sublattices_prob l o' :
  (forall q, In q l -> pair_ok q) -> NoDup (acts l) ->
  (forall q, In q l -> allowed (sl_active (fst q)) (sl_encoding (fst q)) o') ->
  (forall q, In q l -> pair_moves o' q) ->
  prob (flip_sublattices u L l) (realises (acts l) o o') = pairs_prob l.
Proof.
  induction l as [|[sl dims] l IH]; intros Hok Hn Hv Hm.
  - simpl. rewrite prob_ret. auto.
  - simpl in Hn. simpl acts. simpl flip_sublattices. simpl pairs_prob.
    rewrite (@prob_pair _ _ _ _ _ _ _ (realises (sl_active sl) o o') (realises (acts l) o o')).
    + rewrite IH; [| intros; apply Hok; right; auto | eapply NoDup_app_remove_l; eauto
        | intros; apply Hv; right; auto | intros; apply Hm; right; auto].
      f_equal. apply (@flip_sublattice_prob (sl, dims)); [apply Hok|apply (Hv (sl, dims))|apply (Hm (sl, dims))]; left; auto.
    + intros a b Ha Hb. apply realises_app.
      * apply (@flip_sublattice_outcome (sl, dims)) in Ha; [|apply Hok; left; auto]. tauto.
      * apply flip_sublattices_outcome in Hb; [tauto|intros; apply Hok; right; auto|eapply NoDup_app_remove_l; eauto].
      * intros s Hs. eapply NoDup_app_disj; eauto.
Qed.

Lemma flip_sublattices_safe l :
  (forall q, In q l -> pair_ok q) ->
  (forall q items i, In q l -> flip_items u L (snd q) (sl_encoding (fst q)) = Some items -> In i items ->
     Z.to_nat (- it_z i) <= length (it_l i)) ->
  never_raises (flip_sublattices u L l).
Proof.
  induction l as [|[sl dims] l IH]; intros Hok Hle; simpl; [apply never_raises_ret|].
  apply never_raises_bind.
  - assert (Ok : pair_ok (sl, dims)) by (apply Hok; left; auto).
    destruct (po_items Ok) as (items & Hi & Io). unfold flip_sublattice.
    destruct (is_active sl) eqn:Ha; simpl; [|apply never_raises_ret]. simpl in Hi.
    rewrite Hi. apply never_raises_bind; [apply never_raises_ret|].
    intros it Hit. apply outcome_ret in Hit. subst.
    apply (local_safe (po_act Ok) (po_codes Ok) Io (po_sum Ok)).
    intros i Hin. apply (Hle (sl, dims) items); auto. left; auto.
  - intros a _. apply never_raises_bind; [|intros; apply never_raises_ret].
    apply IH; [intros; apply Hok; right; auto|]. intros q items i Hq. apply Hle. right; auto.
Qed.
End All.

(** A step over distinct sites leads to [o'] exactly if it realises it on the active
    sites and the rest agrees. *)
Lemma apply_step_other st : forall o s, ~ In s (map fst st) -> nth_error (apply_step o st) s = nth_error o s.
Proof.
  unfold apply_step. induction st as [|[s' c] st IH]; intros o s H; simpl in *; auto.
  rewrite IH by tauto. apply nth_error_upd_neq. intros ->. tauto.
Qed.

Lemma apply_step_at st : forall o s c, NoDup (map fst st) -> In (s, c) st -> s < length o ->
  nth_error (apply_step o st) s = Some c.
Proof.
  unfold apply_step. induction st as [|[s' c'] st IH]; intros o s c Hn H Hs; simpl in *; [tauto|].
  inversion Hn; subst. destruct H as [E|H].
  - injection E as -> ->. fold (apply_step (upd o s c) st). rewrite apply_step_other by auto.
    apply nth_error_upd_eq; auto.
  - apply IH; auto. rewrite length_upd; auto.
Qed.

Lemma realises_iff a o o' st :
  NoDup (map fst st) -> incl (map fst st) a -> (forall s, In s a -> s < length o) ->
  length o' = length o -> (forall s, ~ In s a -> nth_error o' s = nth_error o s) ->
  occu_eqb (apply_step o st) o' = realises a o o' st.
Proof.
  intros Hn Hi Ha Hl Hoff. apply eq_true_iff_eq. unfold realises.
  rewrite andb_true_iff, !forallb_forall.
  assert (R : occu_eqb (apply_step o st) o' = true <-> apply_step o st = o')
    by (destruct (occu_eqb_spec (apply_step o st) o'); split; intros; congruence).
  rewrite R. split.
  - intros <-. split.
    + intros [s c] Hf. apply carries_eq. simpl. apply apply_step_at; auto.
      apply Ha, Hi. apply (in_map fst) in Hf; auto.
    + intros s Hs. destruct (memb_reflect s (map fst st)); auto. simpl. apply carries_eq.
      rewrite apply_step_other by auto. apply nth_error_nth'. auto.
  - intros [H1 H2]. apply list_ext; [rewrite apply_step_length; auto|]. intros s.
    destruct (in_dec Nat.eq_dec s (map fst st)) as [Hs|Hs].
    + apply in_map_iff in Hs as ([s' c] & <- & Hf). simpl in *.
      rewrite (@apply_step_at st o s' c); auto.
      * symmetry. apply carries_eq. apply (H1 _ Hf).
      * apply Ha, Hi. apply (in_map fst) in Hf; auto.
    + rewrite apply_step_other by auto. destruct (in_dec Nat.eq_dec s a) as [Hs'|Hs'].
      * specialize (H2 s Hs'). apply orb_true_iff in H2 as [H2|H2]; [apply memb_In in H2; tauto|].
        apply carries_eq in H2. rewrite H2. apply nth_error_nth'. auto.
      * symmetry; auto.
Qed.

(** ** Reversal *)
Lemma site_moves_count act codes us o o' p c z :
  site_moves act codes us o o' -> nth_error codes p = Some c -> nth_error us p = Some z ->
  (Z.of_nat (length (filter (carries o' c) act)) = Z.of_nat (length (filter (carries o c) act)) + z)%Z.
Proof.
  intros Hm Hc Hz. destruct (Hm _ _ _ Hc Hz) as [H1 H2].
  change (length (filter (carries o' c) act)) with (countb (carries o' c) act).
  change (length (filter (carries o c) act)) with (countb (carries o c) act).
  assert (E : countb (carries o c) act + countb (fun s => carries o' c s && negb (carries o c s)) act =
              countb (carries o' c) act + countb (fun s => carries o c s && negb (carries o' c s)) act).
  { clear. induction act as [|s act IH]; auto. rewrite !countb_cons.
    destruct (carries o c s), (carries o' c s); simpl; lia. }
  lia.
Qed.

Lemma site_moves_sym act codes us o o' :
  site_moves act codes us o o' -> site_moves act codes (vopp us) o' o.
Proof.
  intros Hm p c z Hc Hz. unfold vopp in Hz. apply nth_error_map_inv in Hz as (z' & Hz & ->).
  destruct (Hm _ _ _ Hc Hz). rewrite Z.opp_involutive. auto.
Qed.

Fixpoint sfact (items : list (Z * nat * list nat)) : Qc :=
  match items with [] => 1%Qc | i :: r => (qfact (length (it_l i)) * sfact r)%Qc end.

Definition reverse_item (i j : Z * nat * list nat) : Prop :=
  it_z j = (- it_z i)%Z /\ (Z.of_nat (length (it_l j)) = Z.of_nat (length (it_l i)) + it_z i)%Z.

Lemma factors_reverse items items' : Forall2 reverse_item items items' ->
  (from_factor items' * to_factor items' * sfact items' = from_factor items * to_factor items * sfact items)%Qc
  /\ minus_total items = plus_total items' /\ plus_total items = minus_total items'.
Proof.
  induction 1 as [|[[z c] l] [[z' c'] l'] items items' [H1 H2] _ (IH & IH2 & IH3)]; simpl; auto.
  unfold it_z, it_l in H1, H2; simpl in H1, H2. subst z'.
  split; [|unfold minus_total, plus_total in *; simpl; change (it_z (z, c, l)) with z; change (it_z ((- z)%Z, c', l')) with (- z)%Z; rewrite Z.opp_involutive; lia].
  unfold it_l; simpl.
  assert (Hab : forall a b c d e f x y, (a * b * c = d * e * f)%Qc -> (x = y)%Qc ->
     (x * (a * b * c) = y * (d * e * f))%Qc) by (intros; subst; rewrite H; auto).
  assert (N1 := @qfact_nz (length l)). assert (N2 := @qfact_nz (length l')).
  destruct (Z.ltb_spec z 0) as [Hz|Hz]; destruct (Z.ltb_spec 0 z) as [Hz'|Hz']; try lia;
    destruct (Z.ltb_spec (- z) 0) as [Hy|Hy]; destruct (Z.ltb_spec 0 (- z)) as [Hy'|Hy']; try lia.
  - replace (length l - Z.to_nat (- z)) with (length l') by lia.
    transitivity (qfact (Z.to_nat (- z)) * qfact (length l') * (from_factor items' * to_factor items' * sfact items'))%Qc; [ring|].
    rewrite IH. field. auto.
  - rewrite Z.opp_involutive. replace (length l' - Z.to_nat z) with (length l) by lia.
    transitivity (qfact (Z.to_nat z) * qfact (length l) * (from_factor items' * to_factor items' * sfact items'))%Qc.
    + field. auto.
    + rewrite IH. ring.
  - replace (length l') with (length l) by lia.
    transitivity (qfact (length l) * (from_factor items' * to_factor items' * sfact items'))%Qc; [ring|].
    rewrite IH. ring.
Qed.

Lemma local_reverse act codes us o o' items items' :
  NoDup codes -> zsum us = 0%Z ->
  items_ok act codes us o items -> items_ok act codes (vopp us) o' items' ->
  site_moves act codes us o o' ->
  (local_prob items' * sfact items' = local_prob items * sfact items)%Qc.
Proof.
  intros Nc Hz Io Io' Hm.
  assert (HF : Forall2 reverse_item items items').
  { assert (Hlen : length items = length items').
    { rewrite <- (map_length it_c items), <- (map_length it_c items'), (io_c Io), (io_c Io'). auto. }
    assert (HP : forall p i j, nth_error items p = Some i -> nth_error items' p = Some j -> reverse_item i j).
    { intros p i j Hi Hj.
      assert (Ci : nth_error codes p = Some (it_c i)) by (rewrite <- (io_c Io); apply map_nth_error; auto).
      assert (Cj : nth_error codes p = Some (it_c j)) by (rewrite <- (io_c Io'); apply map_nth_error; auto).
      assert (Zi : nth_error us p = Some (it_z i)) by (rewrite <- (io_z Io); apply map_nth_error; auto).
      assert (Zj : nth_error (vopp us) p = Some (it_z j)) by (rewrite <- (io_z Io'); apply map_nth_error; auto).
      split.
      - unfold vopp in Zj. apply nth_error_map_inv in Zj as (z & Zj & ->). congruence.
      - rewrite (Permutation_length (io_l Io (nth_error_In _ _ Hi))).
        rewrite (Permutation_length (io_l Io' (nth_error_In _ _ Hj))).
        replace (it_c j) with (it_c i) by congruence. eapply site_moves_count; eauto. }
    clear - Hlen HP. revert items' Hlen HP.
    induction items as [|i items IH]; intros [|j items'] Hlen HP; simpl in Hlen; try discriminate; constructor.
    - apply (HP 0); auto.
    - apply IH; [lia|]. intros p. apply (HP (S p)). }
  destruct (factors_reverse HF) as (E & E2 & E3).
  unfold local_prob. rewrite <- E2, (minus_plus Io Hz).
  assert (N := @qfact_nz (plus_total items)).
  transitivity (from_factor items' * to_factor items' * sfact items' / qfact (plus_total items))%Qc; [field; auto|].
  rewrite E. field. auto.
Qed.
