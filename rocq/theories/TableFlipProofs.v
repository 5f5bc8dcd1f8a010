From Verif Require Export UsherProofs ArrangeProofs TableFlipSpec.
Set Implicit Arguments.
Unset Strict Implicit.
Open Scope nat_scope.

(** ** Draws in sequence *)
Lemma prob_pair {A B C} (m : prog A) (m' : prog B) (f : A -> B -> C) (E : C -> bool) EA EB :
  (forall a b, outcome m a -> outcome m' b -> E (f a b) = EA a && EB b) ->
  prob (draw a <- m; draw b <- m'; pret (f a b)) E = (prob m EA * prob m' EB)%Qc.
Proof.
  intros H. rewrite prob_bind.
  assert (K : forall a, outcome m a ->
    prob (draw b <- m'; pret (f a b)) E = ((if EA a then 1 else 0) * prob m' EB)%Qc).
  { intros a Ha. rewrite prob_bind. unfold prob. rewrite <- qsum_map_scale.
    apply qsum_map_ext. intros [w [b|]] Hin; simpl; [|ring].
    rewrite H; [|auto|exists w; auto]. destruct (EA a), (EB b); simpl; ring. }
  unfold prob at 2. rewrite <- qsum_map_scale_r. apply qsum_map_ext.
  intros [w [a|]] Hin; simpl; [|ring]. rewrite K by (exists w; auto). destruct (EA a); ring.
Qed.

(** A continuation whose probability is constant on an event and zero off it. *)
Lemma prob_bind_split {A B} (m : prog A) (f : A -> prog B) (E : B -> bool) (EA : A -> bool) K :
  (forall a, outcome m a -> EA a = true -> prob (f a) E = K) ->
  (forall a, outcome m a -> EA a = false -> prob (f a) E = 0%Qc) ->
  prob (pbind m f) E = (prob m EA * K)%Qc.
Proof.
  intros H1 H2. rewrite prob_bind. unfold prob at 2. rewrite <- qsum_map_scale_r.
  apply qsum_map_ext. intros [w [a|]] Hin; simpl; [|ring].
  destruct (EA a) eqn:E'; [rewrite H1|rewrite H2]; auto; try (exists w; auto); ring.
Qed.

(** ** One sublattice *)
Fixpoint from_factor (items : list (Z * nat * list nat)) : Qc :=
  match items with
  | [] => 1%Qc
  | (z, _, l) :: r =>
      if (z <? 0)%Z then
        (qfact (Z.to_nat (- z)) * qfact (length l - Z.to_nat (- z)) / qfact (length l) * from_factor r)%Qc
      else from_factor r
  end.
Fixpoint to_factor (items : list (Z * nat * list nat)) : Qc :=
  match items with
  | [] => 1%Qc
  | (z, _, _) :: r => if (0 <? z)%Z then (qfact (Z.to_nat z) * to_factor r)%Qc else to_factor r
  end.
Definition it_z (i : Z * nat * list nat) := fst (fst i).
Definition it_c (i : Z * nat * list nat) := snd (fst i).
Definition it_l (i : Z * nat * list nat) := snd i.
Definition plus_total (items : list (Z * nat * list nat)) : nat :=
  list_sum (map (fun i => Z.to_nat (it_z i)) items).
Definition minus_total (items : list (Z * nat * list nat)) : nat :=
  list_sum (map (fun i => Z.to_nat (- it_z i)) items).

Lemma pick_from_prob items (Q : nat -> bool) :
  (forall i, In i items -> (it_z i < 0)%Z -> countb Q (it_l i) = Z.to_nat (- it_z i)) ->
  prob (pick_from items) (forallb Q) = from_factor items.
Proof.
  induction items as [|[[z c] l] items IH]; intros H; simpl.
  - rewrite prob_ret. auto.
  - destruct (Z.ltb_spec z 0) as [Hz|Hz].
    + rewrite (@prob_pair _ _ _ _ _ _ _ (forallb Q) (forallb Q)).
      * rewrite IH by (intros; apply H; simpl; auto). rewrite choose_k_all; auto.
        apply (H (z, c, l)); [left; auto|auto].
      * intros a b _ _. apply forallb_app.
    + apply IH. intros; apply H; simpl; auto.
Qed.

Lemma choose_k_outcome {A} k (l : list A) a : outcome (choose_k k l) a -> In a (arrangements k l).
Proof. apply outcome_uniform. Qed.

(** The picked sites: distinct, from the lists of species with a negative entry, the
    right number from each. *)
Lemma pick_from_outcome items ids :
  (forall i, In i items -> NoDup (it_l i)) ->
  (forall i j x y s, nth_error items i = Some x -> nth_error items j = Some y ->
      In s (it_l x) -> In s (it_l y) -> i = j) ->
  outcome (pick_from items) ids ->
  NoDup ids /\ length ids = minus_total items /\
  (forall s, In s ids -> exists i, In i items /\ (it_z i < 0)%Z /\ In s (it_l i)) /\
  (forall i, In i items -> countb (fun s => memb s ids) (it_l i) = Z.to_nat (- it_z i)).
Proof.
  revert ids. induction items as [|[[z c] l] items IH]; intros ids Hn Hd H; simpl in H.
  - apply outcome_ret in H. subst. split; [constructor|]. split; [auto|]. split; [simpl; tauto|].
    simpl; tauto.
  - assert (Hd' : forall i j x y s, nth_error items i = Some x -> nth_error items j = Some y ->
      In s (it_l x) -> In s (it_l y) -> i = j).
    { intros i j x y s Hi Hj H1 H2. assert (S i = S j); [|lia]. eapply Hd; eauto. }
    assert (Hn' : forall i, In i items -> NoDup (it_l i)) by (intros; apply Hn; right; auto).
    assert (Hsep : forall i s, In i items -> In s l -> ~ In s (it_l i)).
    { intros i s Hi Hs Hs'. apply In_nth_error in Hi as [k Hk].
      assert (0 = S k); [|lia]. eapply (Hd 0 (S k)); simpl; eauto. }
    destruct (Z.ltb_spec z 0) as [Hz|Hz].
    + apply outcome_bind in H as (a & Ha & H). apply outcome_bind in H as (b & Hb & H).
      apply outcome_ret in H. subst ids. apply choose_k_outcome in Ha.
      assert (Nl : NoDup l) by (apply (Hn (z, c, l)); left; auto).
      apply arrangements_NoDup in Ha as (La & Na & Ia); auto.
      apply IH in Hb as (Nb & Lb & Fb & Cb); auto.
      assert (Hab : forall s, In s a -> ~ In s b).
      { intros s Hs Hs'. apply Fb in Hs' as (i & Hi & _ & Hsi). eapply Hsep; eauto. }
      split; [apply NoDup_app_intro; auto|]. split; [|split].
      * rewrite app_length, La, Lb. unfold minus_total. simpl. auto.
      * intros s Hs. apply in_app_or in Hs as [Hs|Hs].
        -- exists (z, c, l). split; [left; auto|]. split; auto.
        -- apply Fb in Hs as (i & Hi & Hzi & Hsi). exists i. split; [right; auto|auto].
      * intros i [<-|Hi]; unfold it_l, it_z; simpl.
        -- rewrite <- La. apply countb_in_sub; auto.
           intros s Hs. rewrite memb_In, in_app_iff.
           split; [|auto]. intros [Hs'|Hs']; auto. exfalso. apply Fb in Hs' as (i & Hi & _ & Hsi).
           eapply Hsep; eauto.
        -- specialize (Cb _ Hi). unfold it_l, it_z in Cb. rewrite <- Cb. apply countb_ext.
           intros s Hs. apply eq_true_iff_eq. rewrite !memb_In, in_app_iff.
           split; [|auto]. intros [Hs'|Hs']; auto. exfalso. apply (Hsep i s); auto.
    + apply IH in H as (Nb & Lb & Fb & Cb); auto.
      split; auto. split; [|split].
      * rewrite Lb. unfold minus_total. simpl. unfold it_z at 2. simpl. lia.
      * intros s Hs. apply Fb in Hs as (i & Hi & Hzi & Hsi). exists i. split; [right; auto|auto].
      * intros i [<-|Hi]; [|apply Cb; auto]. unfold it_l, it_z; simpl.
        rewrite countb_0; [lia|]. intros s Hs. apply not_true_is_false. rewrite memb_In.
        intros Hs'. apply Fb in Hs' as (i & Hi & _ & Hsi). eapply Hsep; eauto.
Qed.

(** The assignment: every picked site exactly once, each code its number of times. *)
Lemma assign_to_outcome items : forall ids res,
  NoDup ids -> NoDup (map it_c items) ->
  outcome (assign_to items ids) res ->
  Permutation (map fst res) ids /\
  (forall s c, In (s, c) res -> exists i, In i items /\ it_c i = c /\ (0 < it_z i)%Z) /\
  (forall i, In i items -> countb (fun f => snd f =? it_c i) res = Z.to_nat (it_z i)) /\
  length ids = plus_total items.
Proof.
  induction items as [|[[z c] l] items IH]; intros ids res Hn Hc H; simpl in H.
  - destruct (Nat.eqb_spec (length ids) 0) as [E|E]; [|apply outcome_fail in H; tauto].
    apply outcome_ret in H. subst. destruct ids; [|discriminate]. simpl.
    repeat split; auto; simpl; tauto.
  - inversion Hc as [|? ? Hc1 Hc2]; subst. unfold it_c at 1 in Hc1. simpl in Hc1.
    destruct (Z.ltb_spec 0 z) as [Hz|Hz].
    + apply outcome_bind in H as (a & Ha & H). apply outcome_bind in H as (b & Hb & H).
      apply outcome_ret in H. subst res. apply choose_k_outcome in Ha.
      apply arrangements_spec in Ha as (La & r & Pr).
      assert (Nar : NoDup (a ++ r)) by (eapply Permutation_NoDup; [symmetry; eauto|auto]).
      assert (Pf : Permutation (filter (fun s => negb (memb s a)) ids) r).
      { apply NoDup_Permutation.
        - apply NoDup_filter; auto.
        - eapply NoDup_app_remove_l; eauto.
        - intros s. rewrite filter_In, negb_true_iff. split.
          + intros [Hs Hm]. eapply Permutation_in in Hs; [|symmetry; eauto].
            apply in_app_or in Hs as [Hs|Hs]; auto. apply memb_In in Hs. congruence.
          + intros Hs. split; [eapply Permutation_in; eauto; apply in_or_app; auto|].
            apply not_true_is_false. rewrite memb_In. intros Hs'.
            eapply NoDup_app_disj; eauto. }
      apply IH in Hb as (Pb & Fb & Cb & Lb); auto; [|apply NoDup_filter; auto].
      split; [|split; [|split]].
      * rewrite map_app, map_map, map_id, Pb, Pf. auto.
      * intros s c' Hs. apply in_app_or in Hs as [Hs|Hs].
        -- apply in_map_iff in Hs as (s' & E & _). injection E as <- <-.
           exists (z, c, l). repeat split; auto. left; auto.
        -- apply Fb in Hs as (i & Hi & Hci & Hzi). exists i. repeat split; auto. right; auto.
      * assert (Hnoc : forall s c', In (s, c') b -> c' <> c).
        { intros s c' Hs ->. apply Fb in Hs as (i & Hi & Hci & _). apply Hc1.
          rewrite <- Hci. apply (in_map it_c); auto. }
        intros i [<-|Hi]; unfold it_c, it_z; simpl; rewrite countb_app.
        -- rewrite countb_map. simpl. rewrite (@countb_ext _ _ (fun _ => true)).
           2: { intros; apply Nat.eqb_refl. }
           rewrite (@countb_0 _ _ b).
           2: { intros [s' c'] Hs. simpl. apply Nat.eqb_neq. eapply Hnoc; eauto. }
           unfold countb. rewrite filter_true. lia.
        -- specialize (Cb _ Hi). unfold it_c, it_z in Cb. rewrite Cb.
           rewrite countb_map. simpl. rewrite countb_0; auto.
           intros s _. apply Nat.eqb_neq. intros E. apply Hc1. rewrite E. apply (in_map it_c); auto.
      * apply Permutation_length in Pr. rewrite app_length in Pr.
        apply Permutation_length in Pf. unfold plus_total. simpl.
        fold (plus_total items). rewrite <- Lb. unfold it_z. simpl. lia.
    + apply IH in H as (Pb & Fb & Cb & Lb); auto. split; auto. split; [|split].
      * intros s c' Hs. apply Fb in Hs as (i & Hi & Hci & Hzi). exists i. repeat split; auto. right; auto.
      * intros i [<-|Hi]; [|auto]. unfold it_c, it_z; simpl. rewrite countb_0; [lia|].
        intros [s' c'] Hs. simpl. apply Nat.eqb_neq. intros ->.
        apply Fb in Hs as (i & Hi & Hci & _). apply Hc1. rewrite <- Hci. apply (in_map it_c); auto.
      * unfold plus_total. simpl. fold (plus_total items). unfold it_z. simpl. lia.
Qed.

(** Probability that every picked site gets its target code. *)
Definition on_graph (g : nat -> nat) (res : step) : bool := forallb (fun f => g (fst f) =? snd f) res.

Lemma assign_to_prob (g : nat -> nat) items : forall ids,
  NoDup ids -> NoDup (map it_c items) ->
  (forall i, In i items -> countb (fun s => g s =? it_c i) ids = Z.to_nat (it_z i)) ->
  length ids = plus_total items ->
  prob (assign_to items ids) (on_graph g) = (to_factor items / qfact (length ids))%Qc.
Proof.
  induction items as [|[[z c] l] items IH]; intros ids Hn Hc Hg Hl; simpl.
  - unfold plus_total in Hl; simpl in Hl. rewrite Hl. simpl. rewrite prob_ret. apply Qc_is_canon. reflexivity.
  - inversion Hc as [|? ? Hc1 Hc2]; subst. unfold it_c at 1 in Hc1. simpl in Hc1.
    pose proof (Hg (z, c, l) (or_introl eq_refl)) as Hgc. unfold it_c, it_z in Hgc; simpl in Hgc.
    assert (Hl' : length ids = Z.to_nat z + plus_total items) by (unfold plus_total in Hl; simpl in Hl; auto).
    destruct (Z.ltb_spec 0 z) as [Hz|Hz].
    + assert (Hrest : forall a, outcome (choose_k (Z.to_nat z) ids) a -> forallb (fun s => g s =? c) a = true ->
         prob (draw rest <- assign_to items (filter (fun s => negb (memb s a)) ids);
               pret (map (fun s => (s, c)) a ++ rest)) (on_graph g)
         = (to_factor items / qfact (length ids - Z.to_nat z))%Qc).
      { intros a Ha Hga. apply choose_k_outcome in Ha.
        destruct (arrangements_NoDup Hn Ha) as (La & Na & Ia).
        assert (Hset : forall s, In s ids -> memb s a = (g s =? c)).
        { intros s Hs. apply eq_true_iff_eq. rewrite memb_In. split.
          - intros Hs'. rewrite forallb_forall in Hga. auto.
          - intros Hs'. apply (@NoDup_count_incl _ a (filter (fun s => g s =? c) ids)); auto.
            + intros x Hx. apply filter_In. split; auto. rewrite forallb_forall in Hga. auto.
            + unfold countb in Hgc. lia.
            + apply filter_In; auto. }
        assert (Hlen : length (filter (fun s => negb (memb s a)) ids) = length ids - Z.to_nat z).
        { pose proof (countb_negb (fun s => memb s a) ids) as E. rewrite (@countb_ext _ (fun s => memb s a) (fun s => g s =? c)) in E by auto.
          change (length (filter (fun s => negb (memb s a)) ids)) with (countb (fun s => negb (memb s a)) ids). lia. }
        rewrite <- Hlen.
        transitivity (prob (assign_to items (filter (fun s => negb (memb s a)) ids)) (on_graph g)).
        - rewrite (@prob_bind_split _ _ _ _ _ (on_graph g) 1%Qc); [ring| |].
          + intros b _ Hb. rewrite prob_ret. unfold on_graph in *. rewrite forallb_app, Hb.
            rewrite forallb_map. simpl. rewrite Hga. auto.
          + intros b _ Hb. rewrite prob_ret. unfold on_graph in *. rewrite forallb_app, Hb, andb_false_r. auto.
        - apply IH; auto.
          + apply NoDup_filter; auto.
          + intros i Hi. rewrite <- (Hg i) by (right; auto). unfold countb. rewrite <- filter_and.
            f_equal. apply filter_ext_in. intros s Hs. rewrite Hset by auto.
            destruct (Nat.eqb_spec (g s) (it_c i)) as [E|E]; [|rewrite andb_false_r; auto].
            rewrite andb_true_r. apply negb_true_iff, Nat.eqb_neq. intros E'. apply Hc1.
            rewrite <- E', E. apply in_map; auto.
          + rewrite Hlen. lia. }
      etransitivity.
      { apply (prob_bind_split Hrest).
        intros a _ Ha. apply prob_false. intros st Hst. apply outcome_bind in Hst as (b & _ & Hst).
        apply outcome_ret in Hst. subst. unfold on_graph. rewrite forallb_app, forallb_map. simpl.
        rewrite Ha. auto. }
      rewrite choose_k_all by auto.
      assert (N1 := @qfact_nz (length ids)). assert (N2 := @qfact_nz (length ids - Z.to_nat z)).
      field. auto.
    + apply IH; auto; [intros i Hi; apply Hg; right; auto|].
      rewrite Hl'. lia.
Qed.

(** ** Items of a sublattice at an occupancy *)
Record items_ok (act codes : list nat) (us : list Z) (o : list nat)
  (items : list (Z * nat * list nat)) : Prop := {
  io_c : map it_c items = codes;
  io_z : map it_z items = us;
  io_l : forall i, In i items -> Permutation (it_l i) (filter (carries o (it_c i)) act)
}.

Definition allowed (act codes : list nat) (o : list nat) : Prop :=
  forall s, In s act -> exists c, nth_error o s = Some c /\ In c codes.

Lemma carries_eq o c s : carries o c s = true <-> nth_error o s = Some c.
Proof.
  unfold carries. destruct (nth_error o s) as [x|]; [|split; discriminate].
  rewrite Nat.eqb_eq. split; congruence.
Qed.

Section Local.
Variables (act codes : list nat) (us : list Z) (o : list nat) (items : list (Z * nat * list nat)).
Hypothesis Nact : NoDup act.
Hypothesis Ncodes : NoDup codes.
Hypothesis Ho : allowed act codes o.
Hypothesis Io : items_ok act codes us o items.

Lemma items_nodup i : In i items -> NoDup (it_l i).
Proof.
  intros Hi. eapply Permutation_NoDup; [symmetry; apply (io_l Io Hi)|]. apply NoDup_filter; auto.
Qed.

Lemma items_in i s : In i items -> In s (it_l i) <-> In s act /\ nth_error o s = Some (it_c i).
Proof.
  intros Hi. rewrite <- carries_eq, <- filter_In. pose proof (io_l Io Hi) as P.
  split; intros H; [eapply Permutation_in; eauto|eapply Permutation_in; [symmetry; eauto|auto]].
Qed.

Lemma items_inj i j x y : nth_error items i = Some x -> nth_error items j = Some y -> it_c x = it_c y -> i = j.
Proof.
  intros Hi Hj E. assert (N : NoDup (map it_c items)) by (rewrite (io_c Io); auto).
  rewrite NoDup_nth_error in N. apply N.
  - rewrite map_length. eapply nth_error_Some_lt; eauto.
  - rewrite (map_nth_error it_c _ _ Hi), (map_nth_error it_c _ _ Hj). congruence.
Qed.

Lemma items_inj' x y : In x items -> In y items -> it_c x = it_c y -> x = y.
Proof.
  intros Hx Hy E. apply In_nth_error in Hx as [i Hi]. apply In_nth_error in Hy as [j Hj].
  assert (i = j) by (eapply items_inj; eauto). subst. congruence.
Qed.

Lemma items_disj i j x y s : nth_error items i = Some x -> nth_error items j = Some y ->
  In s (it_l x) -> In s (it_l y) -> i = j.
Proof.
  intros Hi Hj Hx Hy. apply items_in in Hx; [|eapply nth_error_In; eauto].
  apply items_in in Hy; [|eapply nth_error_In; eauto].
  eapply items_inj; eauto. destruct Hx, Hy. congruence.
Qed.

Lemma item_of p c z : nth_error codes p = Some c -> nth_error us p = Some z ->
  exists i, In i items /\ it_c i = c /\ it_z i = z.
Proof.
  intros Hc Hz. rewrite <- (io_c Io) in Hc. rewrite <- (io_z Io) in Hz.
  apply nth_error_map_inv in Hc as (i & Hi & ->). apply nth_error_map_inv in Hz as (j & Hj & ->).
  exists i. split; [eapply nth_error_In; eauto|]. split; auto. congruence.
Qed.

Definition local_flip : prog step := draw ids <- pick_from items; assign_to items ids.

Lemma local_outcome st :
  outcome local_flip st ->
  NoDup (map fst st) /\ incl (map fst st) act /\ (forall s c, In (s, c) st -> In c codes) /\
  (forall s c, In (s, c) st -> nth_error o s <> Some c) /\
  forall o', (forall s c, In (s, c) st -> nth_error o' s = Some c) ->
             (forall s, In s act -> ~ In s (map fst st) -> nth_error o' s = nth_error o s) ->
             site_moves act codes us o o'.
Proof.
  unfold local_flip. intros H. apply outcome_bind in H as (ids & Hids & H).
  apply pick_from_outcome in Hids as (Nids & Lids & Fids & Cids);
    [|apply items_nodup|intros; eapply items_disj; eauto].
  assert (Nc : NoDup (map it_c items)) by (rewrite (io_c Io); auto).
  destruct (assign_to_outcome Nids Nc H) as (Pst & Fst & Cst & _).
  assert (Nst : NoDup (map fst st)) by (eapply Permutation_NoDup; [symmetry; eauto|auto]).
  assert (Hin : forall s, In s (map fst st) <-> In s ids).
  { intros s; split; apply Permutation_in; [auto|symmetry; auto]. }
  assert (Hneg : forall s, In s ids -> exists i, In i items /\ (it_z i < 0)%Z /\ In s act /\ nth_error o s = Some (it_c i)).
  { intros s Hs. apply Fids in Hs as (i & Hi & Hz & Hl). apply items_in in Hl as []; auto. eauto. }
  assert (Hdiff : forall s c, In (s, c) st -> nth_error o s <> Some c).
  { intros s c Hsc E. destruct (Fst _ _ Hsc) as (j & Hj & Hjc & Hjz).
    assert (Hs : In s ids) by (apply Hin; apply (in_map fst) in Hsc; auto).
    apply Hneg in Hs as (i & Hi & Hz & _ & Hos).
    assert (i = j) by (apply items_inj'; auto; congruence). subst. lia. }
  split; auto. split; [intros s Hs; apply Hin, Hneg in Hs as (? & ? & ? & ? & ?); auto|].
  split; [|split; auto].
  { intros s c Hsc. apply Fst in Hsc as (i & Hi & <- & _). rewrite <- (io_c Io). apply in_map; auto. }
  intros o' Hset Hkeep p c z Hpc Hpz. destruct (item_of Hpc Hpz) as (i & Hi & Hic & Hiz).
  split.
  - rewrite <- Hiz, <- (Cids _ Hi). rewrite (countb_perm _ (io_l Io Hi)). unfold countb.
    rewrite <- filter_and. f_equal. apply filter_ext_in. intros s Hs. rewrite Hic.
    destruct (carries o c s) eqn:Ec; simpl; auto. apply carries_eq in Ec.
    apply eq_true_iff_eq. rewrite memb_In, negb_true_iff. split.
    + intros Hnc. destruct (in_dec Nat.eq_dec s ids) as [Hs'|Hs']; auto. exfalso.
      rewrite <- not_true_iff_false, carries_eq in Hnc. apply Hnc. rewrite Hkeep; auto. rewrite Hin; auto.
    + intros Hs'. apply not_true_is_false. rewrite carries_eq. intros E.
      rewrite <- Hin in Hs'. apply in_map_iff in Hs' as ([s' c'] & <- & Hsc). simpl in *.
      rewrite (Hset _ _ Hsc) in E. injection E as ->. apply Hdiff in Hsc. auto.
  - rewrite <- Hiz, <- (Cst _ Hi), Hic.
    change (countb (fun f : nat * nat => snd f =? c) st) with (length (filter (fun f : nat * nat => snd f =? c) st)).
    rewrite <- (map_length fst).
    assert (Hin2 : forall s, In s (map fst (filter (fun f : nat * nat => snd f =? c) st)) <-> In (s, c) st).
    { intros s. rewrite in_map_iff. split.
      - intros ([s' c'] & <- & Hf). apply filter_In in Hf as [Hf E]. apply Nat.eqb_eq in E. simpl in *. subst; auto.
      - intros Hsc. exists (s, c). split; auto. apply filter_In; split; auto. apply Nat.eqb_refl. }
    apply countb_in_sub; auto.
    + clear - Nst. induction st as [|f st IH]; simpl in *; [constructor|].
      inversion Nst; subst. destruct (snd f =? c); simpl; auto. constructor; auto.
      intros Hf. apply in_map_iff in Hf as (f' & E & Hf). apply filter_In in Hf as [Hf _].
      apply H1. rewrite <- E. apply in_map; auto.
    + intros s Hs. apply Hin2 in Hs. apply (in_map fst) in Hs. apply Hin, Hneg in Hs as (? & ? & ? & ? & ?); auto.
    + intros s Hs. rewrite Hin2, andb_true_iff, negb_true_iff, <- not_true_iff_false, !carries_eq. split.
      * intros [E1 E2]. destruct (in_dec Nat.eq_dec s (map fst st)) as [Hs'|Hs'].
        -- apply in_map_iff in Hs' as ([s' c'] & <- & Hsc). simpl in *. rewrite (Hset _ _ Hsc) in E1. congruence.
        -- rewrite Hkeep in E1 by auto. tauto.
      * intros Hsc. split; [apply Hset; auto|apply Hdiff; auto].
Qed.

Lemma minus_plus : zsum us = 0%Z -> minus_total items = plus_total items.
Proof.
  rewrite <- (io_z Io). unfold minus_total, plus_total. clear.
  intros H. assert (E : (Z.of_nat (list_sum (map (fun i => Z.to_nat (it_z i)) items)) -
    Z.of_nat (list_sum (map (fun i => Z.to_nat (- it_z i)) items)) = zsum (map it_z items))%Z).
  { clear H. induction items as [|i l IH]; simpl; auto. lia. }
  lia.
Qed.

Lemma arrangements_ne {A} k (l : list A) : k <= length l -> arrangements k l <> [].
Proof.
  intros H E. pose proof (@arrangements_length A k l H) as E'. rewrite E in E'. simpl in E'.
  pose proof (fact_neq_0 (length l)). lia.
Qed.

Lemma pick_from_safe l : (forall i, In i l -> (Z.to_nat (- it_z i) <= length (it_l i))) -> never_raises (pick_from l).
Proof.
  induction l as [|[[z c] ss] l IH]; intros H; simpl; [apply never_raises_ret|].
  assert (H' : forall i, In i l -> Z.to_nat (- it_z i) <= length (it_l i)) by (intros; apply H; right; auto).
  destruct (z <? 0)%Z; auto. apply never_raises_bind.
  - apply never_raises_uniform, arrangements_ne. apply (H (z, c, ss)). left; auto.
  - intros a _. apply never_raises_bind; auto. intros; apply never_raises_ret.
Qed.

Lemma assign_to_safe l : forall ids, NoDup ids -> length ids = plus_total l -> never_raises (assign_to l ids).
Proof.
  induction l as [|[[z c] ss] l IH]; intros ids Hn Hl; simpl.
  - rewrite Hl. simpl. apply never_raises_ret.
  - assert (Hl' : length ids = Z.to_nat z + plus_total l) by (unfold plus_total in Hl; simpl in Hl; auto).
    destruct (Z.ltb_spec 0 z) as [Hz|Hz].
    + apply never_raises_bind; [apply never_raises_uniform, arrangements_ne; lia|].
      intros a Ha. apply choose_k_outcome in Ha. destruct (arrangements_NoDup Hn Ha) as (La & Na & Ia).
      apply never_raises_bind; [|intros; apply never_raises_ret].
      apply IH; [apply NoDup_filter; auto|].
      pose proof (countb_negb (fun s => memb s a) ids) as E.
      rewrite (@countb_in_sub _ (fun s => memb s a) a ids) in E; auto.
      2: { intros; apply memb_In. }
      change (length (filter (fun s => negb (memb s a)) ids)) with (countb (fun s => negb (memb s a)) ids). lia.
    + apply IH; auto. lia.
Qed.

Lemma local_safe : zsum us = 0%Z ->
  (forall i, In i items -> (Z.to_nat (- it_z i) <= length (it_l i))) -> never_raises local_flip.
Proof.
  intros Hz Hle. apply never_raises_bind; [apply pick_from_safe; auto|].
  intros ids Hids. apply pick_from_outcome in Hids as (Nids & Lids & _);
    [|apply items_nodup|intros; eapply items_disj; eauto].
  apply assign_to_safe; auto. rewrite Lids. apply minus_plus; auto.
Qed.

(** Event that a partial step realises [o'] on the sites [act]. *)
Definition realises (sites : list nat) (o o' : list nat) (st : step) : bool :=
  forallb (fun f => carries o' (snd f) (fst f)) st &&
  forallb (fun s => memb s (map fst st) || carries o' (nth s o 0) s) sites.

Definition local_prob : Qc := (from_factor items * (to_factor items / qfact (plus_total items)))%Qc.

Lemma on_graph_carries o' st : (forall f, In f st -> nth_error o' (fst f) <> None) ->
  forallb (fun f => carries o' (snd f) (fst f)) st = on_graph (fun s => nth s o' 0) st.
Proof.
  unfold on_graph. intros H. apply forallb_ext_in. intros [s c] Hf. specialize (H _ Hf). simpl in *.
  unfold carries. destruct (nth_error o' s) as [x|] eqn:E; [|congruence].
  rewrite (nth_error_nth _ _ _ E). auto.
Qed.

Lemma local_prob_eq o' :
  zsum us = 0%Z -> allowed act codes o' -> site_moves act codes us o o' ->
  prob local_flip (realises act o o') = local_prob.
Proof.
  intros Hz Ho' Hm. unfold local_flip.
  set (moved := fun s => negb (carries o' (nth s o 0) s)).
  assert (Hnth : forall s, In s act -> nth_error o s = Some (nth s o 0)).
  { intros s Hs. destruct (Ho Hs) as (c & Hc & _). rewrite Hc. f_equal. symmetry. apply nth_error_nth; auto. }
  assert (Hnth' : forall s, In s act -> nth_error o' s = Some (nth s o' 0)).
  { intros s Hs. destruct (Ho' s Hs) as (c & Hc & _). rewrite Hc. f_equal. symmetry. apply nth_error_nth; auto. }
  assert (Hpz : forall i, In i items -> exists p, nth_error codes p = Some (it_c i) /\ nth_error us p = Some (it_z i)).
  { intros i Hi. apply In_nth_error in Hi as [p Hp]. exists p. rewrite <- (io_c Io), <- (io_z Io).
    split; apply map_nth_error; auto. }
  assert (Hcount : forall i, In i items -> countb moved (it_l i) = Z.to_nat (- it_z i)).
  { intros i Hi. destruct (Hpz _ Hi) as (p & Hpc & Hpz'). destruct (Hm _ _ _ Hpc Hpz') as [H1 _].
    rewrite <- H1, (countb_perm _ (io_l Io Hi)). unfold countb. rewrite <- filter_and. f_equal.
    apply filter_ext_in. intros s Hs. destruct (carries o (it_c i) s) eqn:Ec; simpl; auto.
    apply carries_eq in Ec. unfold moved. rewrite (nth_error_nth _ _ _ Ec). auto. }
  assert (Hmoved : length (filter moved act) = minus_total items).
  { pose proof (@sum_count_codes (nth_error o) codes (filter moved act) Ncodes) as E.
    rewrite <- E.
    - unfold minus_total. rewrite <- (io_c Io). rewrite map_map. f_equal. apply map_ext_in. intros i Hi.
      rewrite <- (Hcount _ Hi), (countb_perm _ (io_l Io Hi)). unfold countb. rewrite <- !filter_and.
      f_equal. apply filter_ext_in. intros s Hs. rewrite andb_comm. auto.
    - intros s Hs. apply filter_In in Hs as [Hs _]. apply Ho; auto. }
  assert (Nc : NoDup (map it_c items)) by (rewrite (io_c Io); auto).
  unfold local_prob. rewrite <- (@pick_from_prob items moved) by auto.
  apply prob_bind_split; swap 1 2.
  - (* a kept site was picked *)
    intros ids Hids Hbad. apply pick_from_outcome in Hids as (Nids & Lids & Fids & Cids);
      [|apply items_nodup|intros; eapply items_disj; eauto].
    apply prob_false. intros st Hst. apply not_true_is_false. intros Hr.
    destruct (assign_to_outcome Nids Nc Hst) as (Pst & _).
    unfold realises in Hr. apply andb_true_iff in Hr as [_ Hr]. rewrite forallb_forall in Hr.
    assert (Hincl : forall s, In s ids -> In s (filter moved act)).
    { apply (@NoDup_count_incl _ (filter moved act) ids).
      - apply NoDup_filter; auto.
      - intros s Hs. apply filter_In in Hs as [Hs Hmv]. specialize (Hr s Hs).
        apply orb_true_iff in Hr as [Hr|Hr].
        + apply memb_In in Hr. eapply Permutation_in; eauto.
        + unfold moved in Hmv. rewrite Hr in Hmv. discriminate.
      - lia. }
    rewrite <- not_true_iff_false in Hbad. apply Hbad. apply forallb_forall. intros s Hs.
    apply Hincl, filter_In in Hs. tauto.
  - intros ids Hids Hall. rewrite forallb_forall in Hall.
    apply pick_from_outcome in Hids as (Nids & Lids & Fids & Cids);
      [|apply items_nodup|intros; eapply items_disj; eauto].
    assert (Iids : incl ids act).
    { intros s Hs. apply Fids in Hs as (i & Hi & _ & Hl). apply items_in in Hl as []; auto. }
    assert (Hids : forall s, In s act -> moved s = true -> In s ids).
    { intros s Hs Hmv. apply (@NoDup_count_incl _ ids (filter moved act)); auto.
      - intros x Hx. apply filter_In; auto.
      - lia.
      - apply filter_In; auto. }
    assert (Lp : length ids = plus_total items) by (rewrite Lids; apply minus_plus; auto).
    rewrite <- Lp. rewrite <- (@assign_to_prob (fun s => nth s o' 0) items ids); auto.
    + apply prob_ext. intros st Hst. destruct (assign_to_outcome Nids Nc Hst) as (Pst & _).
      unfold realises. rewrite on_graph_carries.
      * apply andb_true_r'. apply forallb_forall. intros s Hs. destruct (carries o' (nth s o 0) s) eqn:Ec.
        -- apply orb_true_r.
        -- apply orb_true_iff. left. apply memb_In. eapply Permutation_in; [symmetry; apply Pst|].
           apply Hids; auto. unfold moved. rewrite Ec. auto.
      * intros f Hf. apply (in_map fst) in Hf. rewrite Hnth'; [discriminate|]. apply Iids.
        eapply Permutation_in; eauto.
    + intros i Hi. destruct (Hpz _ Hi) as (p & Hpc & Hpz'). destruct (Hm _ _ _ Hpc Hpz') as [_ H2].
      rewrite <- H2. unfold countb. apply Permutation_length, NoDup_Permutation; try apply NoDup_filter; auto.
      intros s. rewrite !filter_In, andb_true_iff, negb_true_iff, <- not_true_iff_false, !carries_eq, Nat.eqb_eq.
      split.
      * intros [Hs E]. pose proof (Iids _ Hs) as Ha. split; auto. split; [rewrite Hnth' by auto; congruence|].
        intros E'. specialize (Hall s Hs). unfold moved in Hall. rewrite negb_true_iff in Hall.
        rewrite <- not_true_iff_false, carries_eq in Hall. apply Hall. rewrite Hnth' by auto.
        rewrite Hnth in E' by auto. congruence.
      * intros (Ha & E1 & E2). rewrite Hnth' in E1 by auto. split; [|congruence].
        apply Hids; auto. unfold moved. rewrite negb_true_iff, <- not_true_iff_false, carries_eq.
        intros E3. apply E2. rewrite Hnth by auto. rewrite Hnth' in E3 by auto. congruence.
Qed.
End Local.
