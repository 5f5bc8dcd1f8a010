(** Proofs about subspaces. *)
From Verif Require Import LibProofs EvaluatorProofs SubspaceSpec.
From Coq Require Import Lia.
Set Implicit Arguments.
Unset Strict Implicit.
Open Scope nat_scope.

(** ** Assigning ids *)
Lemma assign_list_app c a b : assign_list c (a ++ b) =
  (fst (assign_list c a) ++ fst (assign_list (snd (assign_list c a)) b), snd (assign_list (snd (assign_list c a)) b)).
Proof.
  revert c. induction a as [|o a IH]; intros c; cbn [app assign_list].
  - cbn [fst snd app]. destruct (assign_list c b); auto.
  - destruct (assign_ids c o) as [o' c']. specialize (IH c'). rewrite IH.
    destruct (assign_list c' a) as [r c'']. cbn [fst snd app]. auto.
Qed.
Lemma assign_items_orbits c items : orbits_of (fst (assign_items c items)) = fst (assign_list c (orbits_of items)) /\
  snd (assign_items c items) = snd (assign_list c (orbits_of items)).
Proof.
  revert c. induction items as [|[k os] items IH]; intros c; simpl; auto.
  unfold orbits_of in *. simpl. rewrite assign_list_app. destruct (assign_list c os) as [os' c'] eqn:E. cbn [fst snd].
  destruct (IH c') as [H1 H2]. destruct (assign_items c' items) as [r c'']. simpl in *. rewrite H1, H2. auto.
Qed.
Definition core (o : sorbit) := (s_key o, s_mult o, s_basis o, s_combos o).
Lemma core_fields o o' : core o = core o' -> s_key o = s_key o' /\ s_mult o = s_mult o' /\ s_basis o = s_basis o' /\ s_combos o = s_combos o' /\ s_len o = s_len o'.
Proof. unfold core, s_len. intros [= -> -> -> ->]. auto. Qed.
Lemma assign_list_spec os : forall i b k,
  let r := assign_list (i, b, k) os in
  snd r = (i + length os, b + list_sum (map s_len os), k + list_sum (map s_mult os)) /\
  map core (fst r) = map core os /\ map s_id (fst r) = seq i (length os) /\
  forall n o, nth_error (fst r) n = Some o -> s_bit o = b + list_sum (map s_len (firstn n os)).
Proof.
  induction os as [|o os IH]; intros i b k; cbn zeta; simpl.
  - rewrite !Nat.add_0_r. repeat split; auto. intros [|n] o; discriminate.
  - destruct (assign_list (S i, b + s_len o, k + s_mult o) os) as [r c] eqn:E. specialize (IH (S i) (b + s_len o) (k + s_mult o)).
    rewrite E in IH. cbn zeta in IH. cbn [fst snd] in *. destruct IH as (H1 & H2 & H3 & H4). repeat split.
    + rewrite H1. f_equal; [f_equal|]; lia.
    + simpl. rewrite H2. auto.
    + simpl. rewrite H3. auto.
    + intros [|n] o'; simpl; [intros [= <-]; simpl; lia|]. intros Hn. rewrite (H4 _ _ Hn). lia.
Qed.
Lemma map_core_len os os' : map core os = map core os' -> map s_len os = map s_len os' /\ map s_mult os = map s_mult os' /\ length os = length os' /\
  forall n, map s_len (firstn n os) = map s_len (firstn n os').
Proof.
  revert os'. induction os as [|o os IH]; intros [|o' os'] H; try discriminate; [repeat split; intros n; rewrite !firstn_nil; auto|].
  simpl in H. injection H as Hk Hm Hb Hc H. destruct (IH _ H) as (A & B & C & D).
  assert (E : s_len o = s_len o') by (unfold s_len; congruence).
  repeat split; simpl; try congruence. intros [|n]; simpl; auto. rewrite D. congruence.
Qed.
Lemma reset_consistent items cache : items_ok items -> consistent (reset_sub items cache) /\ map core (sub_orbits (reset_sub items cache)) = map core (orbits_of items) /\
  sub_cache (reset_sub items cache) = cache.
Proof.
  intros Hok. unfold reset_sub. destruct (assign_items_orbits (1, 1, 1) items) as [E1 E2].
  destruct (assign_items (1, 1, 1) items) as [items' c]. cbn [fst snd] in *. subst c.
  destruct (assign_list_spec (orbits_of items) 1 1 1) as (H1 & H2 & H3 & H4). rewrite <- E1 in *. unfold sub_orbits.
  rewrite H1. destruct (map_core_len H2) as (L1 & L2 & L3 & L4). split; [|split]; auto.
  constructor; unfold sub_orbits; cbn [sub_items sub_norb sub_ncorr sub_nclus sub_eval fst snd].
  - rewrite H3. f_equal. auto.
  - simpl. congruence.
  - intros n o Hn. rewrite (H4 n o Hn). rewrite L4. auto.
  - congruence.
  - congruence.
  - reflexivity.
  - intros o Ho. assert (Hc : In (core o) (map core (orbits_of items))) by (rewrite <- H2; apply in_map; auto).
    apply in_map_iff in Hc as (o' & Ec & Ho'). apply core_fields in Ec as (_ & _ & _ & <- & _).
    unfold orbits_of in Ho'. apply in_flat_map in Ho' as (kv & Hkv & Ho'). eapply Hok; eauto.
Qed.
Lemma labels_core st st' : map core (sub_orbits st) = map core (sub_orbits st') -> labels st = labels st'.
Proof.
  unfold labels. generalize (sub_orbits st) as a, (sub_orbits st') as b. clear.
  induction a as [|o a IH]; intros [|o' b] H; try discriminate; auto. simpl in *. injection H as Hk Hm Hb Hc H. rewrite (IH _ H). rewrite Hk, Hc. auto.
Qed.

(** ** Removing orbits *)
Lemma orbits_filter_items f items : orbits_of (filter (fun kv => negb (length (snd kv) =? 0)) (map (fun kv => (fst kv, filter f (snd kv))) items)) =
  filter f (orbits_of items).
Proof.
  unfold orbits_of. induction items as [|kv items IH]; simpl; auto. rewrite filter_app, <- IH.
  destruct (Nat.eqb_spec (length (filter f (snd kv))) 0) as [E|E]; simpl; auto.
  apply length_zero_iff_nil in E. rewrite E. auto.
Qed.
Lemma remove_orbits_spec ids st : (forall o, In o (sub_orbits st) -> s_combos o <> []) ->
  match remove_orbits ids st with
  | Some st' => ids <> [] /\ (forall i, In i ids -> 0 < i < sub_norb st) /\ consistent st' /\ sub_cache st' = [] /\
      map core (sub_orbits st') = map core (filter (fun o => negb (existsb (Nat.eqb (s_id o)) ids)) (sub_orbits st))
  | None => ids = [] \/ exists i, In i ids /\ ~ (0 < i < sub_norb st)
  end.
Proof.
  intros Hf. unfold remove_orbits.
  destruct (Nat.eqb_spec (length ids) 0) as [E|E]; [left; apply length_zero_iff_nil; auto|].
  destruct (existsb (Nat.eqb 0) ids) eqn:E0.
  { right. apply existsb_exists in E0 as (x & Hx & Ex). apply Nat.eqb_eq in Ex. subst x. exists 0. split; auto. lia. }
  destruct (existsb (fun i => sub_norb st <=? i) ids) eqn:E1.
  { right. apply existsb_exists in E1 as (x & Hx & Ex). apply Nat.leb_le in Ex. exists x. split; auto. lia. }
  cbn zeta. match goal with |- context [reset_sub ?it []] => assert (Hok : items_ok it); [|destruct (reset_consistent [] Hok) as (H1 & H2 & H3)] end.
  { intros kv o Hkv Ho. apply filter_In in Hkv as [Hkv _]. apply in_map_iff in Hkv as (kv' & <- & Hkv'). simpl in Ho. apply filter_In in Ho as [Ho _].
    apply Hf. unfold sub_orbits, orbits_of. apply in_flat_map. eauto. }
  split; [destruct ids; simpl in *; congruence|]. split.
  { intros i Hi. split.
    - destruct i; [|lia]. exfalso. assert (existsb (Nat.eqb 0) ids = true); [|congruence]. apply existsb_exists. exists 0. auto.
    - destruct (Nat.ltb_spec i (sub_norb st)) as [|Hge]; auto. exfalso.
      assert (existsb (fun i => sub_norb st <=? i) ids = true); [|congruence]. apply existsb_exists. exists i. split; auto. apply Nat.leb_le; auto. }
  split; auto. split; auto. rewrite H2, orbits_filter_items. auto.
Qed.

(** ** Removing functions *)
Lemma drop_at_nil {A} n (l : list A) : drop_at [] n l = l.
Proof. revert n. induction l as [|x l IH]; intros n; simpl; auto. rewrite IH. auto. Qed.
Lemma drop_at_app {A} ids n (a b : list A) : drop_at ids n (a ++ b) = drop_at ids n a ++ drop_at ids (n + length a) b.
Proof.
  revert n. induction a as [|x a IH]; intros n; simpl; [rewrite Nat.add_0_r; auto|].
  rewrite IH. replace (S n + length a) with (n + S (length a)) by lia. destruct (existsb _ ids); auto.
Qed.
Lemma drop_at_map {A B} (f : A -> B) ids n l : drop_at ids n (map f l) = map f (drop_at ids n l).
Proof. revert n. induction l as [|x l IH]; intros n; simpl; auto. destruct (existsb _ ids); simpl; rewrite IH; auto. Qed.
Lemma drop_at_without {A} ids (l : list A) n : drop_at ids n l = map snd (filter (fun p => negb (existsb (Nat.eqb (fst p)) ids)) (combine (seq n (length l)) l)).
Proof. revert n. induction l as [|x l IH]; intros n; simpl; auto. destruct (existsb _ ids); simpl; rewrite IH; auto. Qed.
Lemma existsb_in_iff n ids : existsb (Nat.eqb n) ids = true <-> In n ids.
Proof.
  rewrite existsb_exists. split; [intros (x & H & E); apply Nat.eqb_eq in E; subst; auto|]. intros H; exists n. split; auto. apply Nat.eqb_refl.
Qed.
Lemma drop_at_shift {A} ids ids' a b (l : list A) : (forall n, n < length l -> existsb (Nat.eqb (a + n)) ids = existsb (Nat.eqb (b + n)) ids') ->
  drop_at ids a l = drop_at ids' b l.
Proof.
  revert a b. induction l as [|x l IH]; intros a b H; simpl; auto. pose proof (H 0) as H0. rewrite !Nat.add_0_r in H0. rewrite H0 by (simpl; lia).
  rewrite (IH (S a) (S b)); auto. intros n Hn. specialize (H (S n)). rewrite !Nat.add_succ_r in H. apply H. simpl. lia.
Qed.
Lemma drop_corr_in ids o : drop_at (corr_in ids o) 0 (s_combos o) = drop_at ids (s_bit o) (s_combos o).
Proof.
  apply drop_at_shift. intros n Hn. apply eq_true_iff_eq. rewrite !existsb_in_iff. unfold corr_in. rewrite in_map_iff. split.
  - intros (x & E & Hx). apply filter_In in Hx as [Hx Hb]. apply andb_true_iff in Hb as [Hb1 Hb2]. apply Nat.leb_le in Hb1.
    replace (s_bit o + n) with x by lia. auto.
  - intros Hx. exists (s_bit o + n). split; [lia|]. apply filter_In. split; auto. apply andb_true_iff. unfold s_len.
    split; [apply Nat.leb_le; lia|apply Nat.ltb_lt; lia].
Qed.
Lemma strip_orbit_eq ids o : s_combos o <> [] ->
  strip_orbit ids o = Some (with_combos o (drop_at ids (s_bit o) (s_combos o)), length (drop_at ids (s_bit o) (s_combos o)) =? 0).
Proof.
  intros Hne. unfold strip_orbit. rewrite <- drop_corr_in. destruct (corr_in ids o) as [|i inds] eqn:E.
  - rewrite drop_at_nil. destruct (Nat.eqb_spec (length (s_combos o)) 0) as [E0|]; [apply length_zero_iff_nil in E0; congruence|].
    destruct o; auto.
  - unfold remove_combos. rewrite <- E. destruct (existsb (fun i0 => s_len o <=? i0) (corr_in ids o)) eqn:Ex; auto.
    apply existsb_exists in Ex as (x & Hx & Ex). apply Nat.leb_le in Ex. unfold corr_in in Hx. apply in_map_iff in Hx as (y & <- & Hy).
    apply filter_In in Hy as [_ Hb]. apply andb_true_iff in Hb as [Hb1 Hb2]. apply Nat.leb_le in Hb1. apply Nat.ltb_lt in Hb2. lia.
Qed.
Definition stripped ids (o : sorbit) : sorbit * bool := (with_combos o (drop_at ids (s_bit o) (s_combos o)), length (drop_at ids (s_bit o) (s_combos o)) =? 0).
Lemma strip_items_eq ids items : items_ok items -> strip_items ids items = Some (map (fun kv => (fst kv, map (stripped ids) (snd kv))) items).
Proof.
  intros H. unfold strip_items. apply opt_map_map. intros kv Hkv.
  rewrite opt_map_map with (g := stripped ids); auto. intros o Ho. apply strip_orbit_eq. eapply H; eauto.
Qed.
Lemma orbits_of_map (f : sorbit -> sorbit) items : orbits_of (map (fun kv => (fst kv, map f (snd kv))) items) = map f (orbits_of items).
Proof. unfold orbits_of. induction items as [|kv items IH]; simpl; auto. rewrite map_app, IH. auto. Qed.
Lemma flat_map_flat {A B C} (f : B -> list C) (g : A -> list B) l : flat_map (fun x => flat_map f (g x)) l = flat_map f (flat_map g l).
Proof. induction l as [|x l IH]; simpl; auto. rewrite flat_map_app, IH. auto. Qed.
Lemma items_orbits items : items_ok items <-> forall o, In o (orbits_of items) -> s_combos o <> [].
Proof.
  unfold items_ok, orbits_of. split.
  - intros H o Ho. apply in_flat_map in Ho as (kv & Hkv & Ho). eauto.
  - intros H kv o Hkv Ho. apply H. apply in_flat_map. eauto.
Qed.
(** Labels of the stripped orbits, whose bit ids are cumulative. *)
Lemma strip_labels ids os b : (forall n o, nth_error os n = Some o -> s_bit o = b + list_sum (map s_len (firstn n os))) ->
  flat_map (fun o => map (fun c => (s_key o, c)) (s_combos (fst (stripped ids o)))) os =
  drop_at ids b (flat_map (fun o => map (fun c => (s_key o, c)) (s_combos o)) os).
Proof.
  revert b. induction os as [|o os IH]; intros b H; cbn [flat_map]; auto. rewrite drop_at_app, map_length, drop_at_map.
  rewrite (IH (b + s_len o)).
  - unfold stripped. cbn [fst with_combos s_combos]. rewrite (H 0 o eq_refl). simpl. rewrite Nat.add_0_r. auto.
  - intros n o' Hn. rewrite (H (S n) o' Hn). simpl. lia.
Qed.
Lemma remove_corr_spec ids st : consistent st ->
  exists st', remove_corr ids st = Some st' /\ consistent st' /\ labels st' = without ids (labels st) /\
   (map core (sub_orbits st') = map core (map (fun o => fst (stripped ids o)) (filter (fun o => negb (snd (stripped ids o))) (sub_orbits st)))) /\
   (sub_cache st' = [] \/ sub_cache st' = sub_cache st /\ map core (sub_orbits st') = map core (map (fun o => fst (stripped ids o)) (sub_orbits st))).
Proof.
  intros HC. unfold remove_corr.
  assert (Hok : items_ok (sub_items st)) by (apply items_orbits; apply (c_funs HC)).
  rewrite (strip_items_eq ids Hok). cbn [option_bind]. rewrite map_map. cbn [fst snd].
  assert (Hit : orbits_of (map (fun x => (fst x, map fst (map (stripped ids) (snd x)))) (sub_items st)) = map (fun o => fst (stripped ids o)) (sub_orbits st)).
  { unfold sub_orbits. rewrite <- orbits_of_map. f_equal. apply map_ext. intros kv. rewrite map_map. auto. }
  assert (Hem : flat_map (fun kv => map (fun p : sorbit * bool => s_id (fst p)) (filter (fun p => snd p) (snd kv))) (map (fun kv => (fst kv, map (stripped ids) (snd kv))) (sub_items st)) =
    map s_id (filter (fun o => snd (stripped ids o)) (sub_orbits st))).
  { unfold sub_orbits, orbits_of. clear. induction (sub_items st) as [|kv items IH]; simpl; auto. rewrite filter_app, map_app.
    rewrite IH. f_equal. clear. induction (snd kv) as [|o os IH]; simpl; auto.
    destruct (length (drop_at ids (s_bit o) (s_combos o)) =? 0); simpl; rewrite IH; auto.
    }
  rewrite Hem.
  assert (Hlab : forall st', map core (sub_orbits st') = map core (map (fun o => fst (stripped ids o)) (filter (fun o => negb (snd (stripped ids o))) (sub_orbits st))) ->
    labels st' = without ids (labels st)).
  { intros st' Hc. unfold without. rewrite <- drop_at_without. unfold labels at 2. rewrite <- (strip_labels ids (c_bits HC)).
    rewrite (@labels_core st' (mkSub [(0, map (fun o => fst (stripped ids o)) (filter (fun o => negb (snd (stripped ids o))) (sub_orbits st)))] 0 0 0 ([], 0, 0) [])).
    - unfold labels, sub_orbits at 1, orbits_of. simpl. rewrite app_nil_r. clear. induction (sub_orbits st) as [|o os IH]; simpl; auto.
      destruct (Nat.eqb_spec (length (drop_at ids (s_bit o) (s_combos o))) 0) as [E|E]; simpl; rewrite IH; auto.
      apply length_zero_iff_nil in E. rewrite E. auto.
    - rewrite Hc. unfold sub_orbits at 2, orbits_of. simpl. rewrite app_nil_r. auto. }
  destruct (map s_id (filter (fun o => snd (stripped ids o)) (sub_orbits st))) as [|e es] eqn:Ee.
  - assert (Hno : forall o, In o (sub_orbits st) -> snd (stripped ids o) = false).
    { intros o Ho. destruct (snd (stripped ids o)) eqn:E; auto. exfalso.
      assert (Hin : In (s_id o) (map s_id (filter (fun o => snd (stripped ids o)) (sub_orbits st)))) by (apply in_map, filter_In; auto).
      rewrite Ee in Hin. destruct Hin. }
    assert (Hall : filter (fun o => negb (snd (stripped ids o))) (sub_orbits st) = sub_orbits st).
    { clear - Hno. induction (sub_orbits st) as [|o os IH]; simpl; auto. specialize (Hno o (or_introl eq_refl)) as H1. cbn [snd stripped] in H1. rewrite H1. simpl. f_equal. apply IH. intros; apply Hno; simpl; auto. }
    eexists. split; [reflexivity|]. match goal with |- context [reset_sub ?it ?c] => assert (Hok' : items_ok it); [|destruct (reset_consistent c Hok') as (H1 & H2 & H3)] end.
    { apply items_orbits. rewrite Hit. intros o Ho. apply in_map_iff in Ho as (o' & <- & Ho'). specialize (Hno o' Ho'). simpl in *.
      intros E. rewrite E in Hno. discriminate. }
    split; auto. rewrite Hit in H2. split; [apply Hlab; rewrite Hall; auto|]. rewrite Hall. split; auto.
  - set (st1 := mkSub _ _ _ _ _ _).
    assert (Ho1 : sub_orbits st1 = map (fun o => fst (stripped ids o)) (sub_orbits st)) by exact Hit.
    assert (Hempty : forall o, In o (sub_orbits st1) -> s_combos o <> [] \/ In (s_id o) (e :: es)).
    { intros o Ho. rewrite Ho1 in Ho. apply in_map_iff in Ho as (o' & <- & Ho'). cbn [stripped fst s_combos s_id with_combos].
      destruct (drop_at ids (s_bit o') (s_combos o')) as [|x l] eqn:E; [right|left; congruence].
      rewrite <- Ee. apply in_map_iff. exists o'. split; auto. apply filter_In. split; auto. cbn [stripped snd]. rewrite E. auto. }
    assert (Hnd : NoDup (map s_id (sub_orbits st))) by (rewrite (c_ids HC); apply seq_NoDup).
    assert (Hfil : filter (fun o => negb (existsb (Nat.eqb (s_id o)) (e :: es))) (sub_orbits st1) =
                   map (fun o => fst (stripped ids o)) (filter (fun o => negb (snd (stripped ids o))) (sub_orbits st))).
    { rewrite Ho1. rewrite <- Ee. clear - Hnd.
      assert (Hmem : forall o, In o (sub_orbits st) -> existsb (Nat.eqb (s_id o)) (map s_id (filter (fun o => snd (stripped ids o)) (sub_orbits st))) = snd (stripped ids o)).
      { intros o Ho. apply eq_true_iff_eq. rewrite existsb_in_iff, in_map_iff. split.
        - intros (o' & E & Ho'). apply filter_In in Ho' as [Ho' Hs]. assert (o' = o); [|subst; auto].
          clear - Hnd E Ho Ho'. induction (sub_orbits st) as [|x l IH]; simpl in *; [tauto|]. inversion Hnd as [|? ? Hx Hl]; subst.
          destruct Ho as [<-|Ho], Ho' as [<-|Ho']; auto.
          + exfalso. apply Hx. rewrite <- E. apply in_map; auto.
          + exfalso. apply Hx. rewrite E. apply in_map; auto.
        - intros Hs. exists o. split; auto. apply filter_In; auto. }
      revert Hmem. generalize (map s_id (filter (fun o => snd (stripped ids o)) (sub_orbits st))) as es. clear. intros es.
      induction (sub_orbits st) as [|o os IH]; intros Hmem; auto. cbn [map filter]. rewrite IH by (intros; apply Hmem; simpl; auto).
      pose proof (Hmem o (or_introl eq_refl)) as H0. change (s_id (fst (stripped ids o))) with (s_id o). rewrite H0.
      destruct (snd (stripped ids o)); simpl; auto. }
    (* the orbits that stay have functions *)
    unfold remove_orbits. replace (length (e :: es) =? 0) with false by auto.
    assert (Hids : forall i, In i (e :: es) -> 0 < i < sub_norb st).
    { rewrite <- Ee. intros i Hi. apply in_map_iff in Hi as (o & <- & Ho). apply filter_In in Ho as [Ho _].
      assert (Hin : In (s_id o) (map s_id (sub_orbits st))) by (apply in_map; auto). rewrite (c_ids HC) in Hin. apply in_seq in Hin. rewrite (c_norb HC). lia. }
    destruct (existsb (Nat.eqb 0) (e :: es)) eqn:X0.
    { exfalso. apply existsb_in_iff in X0. specialize (Hids _ X0). lia. }
    destruct (existsb (fun i => sub_norb st1 <=? i) (e :: es)) eqn:X1.
    { exfalso. apply existsb_exists in X1 as (i & Hi & Hle). apply Nat.leb_le in Hle. specialize (Hids _ Hi). cbn [st1 sub_norb] in Hle. lia. }
    cbn zeta. eexists. split; [reflexivity|].
    match goal with |- context [reset_sub ?it []] => assert (Hor : orbits_of it = map (fun o => fst (stripped ids o)) (filter (fun o => negb (snd (stripped ids o))) (sub_orbits st)));
      [|assert (Hok' : items_ok it); [|destruct (reset_consistent [] Hok') as (H1 & H2 & H3)]] end.
    { rewrite orbits_filter_items. exact Hfil. }
    { apply items_orbits. rewrite Hor. intros o Ho. apply in_map_iff in Ho as (o' & <- & Ho'). apply filter_In in Ho' as [_ Hb]. cbn [stripped snd fst with_combos s_combos] in *.
      intros E. rewrite E in Hb. discriminate. }
    rewrite Hor in H2. split; auto.
Qed.
Lemma change_bases_consistent f st : consistent st -> consistent (change_bases f st) /\
  map (fun o => (s_key o, s_mult o, s_combos o, s_id o, s_bit o)) (sub_orbits (change_bases f st)) = map (fun o => (s_key o, s_mult o, s_combos o, s_id o, s_bit o)) (sub_orbits st).
Proof.
  intros HC. assert (Ho : sub_orbits (change_bases f st) = map (fun o => with_basis o (f o)) (sub_orbits st)).
  { unfold sub_orbits, change_bases. cbn [sub_items]. apply (orbits_of_map (fun o => with_basis o (f o))). }
  split; [|rewrite Ho, map_map; apply map_ext; auto].
  assert (Hl : forall os, map s_len (map (fun o => with_basis o (f o)) os) = map s_len os) by (intros; rewrite map_map; apply map_ext; auto).
  constructor; rewrite ?Ho; cbn [change_bases sub_norb sub_ncorr sub_nclus sub_eval].
  - rewrite map_map, map_length. cbn [with_basis s_id]. apply (c_ids HC).
  - rewrite map_length. apply (c_norb HC).
  - intros n o Hn. rewrite nth_error_map in Hn. destruct (nth_error (sub_orbits st) n) as [o'|] eqn:E; [|discriminate]. injection Hn as <-.
    rewrite firstn_map, Hl. cbn [with_basis s_bit]. apply (c_bits HC); auto.
  - rewrite Hl. apply (c_ncorr HC).
  - rewrite map_map. cbn [with_basis s_mult]. apply (c_nclus HC).
  - rewrite <- Ho. reflexivity.
  - intros o Hin. apply in_map_iff in Hin as (o' & <- & Ho'). apply (c_funs HC _ Ho').
Qed.
Lemma run_op_consistent gen st x : consistent st -> consistent (run_op gen st x).
Proof.
  intros HC. destruct x as [ids|ids|f|m]; cbn [run_op].
  - pose proof (@remove_orbits_spec ids st (c_funs HC)) as H. destruct (remove_orbits ids st); auto. apply H.
  - destruct (remove_corr_spec ids HC) as (st' & -> & H & _). auto.
  - apply change_bases_consistent; auto.
  - unfold orbit_indices. destruct (find _ _) as [kv|]; auto. cbn [snd]. destruct HC. constructor; auto.
Qed.
Lemma reachable_consistent gen st : reachable gen st -> consistent st.
Proof.
  intros (items & ops & Hok & ->). assert (H : consistent (new_sub items)) by (apply (reset_consistent [] Hok)).
  revert H. generalize (new_sub items). induction ops as [|x ops IH]; intros s H; simpl; auto. apply IH. apply run_op_consistent; auto.
Qed.
