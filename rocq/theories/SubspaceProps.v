(** Properties C33, C71 and C72. *)
From Verif Require Import LibProofs SubspaceSpec SubspaceProofs.
From Coq Require Import Lia.
Set Implicit Arguments.
Unset Strict Implicit.
Open Scope nat_scope.

(** ** C33: ids under removals *)
Theorem C33_ids gen st : reachable gen st -> consistent st.
Proof. apply reachable_consistent. Qed.

Lemma bit_ranges os b j : (forall n o, nth_error os n = Some o -> s_bit o = b + list_sum (map s_len (firstn n os))) ->
  b <= j < b + list_sum (map s_len os) ->
  exists n o, nth_error os n = Some o /\ s_bit o <= j < s_bit o + s_len o.
Proof.
  revert b. induction os as [|o os IH]; intros b H Hj; simpl in Hj; [lia|].
  pose proof (H 0 o eq_refl) as H0. simpl in H0. destruct (Nat.ltb_spec j (b + s_len o)).
  - exists 0, o. split; auto. lia.
  - destruct (IH (b + s_len o)) as (n & o' & Hn & Hj').
    + intros n o' Hn. rewrite (H (S n) o' Hn). simpl. lia.
    + lia.
    + exists (S n), o'. auto.
Qed.
Lemma list_sum_firstn_le os n o : nth_error os n = Some o -> forall m, n < m -> list_sum (map s_len (firstn n os)) + s_len o <= list_sum (map s_len (firstn m os)).
Proof.
  revert n. induction os as [|x os IH]; intros [|n] H [|m] Hm; simpl in *; try discriminate; try lia.
  - injection H as ->. lia.
  - specialize (IH n H m). lia.
Qed.
Lemma nth_error_repeat_lt {A} (x : A) n i : i < n -> nth_error (repeat x n) i = Some x.
Proof. revert i. induction n as [|n IH]; intros [|i] H; simpl; auto; try lia. apply IH. lia. Qed.
Lemma fids_nth os b j n o : (forall n o, nth_error os n = Some o -> s_bit o = b + list_sum (map s_len (firstn n os))) ->
  nth_error os n = Some o -> s_bit o <= j < s_bit o + s_len o ->
  nth_error (flat_map (fun o => repeat (s_id o) (s_len o)) os) (j - b) = Some (s_id o).
Proof.
  revert b n. induction os as [|x os IH]; intros b n H Hn Hj; [destruct n; discriminate|]. simpl.
  destruct n as [|n].
  - injection Hn as ->. pose proof (H 0 o eq_refl) as H0. simpl in H0.
    rewrite nth_error_app1 by (rewrite repeat_length; lia). apply nth_error_repeat_lt. lia.
  - pose proof (H (S n) o Hn) as H0. simpl in H0. rewrite nth_error_app2 by (rewrite repeat_length; lia). rewrite repeat_length.
    replace (j - b - s_len x) with (j - (b + s_len x)) by lia. apply (IH (b + s_len x) n); auto.
    intros m o' Hm. rewrite (H (S m) o' Hm). simpl. lia.
Qed.
(** Every function other than the constant one belongs to exactly one orbit, which [function_orbit_ids] names. *)
Theorem C33_owner gen st j : reachable gen st -> 0 < j < sub_ncorr st ->
  exists o, owner st j o /\ (forall o', owner st j o' -> o' = o) /\ nth_error (function_orbit_ids (sub_orbits st)) j = Some (s_id o).
Proof.
  intros HR Hj. apply reachable_consistent in HR. pose proof (c_bits HR) as Hb. rewrite (c_ncorr HR) in Hj.
  destruct (@bit_ranges (sub_orbits st) 1 j Hb) as (n & o & Hn & Ho); [lia|].
  exists o. split; [split; auto; eapply nth_error_In; eauto|]. split.
  - intros o' [Hin' Ho']. apply In_nth_error in Hin' as (n' & Hn').
    destruct (Nat.lt_trichotomy n n') as [Hlt|[->|Hlt]]; [exfalso|congruence|exfalso].
    + pose proof (@list_sum_firstn_le _ _ _ Hn _ Hlt). rewrite (Hb _ _ Hn) in Ho. rewrite (Hb _ _ Hn') in Ho'. lia.
    + pose proof (@list_sum_firstn_le _ _ _ Hn' _ Hlt). rewrite (Hb _ _ Hn) in Ho. rewrite (Hb _ _ Hn') in Ho'. lia.
  - unfold function_orbit_ids. destruct j as [|j]; [lia|]. simpl. replace j with (S j - 1) by lia. eapply fids_nth; eauto.
Qed.
(** Removing functions never fails and removes exactly the named functions; the others keep their order. *)
Theorem C33_remove_functions gen st ids : reachable gen st ->
  exists st', remove_corr ids st = Some st' /\ labels st' = without ids (labels st).
Proof. intros HR. apply reachable_consistent in HR. destruct (remove_corr_spec ids HR) as (st' & E & _ & H & _). eauto. Qed.
(** Removing orbits succeeds exactly for existing non-empty ids and leaves the other orbits in order with their functions. *)
Lemma filter_without {A} (key : A -> nat) ids l b : map key l = seq b (length l) ->
  filter (fun x => negb (existsb (Nat.eqb (key x)) ids)) l = map snd (filter (fun p => negb (existsb (Nat.eqb (fst p)) ids)) (combine (seq b (length l)) l)).
Proof.
  revert b. induction l as [|x l IH]; intros b H; simpl; auto. simpl in H. injection H as H0 H. rewrite H0. rewrite (IH _ H).
  destruct (existsb (Nat.eqb b) ids); auto.
Qed.
Theorem C33_remove_orbits gen st ids : reachable gen st ->
  (exists st', remove_orbits ids st = Some st') <-> (ids <> [] /\ forall i, In i ids -> 1 <= i <= length (sub_orbits st)).
Proof.
  intros HR. apply reachable_consistent in HR. pose proof (@remove_orbits_spec ids st (c_funs HR)) as H. rewrite (c_norb HR) in H.
  destruct (remove_orbits ids st) as [st'|]; split.
  - intros _. destruct H as (H1 & H2 & _). split; auto. intros i Hi. specialize (H2 i Hi). lia.
  - eauto.
  - intros (st' & E). discriminate.
  - intros [Hne Hi]. exfalso. destruct H as [->|(i & Hin & Hn)]; auto. specialize (Hi i Hin). lia.
Qed.
Theorem C33_orbits_left gen st ids st' : reachable gen st -> remove_orbits ids st = Some st' ->
  map (fun o => (s_key o, s_combos o)) (sub_orbits st') = map (fun o => (s_key o, s_combos o)) (without ids (sub_orbits st)).
Proof.
  intros HR E. apply reachable_consistent in HR. pose proof (@remove_orbits_spec ids st (c_funs HR)) as H. rewrite E in H.
  destruct H as (_ & _ & _ & _ & H). rewrite (@filter_without _ s_id ids (sub_orbits st) 1 (c_ids HR)) in H.
  unfold without. revert H. generalize (map snd (filter (fun p : nat * sorbit => negb (existsb (Nat.eqb (fst p)) ids)) (combine (seq 1 (length (sub_orbits st))) (sub_orbits st)))) as r.
  generalize (sub_orbits st') as l. clear. induction l as [|o l IH]; intros [|o' r] H; try discriminate; auto.
  simpl in *. injection H as Hk Hm Hb Hc H. rewrite (IH _ H). congruence.
Qed.

(** ** C71: cached cluster tables *)
Lemma zrow_eqb_eq a b : zrow_eqb a b = true <-> a = b.
Proof.
  revert b. induction a as [|x a IH]; intros [|y b]; simpl; split; intros H; try discriminate; auto.
  - apply andb_true_iff in H as [H1 H2]. apply Z.eqb_eq in H1. apply IH in H2. congruence.
  - injection H as -> ->. rewrite Z.eqb_refl. apply IH. auto.
Qed.
Lemma mat_eqb_eq a b : mat_eqb a b = true <-> a = b.
Proof.
  revert b. induction a as [|x a IH]; intros [|y b]; simpl; split; intros H; try discriminate; auto.
  - apply andb_true_iff in H as [H1 H2]. apply zrow_eqb_eq in H1. apply IH in H2. congruence.
  - injection H as -> ->. rewrite (proj2 (zrow_eqb_eq y y)) by auto. apply IH. auto.
Qed.
Lemma insert_zrow_perm r l : Permutation (insert_zrow r l) (r :: l).
Proof.
  induction l as [|x l IH]; simpl; auto. destruct (zrow_cmp r x); auto. rewrite IH. apply perm_swap.
Qed.
Lemma sort_rows_perm m : Permutation (sort_rows m) m.
Proof. unfold sort_rows. induction m as [|r m IH]; simpl; auto. rewrite insert_zrow_perm. auto. Qed.
Definition cache_ok (gen : scmatrix -> nat -> ctable) (st : subspace) : Prop :=
  forall kv, In kv (sub_cache st) -> exists m, fst kv = sort_rows m /\ snd kv = map (fun o => gen m (s_key o)) (sub_orbits st).
Definition keys (st : subspace) := map s_key (sub_orbits st).
Lemma map_core_keys os os' : map core os = map core os' -> map s_key os = map s_key os'.
Proof.
  revert os'. induction os as [|o os IH]; intros [|o' os'] H; try discriminate; auto. simpl in *. injection H as Hk Hm Hb Hc H. rewrite (IH _ H). congruence.
Qed.
Lemma cache_ok_keys gen st st' : keys st = keys st' -> sub_cache st = sub_cache st' -> cache_ok gen st -> cache_ok gen st'.
Proof.
  unfold keys. intros HK HC H kv Hkv. rewrite <- HC in Hkv. destruct (H kv Hkv) as (m & E1 & E2). exists m. split; auto.
  rewrite E2. rewrite <- (map_map s_key (gen m)), HK, map_map. auto.
Qed.
Lemma run_op_cache gen st x : consistent st -> cache_ok gen st -> cache_ok gen (run_op gen st x).
Proof.
  intros HC H. destruct x as [ids|ids|f|m]; cbn [run_op].
  - pose proof (@remove_orbits_spec ids st (c_funs HC)) as Hs. destruct (remove_orbits ids st); auto. destruct Hs as (_ & _ & _ & Hc & _).
    intros kv Hkv. rewrite Hc in Hkv. destruct Hkv.
  - destruct (remove_corr_spec ids HC) as (st' & -> & _ & _ & _ & [Hc|[Hc Ho]]).
    + intros kv Hkv. rewrite Hc in Hkv. destruct Hkv.
    + eapply cache_ok_keys; [|symmetry; exact Hc|exact H]. unfold keys. rewrite (map_core_keys Ho), map_map. auto.
  - destruct (change_bases_consistent f HC) as [_ Ho]. eapply cache_ok_keys; [| |exact H]; auto. unfold keys.
    revert Ho. generalize (sub_orbits (change_bases f st)), (sub_orbits st). clear. induction l as [|o l IH]; intros [|o' l'] H; try discriminate; auto.
    simpl in *. injection H as Hk _ _ _ _ H. rewrite (IH _ H). congruence.
  - unfold orbit_indices. destruct (find _ _) as [kv|] eqn:E; auto. cbn [snd]. intros kv [<-|Hkv]; [exists m; auto|]. apply H; auto.
Qed.
Lemma reachable_cache gen st : reachable gen st -> cache_ok gen st.
Proof.
  intros (items & ops & Hok & ->).
  assert (H : consistent (new_sub items) /\ cache_ok gen (new_sub items)).
  { destruct (reset_consistent [] Hok) as (H1 & H2 & H3). split; auto. intros kv Hkv. unfold new_sub in Hkv. rewrite H3 in Hkv. destruct Hkv. }
  revert H. generalize (new_sub items). induction ops as [|x ops IH]; intros s [H1 H2]; simpl; auto. apply IH.
  split; [apply run_op_consistent|apply run_op_cache]; auto.
Qed.
(** If the table of an orbit does not depend on the order of the rows of the supercell matrix, then
    after every history the tables returned are those of the current orbits. *)
Theorem C71_tables gen st m : (forall m m' k, Permutation m m' -> gen m k = gen m' k) -> reachable gen st ->
  fst (orbit_indices gen m st) = map (fun o => gen m (s_key o)) (sub_orbits st).
Proof.
  intros Hg HR. pose proof (reachable_cache HR) as HO.
  unfold orbit_indices. destruct (find _ _) as [kv|] eqn:E; auto. apply find_some in E as [Hin Hm]. apply mat_eqb_eq in Hm.
  cbn [fst]. destruct (HO kv Hin) as (m' & E1 & E2). rewrite E2. apply map_ext. intros o. apply Hg.
  rewrite <- (sort_rows_perm m'), <- E1, Hm. apply sort_rows_perm.
Qed.

(** ** C72: serialization *)
Lemma items_roundtrip items : orbits_of (map (fun kv => (fst kv, map (fun q => mkS (fst (fst (fst q))) (snd (fst (fst q))) (snd (fst q)) (snd q) 0 0) (snd kv)))
  (map (fun kv : nat * list sorbit => (fst kv, map (fun o => (s_key o, s_mult o, s_basis o, s_combos o)) (snd kv))) items)) =
  map (fun o => mkS (s_key o) (s_mult o) (s_basis o) (s_combos o) 0 0) (orbits_of items).
Proof.
  rewrite map_map. cbn [fst snd]. rewrite <- orbits_of_map. f_equal. apply map_ext. intros kv. rewrite map_map. auto.
Qed.
Lemma assign_list_core c os os' : map core os = map core os' -> assign_list c os = assign_list c os'.
Proof.
  revert c os'. induction os as [|o os IH]; intros c [|o' os'] H; try discriminate; auto. simpl in *. destruct c as [[i b] k]. injection H as Hk Hm Hb Hc H.
  unfold assign_ids, s_len. rewrite Hk, Hm, Hb, Hc. rewrite (IH _ _ H). auto.
Qed.
Lemma assign_list_fix os i b k : map s_id os = seq i (length os) -> (forall n o, nth_error os n = Some o -> s_bit o = b + list_sum (map s_len (firstn n os))) ->
  fst (assign_list (i, b, k) os) = os.
Proof.
  revert i b k. induction os as [|o os IH]; intros i b k Hi Hb; simpl; auto. simpl in Hi. injection Hi as Hi0 Hi.
  specialize (IH (S i) (b + s_len o) (k + s_mult o) Hi). destruct (assign_list (S i, b + s_len o, k + s_mult o) os) as [r c]. simpl in *.
  rewrite IH.
  - pose proof (Hb 0 o eq_refl) as H0. simpl in H0. f_equal. destruct o; simpl in *. f_equal; lia.
  - intros n o' Hn. rewrite (Hb (S n) o' Hn). simpl. lia.
Qed.
Lemma sub_shape_eq (items items' : list (nat * list sorbit)) : map (fun kv => (fst kv, length (snd kv))) items = map (fun kv => (fst kv, length (snd kv))) items' ->
  orbits_of items = orbits_of items' -> items = items'.
Proof.
  unfold orbits_of. revert items'. induction items as [|[k os] items IH]; intros [|[k' os'] items'] HS HO; cbn [map fst snd] in HS; try discriminate; auto.
  injection HS as <- HL HS. cbn [flat_map snd] in HO.
  assert (X : os = os' /\ flat_map snd items = flat_map snd items').
  { revert HL HO. generalize (flat_map snd items), (flat_map snd items'). clear. revert os'. induction os as [|o os IH]; intros [|o' os'] l l' HL HO; try discriminate; auto.
    injection HL as HL. cbn [app] in HO. injection HO as <- HO. destruct (IH os' l l' HL HO). subst. auto. }
  destruct X as [<- HO']. f_equal. auto.
Qed.
Lemma assign_list_len c os : length (fst (assign_list c os)) = length os.
Proof.
  revert c. induction os as [|o os IH]; intros c; simpl; auto. unfold assign_ids. destruct c as [[i b] k]. specialize (IH (S i, b + s_len o, k + s_mult o)).
  destruct (assign_list _ os). simpl in *. congruence.
Qed.
Lemma assign_items_shape c items : map (fun kv => (fst kv, length (snd kv))) (fst (assign_items c items)) = map (fun kv => (fst kv, length (snd kv))) items.
Proof.
  revert c. induction items as [|[k os] items IH]; intros c; simpl; auto. pose proof (assign_list_len c os) as L. destruct (assign_list c os) as [os' c'].
  specialize (IH c'). destruct (assign_items c' items). simpl in *. congruence.
Qed.
Lemma sub_fields (a b : subspace) : sub_items a = sub_items b -> sub_norb a = sub_norb b -> sub_ncorr a = sub_ncorr b -> sub_nclus a = sub_nclus b ->
  sub_eval a = sub_eval b -> sub_cache a = sub_cache b -> a = b.
Proof. destruct a as [a1 a2 a3 a4 a5 a6], b as [b1 b2 b3 b4 b5 b6]. cbn. congruence. Qed.
Lemma reload st : consistent st -> sub_from_dict (sub_as_dict st) = st.
Proof.
  intros HR. unfold sub_from_dict, sub_as_dict. cbn [fst snd].
  match goal with |- reset_sub ?it ?c = _ => assert (Hok : items_ok it); [|destruct (reset_consistent c Hok) as (H1 & H2 & H3)] end.
  { apply items_orbits. rewrite items_roundtrip. intros o Ho. apply in_map_iff in Ho as (o' & <- & Ho'). apply (c_funs HR _ Ho'). }
  match goal with |- reset_sub ?it ?c = _ => assert (Ho : sub_orbits (reset_sub it c) = sub_orbits st) end.
  { rewrite <- (@assign_list_fix (sub_orbits st) 1 1 1 (c_ids HR) (c_bits HR)).
    rewrite <- (@assign_list_fix _ 1 1 1 (c_ids H1) (c_bits H1)). f_equal. apply assign_list_core. rewrite H2, items_roundtrip, map_map. auto. }
  match goal with |- reset_sub ?it ?c = _ => assert (Hi : sub_items (reset_sub it c) = sub_items st) end.
  { apply sub_shape_eq; [|exact Ho]. unfold reset_sub. match goal with |- context [assign_items ?c ?it] => pose proof (assign_items_shape c it) as X; destruct (assign_items c it) end.
    cbn [sub_items fst] in *. rewrite X, !map_map. apply map_ext. intros kv. cbn [fst snd]. rewrite !map_length. auto. }
  pose proof (c_norb H1) as E1. pose proof (c_ncorr H1) as E2. pose proof (c_nclus H1) as E3. pose proof (c_eval H1) as E4.
  rewrite E1, E2 in E4. rewrite Ho in E1, E2, E3, E4. rewrite <- (c_norb HR) in E1, E4. rewrite <- (c_ncorr HR) in E2, E4. rewrite <- (c_nclus HR) in E3.
  rewrite <- (c_eval HR) in E4.
  apply sub_fields; auto.
Qed.
(** Saving and loading a subspace with orbits gives it back: orbits, ids, numbers, evaluator data and cached tables. *)
Theorem C72_subspace gen st : (forall m k, gen m k <> []) -> reachable gen st -> sub_orbits st <> [] -> sub_load (sub_as_dict st) = Some st.
Proof.
  intros Hg HR Hne. unfold sub_load.
  assert (X : forallb readable (snd (sub_as_dict st)) = true).
  { apply forallb_forall. intros kv Hkv. destruct (reachable_cache HR Hkv) as (m & _ & E). unfold readable. rewrite E. destruct (sub_orbits st) as [|o os]; [congruence|].
    cbn [map]. pose proof (Hg m (s_key o)) as Ho. destruct (gen m (s_key o)); [congruence|auto]. }
  rewrite X. f_equal. apply reload. eapply reachable_consistent; eauto.
Qed.
(** So does one whose tables were not asked for, even without orbits. *)
Theorem C72_fresh gen st : reachable gen st -> sub_cache st = [] -> sub_load (sub_as_dict st) = Some st.
Proof.
  intros HR E. unfold sub_load. cbn [sub_as_dict snd]. rewrite E. cbn [forallb]. f_equal. apply reload. eapply reachable_consistent; eauto.
Qed.
(** One that is left without orbits, and was asked for a table since, cannot be loaded. *)
Theorem C72_empty_refuted gen st m : reachable gen st -> sub_orbits st = [] -> sub_load (sub_as_dict (snd (orbit_indices gen m st))) = None.
Proof.
  intros HR E. pose proof (reachable_cache HR) as HC. unfold orbit_indices. destruct (find _ _) as [kv|] eqn:Ef; cbn [snd].
  - apply find_some in Ef as [Hin _]. destruct (HC kv Hin) as (m' & _ & E2). rewrite E in E2. unfold sub_load. cbn [sub_as_dict snd].
    assert (X : forallb readable (sub_cache st) = false); [|rewrite X; auto]. apply not_true_iff_false. rewrite forallb_forall. intros X. specialize (X kv Hin).
    unfold readable in X. rewrite E2 in X. discriminate.
  - unfold sub_load. cbn [sub_as_dict snd sub_cache forallb readable]. rewrite E. auto.
Qed.
(** A Potts subspace that keeps the last decorations is loaded as it was. *)
Theorem C72_potts_partial gen st : (forall m k, gen m k <> []) -> reachable gen st -> sub_orbits st <> [] ->
  exists st', potts_from_dict (sub_as_dict st) false = Some st' /\ sub_orbits st' = sub_orbits st /\ sub_norb st' = sub_norb st /\
    sub_ncorr st' = sub_ncorr st /\ sub_eval st' = sub_eval st.
Proof.
  intros Hg HR Hne. pose proof (C72_subspace Hg HR Hne) as HLo. apply reachable_consistent in HR.
  unfold potts_from_dict. rewrite HLo. cbn [option_bind].
  destruct (assign_items_orbits (1, 1, 1) (sub_items st)) as [E1 E2]. destruct (assign_items (1, 1, 1) (sub_items st)) as [items c]. cbn [fst snd] in *.
  eexists. split; [reflexivity|]. fold (sub_orbits st) in E1, E2.
  destruct (assign_list_spec (sub_orbits st) 1 1 1) as (K1 & _). rewrite K1 in E2. subst c. cbn [sub_norb sub_ncorr sub_eval fst snd].
  rewrite (assign_list_fix 1 (c_ids HR) (c_bits HR)) in E1.
  rewrite (c_norb HR), (c_ncorr HR). repeat split; auto.
Qed.
Lemma drop_last_len {A} (l : list A) : l <> [] -> S (length (drop_at [length l - 1] 0 l)) = length l.
Proof.
  assert (H : forall n m, m = n + length l - 1 -> l <> [] -> S (length (drop_at [m] n l)) = length l).
  { induction l as [|x l IH]; intros n m E Hl; [congruence|]. cbn [drop_at existsb]. rewrite orb_false_r.
    destruct l as [|y l].
    - simpl in E. destruct (Nat.eqb_spec n m); [reflexivity|lia].
    - destruct (Nat.eqb_spec n m) as [Em|Em]; [simpl in E; lia|]. cbn [length]. f_equal. apply IH; [simpl in *; lia|congruence]. }
  intros Hl. apply H; auto.
Qed.
Lemma opt_map_none {A B} (f : A -> option B) l : opt_map f l = None -> exists x, In x l /\ f x = None.
Proof.
  induction l as [|a l IH]; simpl; [discriminate|]. destruct (f a) eqn:E; [|eauto]. destruct (opt_map f l); [discriminate|].
  intros _. destruct IH as (x & Hx & Ex); eauto.
Qed.
Lemma drop_items_orbits items items' : opt_map (fun kv : nat * list sorbit => let? os := opt_map drop_last_combo (snd kv) in Some (fst kv, os)) items = Some items' ->
  opt_map drop_last_combo (orbits_of items) = Some (orbits_of items').
Proof.
  unfold orbits_of. revert items'. induction items as [|kv items IH]; intros items' E; cbn [opt_map] in E; [injection E as <-; auto|].
  destruct (opt_map drop_last_combo (snd kv)) as [os|] eqn:Eo; [|discriminate]. cbn [option_bind] in E.
  destruct (opt_map _ items) as [r|]; [|discriminate]. injection E as <-. specialize (IH r eq_refl). cbn [flat_map snd].
  revert os Eo. induction (snd kv) as [|o os' IHo]; intros os Eo; cbn [opt_map app] in *; [injection Eo as <-; auto|].
  destruct (drop_last_combo o) as [o'|]; [|discriminate]. destruct (opt_map drop_last_combo os') as [rs|]; [|discriminate].
  injection Eo as <-. rewrite (IHo rs eq_refl). auto.
Qed.
(** One that was made without the last decorations loses another function of every orbit, or cannot be loaded at all when
    an orbit has only one function; what is loaded has an evaluator for other functions. *)
Theorem C72_potts_refuted gen st : (forall m k, gen m k <> []) -> reachable gen st -> sub_orbits st <> [] ->
  match potts_from_dict (sub_as_dict st) true with
  | None => exists o, In o (sub_orbits st) /\ s_len o = 1
  | Some st' => sub_ncorr st' + length (sub_orbits st) = sub_ncorr st /\ snd (sub_eval st') <> sub_ncorr st'
  end.
Proof.
  intros Hg HR Hne. pose proof (C72_subspace Hg HR Hne) as HLo. apply reachable_consistent in HR.
  unfold potts_from_dict. rewrite HLo. cbn [option_bind].
  assert (Hdl : forall o, s_combos o <> [] -> drop_last_combo o = None -> s_len o = 1).
  { intros o Ho. pose proof (@drop_last_len _ (s_combos o) Ho) as HL. fold (s_len o) in HL. unfold drop_last_combo, remove_combos. cbn [existsb]. rewrite orb_false_r.
    destruct (Nat.leb_spec (s_len o) (s_len o - 1)) as [L|L].
    - unfold s_len in *. destruct (s_combos o); simpl in *; [congruence|lia].
    - cbn [option_bind fst snd]. destruct (Nat.eqb_spec (length (drop_at [s_len o - 1] 0 (s_combos o))) 0); [lia|discriminate]. }
  destruct (opt_map _ (sub_items st)) as [items|] eqn:E; cbn [option_bind].
  - apply drop_items_orbits in E. fold (sub_orbits st) in E.
    destruct (assign_items_orbits (1, 1, 1) items) as [E1 E2]. destruct (assign_items (1, 1, 1) items) as [items' c]. cbn [fst snd] in *.
    destruct (assign_list_spec (orbits_of items) 1 1 1) as (K1 & _). rewrite K1 in E2. subst c. cbn [sub_norb sub_ncorr sub_eval fst snd].
    assert (HS : list_sum (map s_len (orbits_of items)) + length (sub_orbits st) = list_sum (map s_len (sub_orbits st))).
    { pose proof (c_funs HR) as Hf. revert E Hf. generalize (sub_orbits st), (orbits_of items). clear. induction l as [|o l IH]; intros r E Hf; cbn [opt_map] in E; [injection E as <-; auto|].
      destruct (drop_last_combo o) as [o'|] eqn:Eo; [|discriminate]. destruct (opt_map drop_last_combo l) as [r'|]; [|discriminate]. injection E as <-.
      specialize (IH r' eq_refl (fun x Hx => Hf x (or_intror Hx))). simpl.
      assert (S (s_len o') = s_len o); [|lia]. unfold drop_last_combo, remove_combos in Eo. destruct (existsb _ _); [discriminate|].
      cbn [option_bind fst snd] in Eo. destruct (_ =? 0); [discriminate|]. injection Eo as <-. unfold s_len at 1. cbn [with_combos s_combos].
      apply drop_last_len. apply Hf. simpl; auto. }
    rewrite (c_ncorr HR). rewrite (c_eval HR). cbn [snd]. rewrite (c_ncorr HR). split; [lia|].
    destruct (sub_orbits st); [congruence|]. simpl in *. lia.
  - apply opt_map_none in E as (kv & Hkv & E). destruct (opt_map drop_last_combo (snd kv)) as [os|] eqn:Eo; [discriminate|].
    apply opt_map_none in Eo as (o & Ho & Eo). exists o. assert (Hin : In o (sub_orbits st)).
    { unfold sub_orbits, orbits_of. apply in_flat_map. eauto. }
    split; auto. apply Hdl; auto. apply (c_funs HR); auto.
Qed.

(** ** Concrete case *)
(** A ternary point orbit and a ternary pair orbit with three functions. *)
Definition ex_items : list (nat * list sorbit) :=
  [(1, [mkS 10 1 [] [[[0]]; [[1]]] 0 0]); (2, [mkS 20 3 [] [[[0; 0]]; [[0; 1]; [1; 0]]; [[1; 1]]] 0 0; mkS 21 6 [] [[[0; 0]]; [[1; 1]]] 0 0])].
Definition ex_gen (m : scmatrix) (k : nat) : ctable := [[k]].
Example ex_items_ok : items_ok ex_items.
Proof. intros kv o [<-|[<-|[]]]; simpl; intuition (subst; simpl in *; try discriminate). Qed.
Example ex_history :
  let st := fold_left (run_op ex_gen) [OIndices [[1%Z]]; ORemoveCorr [1; 4; 6; 7]; OIndices [[1%Z]]; ORemoveOrbits [1]] (new_sub ex_items) in
  reachable ex_gen st /\ labels st = [(20, [[0; 0]]); (20, [[1; 1]])] /\ map (fun o => (s_id o, s_bit o)) (sub_orbits st) = [(1, 1)] /\ sub_ncorr st = 3.
Proof. cbn zeta. split; [exists ex_items, [OIndices [[1%Z]]; ORemoveCorr [1; 4; 6; 7]; OIndices [[1%Z]]; ORemoveOrbits [1]]; split; [exact ex_items_ok|reflexivity]|]. repeat split. Qed.
Example C33_owner_case : reachable ex_gen (new_sub ex_items) /\ sub_ncorr (new_sub ex_items) = 8.
Proof. split; [exists ex_items, []; split; [exact ex_items_ok|reflexivity]|reflexivity]. Qed.
Example C71_case : fst (orbit_indices ex_gen [[1%Z]] (run_op ex_gen (run_op ex_gen (new_sub ex_items) (OIndices [[1%Z]])) (ORemoveOrbits [1; 3]))) = [[[20]]].
Proof. reflexivity. Qed.
Example C72_case : exists st', potts_from_dict (sub_as_dict (new_sub ex_items)) true = Some st' /\ sub_ncorr st' = 5 /\ snd (sub_eval st') = 8.
Proof. eexists. split; [reflexivity|]. split; reflexivity. Qed.
Example C72_case_empty :
  let st := fold_left (run_op ex_gen) [OIndices [[1%Z]]; ORemoveOrbits [1; 2; 3]; OIndices [[1%Z]]] (new_sub ex_items) in
  reachable ex_gen st /\ sub_load (sub_as_dict st) = None /\ sub_load (sub_as_dict (run_op ex_gen (new_sub ex_items) (OIndices [[1%Z]]))) <> None.
Proof.
  cbn zeta. split; [exists ex_items, [OIndices [[1%Z]]; ORemoveOrbits [1; 2; 3]; OIndices [[1%Z]]]; split; [exact ex_items_ok|reflexivity]|].
  split; [reflexivity|discriminate].
Qed.
Example C72_case_raises : potts_from_dict (sub_as_dict (new_sub [(1, [mkS 10 1 [] [[[0]]] 0 0])])) true = None.
Proof. reflexivity. Qed.

Print Assumptions C33_ids.
Print Assumptions C33_owner.
Print Assumptions C33_remove_functions.
Print Assumptions C33_remove_orbits.
Print Assumptions C33_orbits_left.
Print Assumptions C71_tables.
Print Assumptions C72_subspace.
Print Assumptions C72_fresh.
Print Assumptions C72_empty_refuted.
Print Assumptions C72_potts_partial.
Print Assumptions C72_potts_refuted.
