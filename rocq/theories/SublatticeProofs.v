(** Proofs about [Sublattice]. *)
From Verif Require Export LibProofs SublatticeSpec.
Set Implicit Arguments.
Open Scope nat_scope.

Lemma memb_In x l : memb x l = true <-> In x l.
Proof.
  unfold memb. rewrite existsb_exists. split.
  - intros (y & Hy & E). apply Nat.eqb_eq in E; subst; auto.
  - intros H; exists x; split; auto. apply Nat.eqb_refl.
Qed.

Lemma memb_reflect x l : reflect (In x l) (memb x l).
Proof.
  destruct (memb x l) eqn:E; constructor.
  - apply memb_In; auto.
  - intros H. apply memb_In in H; congruence.
Qed.

Lemma memb_app x l l' : memb x (l ++ l') = memb x l || memb x l'.
Proof. unfold memb. apply existsb_app. Qed.

(** ** np_unique *)
Lemma insert_unique_In x y l : In y (insert_unique x l) <-> y = x \/ In y l.
Proof.
  induction l as [|z l IH]; simpl; [intuition congruence|].
  destruct (Nat.ltb_spec x z); simpl; [intuition congruence|].
  destruct (Nat.eqb_spec x z); simpl; [subst; intuition congruence|].
  rewrite IH; intuition congruence.
Qed.

Lemma insert_unique_sorted x l : StronglySorted lt l -> StronglySorted lt (insert_unique x l).
Proof.
  induction 1 as [|z l Hs IH Hz]; simpl; [repeat constructor|].
  destruct (Nat.ltb_spec x z).
  - constructor; [constructor; auto|]. constructor; auto.
    rewrite Forall_forall in *. intros y Hy. specialize (Hz y Hy). lia.
  - destruct (Nat.eqb_spec x z); [constructor; auto|].
    constructor; auto. rewrite Forall_forall in *. intros y Hy.
    apply insert_unique_In in Hy. destruct Hy as [->|Hy]; [lia|auto].
Qed.

Lemma np_unique_In y l : In y (np_unique l) <-> In y l.
Proof.
  induction l as [|x l IH]; simpl; [tauto|]. rewrite insert_unique_In, IH. intuition congruence.
Qed.

Lemma np_unique_sorted l : StronglySorted lt (np_unique l).
Proof. induction l; simpl; [constructor|]. apply insert_unique_sorted; auto. Qed.

Lemma sorted_NoDup l : StronglySorted lt l -> NoDup l.
Proof.
  induction 1 as [|x l Hs IH Hx]; constructor; auto.
  intros H. rewrite Forall_forall in Hx. specialize (Hx _ H). lia.
Qed.

Lemma sorted_ext l l' : StronglySorted lt l -> StronglySorted lt l' ->
  (forall x, In x l <-> In x l') -> l = l'.
Proof.
  intros H; revert l'. induction H as [|x l Hs IH Hx]; intros l' H' Hext.
  - destruct l' as [|y l']; auto. exfalso. apply (Hext y). left; auto.
  - destruct H' as [|y l' Hs' Hy].
    + exfalso. apply (Hext x). left; auto.
    + rewrite Forall_forall in Hx, Hy.
      assert (x = y).
      { destruct (proj1 (Hext x) (or_introl eq_refl)) as [E|E]; auto.
        destruct (proj2 (Hext y) (or_introl eq_refl)) as [E'|E']; auto.
        specialize (Hx _ E'). specialize (Hy _ E). lia. }
      subst y. f_equal. apply IH; auto. intros z. split; intros Hz.
      * destruct (proj1 (Hext z) (or_intror Hz)) as [E|E]; auto. subst.
        specialize (Hx _ Hz). lia.
      * destruct (proj2 (Hext z) (or_intror Hz)) as [E|E]; auto. subst.
        specialize (Hy _ Hz). lia.
Qed.

Lemma sorted_filter (f : nat -> bool) l : StronglySorted lt l -> StronglySorted lt (filter f l).
Proof.
  induction 1 as [|x l Hs IH Hx]; simpl; [constructor|]. destruct (f x); auto.
  constructor; auto. rewrite Forall_forall in *. intros y Hy.
  apply filter_In in Hy. apply Hx; tauto.
Qed.

Lemma np_unique_id l : StronglySorted lt l -> np_unique l = l.
Proof.
  intros H. apply sorted_ext; auto using np_unique_sorted. intros; apply np_unique_In.
Qed.

(** ** C03 *)
Lemma without_app l r r' : without l (r ++ r') = without (without l r) r'.
Proof.
  unfold without. induction l as [|x l IH]; simpl; auto. rewrite memb_app, negb_orb.
  destruct (memb x r); simpl; auto. destruct (memb x r'); simpl; rewrite IH; auto.
Qed.

Lemma without_nil l : without l [] = l.
Proof. unfold without. induction l; simpl; auto. f_equal; auto. Qed.

Lemma step_space sl o : sl_space (sl_step sl o) = sl_space sl.
Proof. destruct o; simpl; auto. unfold reset_restricted_sites. destruct (_ <? _); auto. Qed.
Lemma step_sites sl o : sl_sites (sl_step sl o) = sl_sites sl.
Proof. destruct o; simpl; auto. unfold reset_restricted_sites. destruct (_ <? _); auto. Qed.
Lemma step_encoding sl o : sl_encoding (sl_step sl o) = sl_encoding sl.
Proof. destruct o; simpl; auto. unfold reset_restricted_sites. destruct (_ <? _); auto. Qed.

Lemma fold_static ops : forall sl,
  sl_space (fold_left sl_step ops sl) = sl_space sl /\
  sl_sites (fold_left sl_step ops sl) = sl_sites sl /\
  sl_encoding (fold_left sl_step ops sl) = sl_encoding sl.
Proof.
  induction ops as [|o ops IH]; intros sl; simpl; auto.
  destruct (IH (sl_step sl o)) as (-> & -> & ->).
  rewrite step_space, step_sites, step_encoding; auto.
Qed.

Lemma restrict_app ops o :
  restricted_since_reset (ops ++ [o]) =
  match o with Restrict s => restricted_since_reset ops ++ s | Reset => [] end.
Proof. unfold restricted_since_reset. rewrite fold_left_app; simpl. destruct o; auto. Qed.

Lemma was_reset_app ops o : was_reset (ops ++ [o]) =
  was_reset ops || match o with Reset => true | _ => false end.
Proof. unfold was_reset. rewrite existsb_app; simpl. rewrite orb_false_r; auto. Qed.

(** Active sites after a history, from any sublattice with several species. *)
Lemma active_history sl ops :
  1 < length (sl_space sl) ->
  sl_active (fold_left sl_step ops sl) =
  without (if was_reset ops then sl_sites sl else sl_active sl) (restricted_since_reset ops).
Proof.
  intros Hs. induction ops as [|o ops IH] using rev_ind.
  - simpl. rewrite without_nil; auto.
  - rewrite fold_left_app, restrict_app, was_reset_app. cbn [fold_left].
    destruct (fold_static ops sl) as (E1 & E2 & E3).
    destruct o as [s|]; simpl.
    + rewrite orb_false_r, without_app, <- IH. reflexivity.
    + rewrite orb_true_r, without_nil. unfold reset_restricted_sites.
      rewrite E1, (proj2 (Nat.ltb_lt _ _) Hs). simpl. auto.
Qed.

(** Active sites of single-species sublattices with no active site stay empty. *)
Lemma active_history_single sl ops :
  length (sl_space sl) <= 1 -> sl_active sl = [] ->
  sl_active (fold_left sl_step ops sl) = [].
Proof.
  intros Hs Ha. revert sl Hs Ha; induction ops as [|o ops IH]; intros sl Hs Ha; simpl; auto.
  apply IH; [rewrite step_space; auto|].
  destruct o as [s|]; simpl.
  - rewrite Ha; auto.
  - unfold reset_restricted_sites. rewrite (proj2 (Nat.ltb_ge _ _)); auto.
Qed.

Lemma active_after_history space sites ops :
  let sl := fold_left sl_step ops (mk_sublattice space sites) in
  sl_sites sl = np_unique sites /\
  sl_active sl = if length space <=? 1 then []
                 else without (np_unique sites) (restricted_since_reset ops).
Proof.
  intros sl. unfold sl. destruct (fold_static ops (mk_sublattice space sites)) as (_ & -> & _).
  assert (Hmk : sl_sites (mk_sublattice space sites) = np_unique sites /\
                sl_space (mk_sublattice space sites) = space).
  { unfold mk_sublattice. destruct (length space <=? 1); auto. }
  destruct Hmk as [Hms Hsp]. split; auto.
  destruct (Nat.leb_spec (length space) 1) as [Hle|Hgt].
  - apply active_history_single; [rewrite Hsp; auto|].
    unfold mk_sublattice. rewrite (proj2 (Nat.leb_le _ _) Hle). simpl.
    assert (H : forall l l', (forall x, In x l -> In x l') -> filter (fun i => negb (memb i l')) l = []).
    { induction l as [|x l IHl]; simpl; auto. intros l' Hl.
      rewrite (proj2 (memb_In x l')) by auto. simpl. auto. }
    apply H; auto.
  - rewrite active_history by (rewrite Hsp; auto). rewrite Hms.
    replace (sl_active (mk_sublattice space sites)) with (np_unique sites).
    + destruct (was_reset ops); auto.
    + unfold mk_sublattice. rewrite (proj2 (Nat.leb_gt _ _)); auto.
Qed.

Lemma restricted_partition sl :
  StronglySorted lt (sl_sites sl) -> NoDup (sl_active sl) ->
  (forall s, In s (sl_active sl) -> In s (sl_sites sl)) ->
  restricted_sites sl = without (sl_sites sl) (sl_active sl) /\
  Permutation (sl_active sl ++ restricted_sites sl) (sl_sites sl).
Proof.
  intros Hs Hn Hsub. unfold restricted_sites.
  assert (E : np_unique (filter (fun i => negb (memb i (sl_active sl))) (sl_sites sl)) =
              without (sl_sites sl) (sl_active sl)).
  { apply np_unique_id. apply sorted_filter; auto. }
  split; auto. rewrite E. apply NoDup_Permutation.
  - apply NoDup_app_intro; auto.
    + apply NoDup_filter, sorted_NoDup; auto.
    + intros x Hx Hf. apply filter_In in Hf. destruct Hf as [_ Hf].
      rewrite (proj2 (memb_In _ _) Hx) in Hf. discriminate.
  - apply sorted_NoDup; auto.
  - intros x. rewrite in_app_iff. unfold without. rewrite filter_In.
    destruct (memb_reflect x (sl_active sl)); simpl; intuition.
Qed.

Lemma without_comm l a b : without (without l a) b = without (without l b) a.
Proof.
  unfold without. induction l as [|x l IH]; simpl; auto.
  destruct (memb x a) eqn:Ea, (memb x b) eqn:Eb; simpl; rewrite ?Ea, ?Eb; simpl; auto.
  rewrite IH; auto.
Qed.

Lemma without_idem l a : without (without l a) a = without l a.
Proof.
  unfold without. induction l as [|x l IH]; simpl; auto.
  destruct (memb x a) eqn:Ea; simpl; rewrite ?Ea; simpl; auto. rewrite IH; auto.
Qed.

Lemma restrict_laws sl a b :
  restrict_sites (restrict_sites sl a) a = restrict_sites sl a /\
  restrict_sites (restrict_sites sl a) b = restrict_sites (restrict_sites sl b) a /\
  restrict_sites (restrict_sites sl a) b = restrict_sites sl (a ++ b).
Proof.
  unfold restrict_sites, set_active; simpl.
  change (filter (fun i => negb (memb i ?r)) ?l) with (without l r).
  repeat split; f_equal.
  - apply without_idem.
  - apply without_comm.
  - symmetry; apply without_app.
Qed.

(** ** C04 *)
Lemma insert_by_In {A} leb (x y : A) l : In y (insert_by leb x l) <-> y = x \/ In y l.
Proof.
  induction l as [|z l IH]; simpl; [intuition congruence|].
  destruct (leb x z); simpl; [intuition congruence|]. rewrite IH. intuition congruence.
Qed.

Lemma insert_by_perm {A} leb (x : A) l : Permutation (x :: l) (insert_by leb x l).
Proof.
  induction l as [|z l IH]; simpl; auto. destruct (leb x z); auto.
  eapply perm_trans; [apply perm_swap|]. constructor; auto.
Qed.

Lemma sort_by_perm {A} leb (l : list A) : Permutation l (sort_by leb l).
Proof.
  induction l as [|x l IH]; simpl; auto.
  eapply perm_trans; [|apply insert_by_perm]. constructor; auto.
Qed.

Lemma insert_leb_sorted x l : StronglySorted le l -> StronglySorted le (insert_by Nat.leb x l).
Proof.
  induction 1 as [|z l Hs IH Hz]; simpl; [repeat constructor|].
  destruct (Nat.leb_spec x z).
  - constructor; [constructor; auto|]. constructor; auto.
    rewrite Forall_forall in *. intros y Hy. specialize (Hz _ Hy); lia.
  - constructor; auto. rewrite Forall_forall in *. intros y Hy.
    apply insert_by_In in Hy. destruct Hy as [->|Hy]; [lia|auto].
Qed.

Lemma sort_leb_sorted l : StronglySorted le (sort_by Nat.leb l).
Proof. induction l; simpl; [constructor|]. apply insert_leb_sorted; auto. Qed.

Lemma sorted_le_lt l : StronglySorted le l -> NoDup l -> StronglySorted lt l.
Proof.
  induction 1 as [|x l Hs IH Hx]; intros Hn; [constructor|]. inversion Hn; subst.
  constructor; auto. rewrite Forall_forall in *. intros y Hy. specialize (Hx _ Hy).
  destruct (Nat.eq_dec x y); [subst; tauto|lia].
Qed.

Lemma sort_codes_sorted g : NoDup g -> StronglySorted lt (sort_by Nat.leb g).
Proof.
  intros H. apply sorted_le_lt; [apply sort_leb_sorted|].
  eapply Permutation_NoDup; [apply sort_by_perm|]; auto.
Qed.

Lemma sort_sorted_id {A} (leb : A -> A -> bool) l :
  StronglySorted (fun x y => leb x y = true) l -> sort_by leb l = l.
Proof.
  induction 1 as [|x l Hs IH Hx]; simpl; auto. rewrite IH.
  destruct l as [|y l]; simpl; auto. inversion Hx; subst. rewrite H1; auto.
Qed.

Lemma index_of_spec c l i : index_of c l = Some i -> nth_error l i = Some c.
Proof.
  revert i; induction l as [|x l IH]; intros i; simpl; [discriminate|].
  destruct (Nat.eqb_spec x c) as [->|Hne]; [intros H; inversion H; auto|].
  destruct (index_of c l) as [j|] eqn:E; [|discriminate].
  intros H; inversion H; simpl; auto.
Qed.

Lemma index_of_In c l : In c l -> exists i, index_of c l = Some i.
Proof.
  induction l as [|x l IH]; simpl; [tauto|]. intros H.
  destruct (Nat.eqb_spec x c) as [->|Hne]; eauto.
  destruct H as [H|H]; [tauto|]. destruct (IH H) as [i ->]; eauto.
Qed.

Lemma sorted_nth_lt l i j x y : StronglySorted lt l ->
  nth_error l i = Some x -> nth_error l j = Some y -> x < y -> i < j.
Proof.
  intros Hs; revert i j; induction Hs as [|z l Hs IH Hz]; intros i j Hi Hj Hlt.
  - destruct i; discriminate.
  - rewrite Forall_forall in Hz. destruct i as [|i], j as [|j]; simpl in *.
    + inversion Hi; inversion Hj; lia.
    + lia.
    + inversion Hj; subst. apply nth_error_In in Hi. specialize (Hz _ Hi). lia.
    + specialize (IH i j Hi Hj Hlt). lia.
Qed.

Lemma sorted_nth_rel {A} (R : A -> A -> Prop) l i j x y : StronglySorted R l ->
  nth_error l i = Some x -> nth_error l j = Some y -> i < j -> R x y.
Proof.
  intros Hs; revert i j; induction Hs as [|z l Hs IH Hz]; intros i j Hi Hj Hlt.
  - destruct i; discriminate.
  - rewrite Forall_forall in Hz. destruct i as [|i], j as [|j]; simpl in *; try lia.
    + inversion Hi; subst. apply nth_error_In in Hj. auto.
    + apply (IH i j); auto; lia.
Qed.

Section Split.
Variable leb : species -> species -> bool.

Lemma items_defined sl g :
  wf_sublattice leb sl -> (forall c, In c g -> In c (sl_encoding sl)) ->
  exists items, opt_map (item_of_code sl) g = Some items.
Proof.
  intros W Hg. induction g as [|c g IH]; simpl; eauto.
  destruct IH as [items ->]; [intros; apply Hg; right; auto|].
  unfold item_of_code. destruct (index_of_In c (sl_encoding sl)) as [i Hi]; [apply Hg; left; auto|].
  rewrite Hi. simpl. pose proof (index_of_spec _ _ Hi) as Hn.
  assert (Hlt : i < length (sl_space sl)).
  { rewrite <- (wf_enc_len W). eapply nth_error_Some_lt; eauto. }
  destruct (nth_error_lt _ Hlt) as [it ->]. eauto.
Qed.

Lemma items_sorted sl codes items :
  wf_sublattice leb sl -> StronglySorted lt codes ->
  opt_map (item_of_code sl) codes = Some items ->
  StronglySorted (sp_before leb) (map fst items) /\ Forall (fun p => (0 < snd p)%Qc) items.
Proof.
  intros W Hs. revert items. induction Hs as [|c codes Hs IH Hc]; intros items H; simpl in H.
  - inversion H; simpl; split; constructor.
  - destruct (item_of_code sl c) as [it|] eqn:Ei; [|discriminate].
    destruct (opt_map (item_of_code sl) codes) as [its|] eqn:Eo; [|discriminate].
    inversion H; subst. destruct (IH its eq_refl) as [H1 H2]. simpl.
    unfold item_of_code in Ei. destruct (index_of c (sl_encoding sl)) as [i|] eqn:Ex; simpl in Ei; [|discriminate].
    split.
    + constructor; auto. rewrite Forall_forall in *. intros sp Hsp.
      apply in_map_iff in Hsp. destruct Hsp as (it' & <- & Hin).
      apply In_nth_error in Hin. destruct Hin as [j Hj].
      assert (Hj' : j < length codes).
      { rewrite <- (opt_map_length _ _ Eo). eapply nth_error_Some_lt; eauto. }
      destruct (nth_error_lt _ Hj') as [c' Hc'].
      destruct (@opt_map_nth _ _ _ _ _ j c' Eo Hc') as (y & Hy' & Hy).
      assert (y = it') by congruence; subst y.
      unfold item_of_code in Hy'.
      destruct (index_of c' (sl_encoding sl)) as [i'|] eqn:Ex'; simpl in Hy'; [|discriminate].
      apply index_of_spec in Ex, Ex'.
      assert (Hlt : i < i').
      { apply (@sorted_nth_lt (sl_encoding sl) i i' c c'); auto; [apply (wf_enc W)|].
        apply Hc. eapply nth_error_In; eauto. }
      eapply (sorted_nth_rel (wf_space W)); [| |exact Hlt]; rewrite nth_error_map.
      * rewrite Ei; auto.
      * rewrite Hy'; auto.
    + constructor; auto. pose proof (wf_amounts W) as Ha. rewrite Forall_forall in Ha.
      apply Ha. eapply nth_error_In; eauto.
Qed.

Lemma flat_map_sites_In occu l codes s :
  In s (flat_map (sites_with_code occu l) codes) <->
  In s l /\ carries_one_of occu codes s = true.
Proof.
  unfold carries_one_of. rewrite in_flat_map. unfold sites_with_code. split.
  - intros (c & Hc & Hs). apply filter_In in Hs. destruct Hs as [Hs E].
    destruct (nth_error occu s) as [c'|]; [|discriminate]. apply Nat.eqb_eq in E; subst.
    split; auto. apply memb_In; auto.
  - intros [Hs E]. destruct (nth_error occu s) as [c|] eqn:En; [|discriminate].
    apply memb_In in E. exists c. split; auto. apply filter_In. rewrite En, Nat.eqb_refl. auto.
Qed.

Lemma flat_map_sites_NoDup occu l codes :
  NoDup l -> NoDup codes -> NoDup (flat_map (sites_with_code occu l) codes).
Proof.
  intros Hl Hc. induction Hc as [|c codes Hn Hc IH]; simpl; [constructor|].
  apply NoDup_app_intro; auto.
  - apply NoDup_filter; auto.
  - intros x Hx Hx'. apply flat_map_sites_In in Hx'. destruct Hx' as [_ Hx'].
    unfold sites_with_code in Hx. apply filter_In in Hx. destruct Hx as [_ Hx].
    unfold carries_one_of in Hx'. destruct (nth_error occu x); [|discriminate].
    apply Nat.eqb_eq in Hx; subst. apply memb_In in Hx'. auto.
Qed.

Lemma carries_perm occu g g' s : (forall c, In c g <-> In c g') ->
  carries_one_of occu g s = carries_one_of occu g' s.
Proof.
  intros H. unfold carries_one_of. destruct (nth_error occu s) as [c|]; auto.
  destruct (memb_reflect c g), (memb_reflect c g'); auto; exfalso; firstorder.
Qed.

Lemma qsum_pos_items (l : list (species * Qc)) :
  Forall (fun p => (0 < snd p)%Qc) l -> (0 <= qsum (map snd l))%Qc /\
  (l <> [] -> (0 < qsum (map snd l))%Qc).
Proof.
  induction 1 as [|x l Hx H IH]; simpl.
  - split; [apply Qcle_refl|congruence].
  - destruct IH as [IH _]. split; [|intros _]; qclra.
Qed.

Lemma no_vac_split items :
  StronglySorted (sp_before leb) (map fst items) ->
  (Forall (fun p : species * Qc => is_vac (fst p) = false) items) \/
  exists nv x, items = nv ++ [(Vac, x)] /\
    Forall (fun p : species * Qc => is_vac (fst p) = false) nv.
Proof.
  induction items as [|[sp a] items IH]; intros H; [left; constructor|].
  simpl in H. inversion H; subst. destruct (IH H2) as [IHn|(nv & x & -> & IHn)].
  - destruct sp as [n|].
    + left; constructor; auto.
    + right. exists [], a. destruct items as [|it items]; [split; auto|].
      exfalso. simpl in H3. inversion H3; subst. destruct (fst it); auto.
  - right. exists ((sp, a) :: nv), x. split; auto. constructor; auto.
    destruct sp; auto. exfalso. simpl in H3. rewrite map_app in H3.
    apply Forall_app in H3. destruct H3 as [_ H3]. inversion H3; auto.
Qed.

Lemma filter_novac items :
  Forall (fun p : species * Qc => is_vac (fst p) = false) items ->
  filter (fun p => negb (is_vac (fst p))) items = items.
Proof. induction 1 as [|x l Hx H IH]; simpl; auto. rewrite Hx; simpl. f_equal; auto. Qed.

Lemma sorted_app_l {A} (R : A -> A -> Prop) l l' : StronglySorted R (l ++ l') -> StronglySorted R l.
Proof.
  induction l as [|x l IH]; simpl; intros H; [constructor|]. inversion H; subst.
  constructor; auto. apply Forall_app in H3; tauto.
Qed.

Lemma novac_sort (f : species * Qc -> Qc) nv :
  Forall (fun p : species * Qc => is_vac (fst p) = false) nv ->
  StronglySorted (sp_before leb) (map fst nv) ->
  sort_by (fun p q : species * Qc => leb (fst p) (fst q)) (map (fun p => (fst p, f p)) nv)
  = map (fun p => (fst p, f p)) nv.
Proof.
  intros Hn Hs. apply sort_sorted_id. induction Hn as [|x l Hx H IH]; simpl in *; [constructor|].
  inversion Hs; subst. constructor; auto. rewrite Forall_forall in *.
  intros y Hy. apply in_map_iff in Hy. destruct Hy as (q & <- & Hq). simpl.
  specialize (H3 (fst q) (in_map _ _ _ Hq)). specialize (H _ Hq).
  destruct (fst x), (fst q); simpl in *; try discriminate. tauto.
Qed.

Lemma qsum_div (l : list (species * Qc)) d :
  qsum (map (fun p => (snd p / d)%Qc) l) = (qsum (map snd l) / d)%Qc.
Proof.
  induction l as [|x l IH]; simpl; unfold Qcdiv in *; [ring|]. rewrite IH. ring.
Qed.


(** The composition of a part and its site space. *)
Definition part_comp (items : list (species * Qc)) : composition :=
  map (fun p => (fst p, (snd p / qsum (map snd items))%Qc))
      (filter (fun p => negb (is_vac (fst p))) items).

Lemma part_comp_atoms items :
  num_atoms (part_comp items) =
  (qsum (map snd (filter (fun p => negb (is_vac (fst p))) items)) / qsum (map snd items))%Qc.
Proof.
  unfold num_atoms, part_comp. rewrite map_map. simpl. apply qsum_div.
Qed.

Lemma part_comp_novac items : existsb (fun p => is_vac (fst p)) (part_comp items) = false.
Proof.
  unfold part_comp. induction (filter _ items) as [|x l IH] eqn:E in |- *; auto.
  apply not_true_is_false. intros H. apply existsb_exists in H.
  destruct H as (p & Hp & Hv). rewrite <- E in Hp. apply in_map_iff in Hp.
  destruct Hp as (q & <- & Hq). apply filter_In in Hq. destruct Hq as [_ Hq].
  simpl in Hv. rewrite Hv in Hq. discriminate.
Qed.

Lemma part_space items :
  items <> [] ->
  StronglySorted (sp_before leb) (map fst items) -> Forall (fun p => (0 < snd p)%Qc) items ->
  exists space, mk_site_space leb (part_comp items) = Some space /\
    Forall (fun p => (0 < snd p)%Qc) space /\
    ((forall x, In (Vac, x) items -> (qsum (map snd items) < Qc_of_nat 100 * x)%Qc) ->
     map fst space = map fst items).
Proof.
  intros Hne Hs Hp. destruct (qsum_pos_items Hp) as [_ Hpos]. specialize (Hpos Hne).
  unfold mk_site_space. rewrite part_comp_novac, part_comp_atoms. simpl.
  set (T := qsum (map snd items)) in *.
  assert (H99 : q099 = (1 - Qc_frac 1 100)%Qc) by (apply Qc_is_canon; reflexivity).
  assert (H100 : (Qc_of_nat 100 * Qc_frac 1 100 = 1)%Qc) by (apply Qc_is_canon; reflexivity).
  destruct (no_vac_split items Hs) as [Hn|(nv & x & Ei & Hn)].
  - rewrite (filter_novac Hn). fold T.
    assert (E1 : (T / T)%Qc = 1%Qc).
    { unfold Qcdiv. rewrite Qcmult_comm. apply Qcmult_inv_l. apply Qc_pos_nz; auto. }
    rewrite E1. change (Qcltb 1 0) with false. change (Qcltb 1 1) with false.
    change (Qcltb 1 q099) with false. simpl.
    eexists; split; [reflexivity|].
    unfold part_comp. rewrite (filter_novac Hn). fold T.
    rewrite (@novac_sort (fun p => (snd p / T)%Qc) items Hn Hs). split.
    + apply Forall_forall. intros q Hq. apply in_map_iff in Hq. destruct Hq as (r & <- & Hr).
      simpl. rewrite Forall_forall in Hp. apply Qcdiv_gt_iff; auto.
      specialize (Hp _ Hr). simpl in Hp. qclra.
    + intros _. rewrite map_map. reflexivity.
  - assert (Ef : filter (fun p => negb (is_vac (fst p))) items = nv).
    { rewrite Ei, filter_app, (filter_novac Hn). simpl. apply app_nil_r. }
    rewrite Ef.
    assert (ET : T = (qsum (map snd nv) + x)%Qc).
    { unfold T. rewrite Ei, map_app, qsum_app. simpl. ring. }
    assert (Hnv : Forall (fun p => (0 < snd p)%Qc) nv /\ (0 < x)%Qc).
    { rewrite Ei in Hp. apply Forall_app in Hp. destruct Hp as [H1 H2]. inversion H2; auto. }
    destruct Hnv as [Hnv Hx]. destruct (qsum_pos_items Hnv) as [Hnn _].
    set (S := qsum (map snd nv)) in *.
    assert (Hn0 : (0 <= S / T)%Qc) by (apply Qcdiv_ge_iff; auto; qclra).
    assert (Hn1 : (S / T < 1)%Qc) by (apply Qcdiv_lt_iff; auto; qclra).
    destruct (Qcltb_spec (S / T) 0) as [Hc|_]; [exfalso; apply (Qcle_not_lt _ _ Hn0 Hc)|].
    destruct (Qcltb_spec 1 (S / T)) as [Hc|_].
    { exfalso. apply (Qclt_not_le _ _ Hn1). apply Qclt_le_weak; auto. }
    simpl. eexists; split; [reflexivity|].
    assert (Hsnv : StronglySorted (sp_before leb) (map fst nv)).
    { rewrite Ei, map_app in Hs. eapply sorted_app_l; eauto. }
    unfold part_comp. rewrite Ef. fold T.
    rewrite (@novac_sort (fun p => (snd p / T)%Qc) nv Hn Hsnv).
    assert (Hpp : Forall (fun p : species * Qc => (0 < snd p)%Qc) (map (fun p => (fst p, (snd p / T)%Qc)) nv)).
    { apply Forall_forall. intros q Hq. apply in_map_iff in Hq. destruct Hq as (r & <- & Hr).
      simpl. rewrite Forall_forall in Hnv. apply Qcdiv_gt_iff; auto.
      specialize (Hnv _ Hr). simpl in Hnv. qclra. }
    destruct (Qcltb_spec (S / T) q099) as [Hlt|Hge].
    + split.
      * apply Forall_app. split; auto. constructor; auto. simpl. qclra.
      * intros _. rewrite Ei, !map_app, map_map. reflexivity.
    + split; auto. intros Hw. exfalso. apply Hge.
      specialize (Hw x). rewrite H99.
      apply Qcdiv_lt_iff; auto.
      assert (Hw' : (T < Qc_of_nat 100 * x)%Qc).
      { apply Hw. rewrite Ei. apply in_app_iff; simpl; auto. }
      set (h := Qc_of_nat 100) in *. set (e := Qc_frac 1 100) in *.
      assert (He : (0 < e)%Qc) by reflexivity.
      assert (Hx2 : (x = h * e * x)%Qc) by (rewrite H100; ring).
      assert (Hx3 : (T * e < h * x * e)%Qc).
      { clear - He Hw'. set (y := (h * x)%Qc) in *. clearbody y T e. qcnra. }
      assert (S = T - x)%Qc by (rewrite ET; ring).
      rewrite H. rewrite Hx2. clear - Hx3. 
      replace (h * e * x)%Qc with (h * x * e)%Qc by ring.
      set (y := (h * x * e)%Qc) in *. clearbody y T e.
      replace ((1 - e) * T)%Qc with (T - T * e)%Qc by ring.
      set (z := (T * e)%Qc) in *. clearbody z. qclra.
Qed.

Lemma split_part_spec sl occu g :
  wf_sublattice leb sl -> (forall s, In s (sl_sites sl) -> s < length occu) ->
  NoDup g -> g <> [] -> (forall c, In c g -> In c (sl_encoding sl)) ->
  exists part, split_part leb sl occu g = Some part /\
    sl_encoding part = sort_by Nat.leb g /\
    sl_sites part = filter (carries_one_of occu g) (sl_sites sl) /\
    Permutation (sl_active part)
      (if length g =? 1 then [] else filter (carries_one_of occu g) (sl_active sl)) /\
    (vacancy_weighty sl g ->
       opt_map (item_of_code sl) (sl_encoding part) <> None /\
       (forall items, opt_map (item_of_code sl) (sl_encoding part) = Some items ->
          sl_species part = map fst items) /\
       wf_sublattice leb part).
Proof.
  intros W Hr Hn Hne Hg. unfold split_part.
  pose proof (sort_by_perm Nat.leb g) as Hperm.
  set (codes := sort_by Nat.leb g) in *.
  assert (Hcodes : forall c, In c codes <-> In c g).
  { intros c; split; apply Permutation_in; auto. apply Permutation_sym; auto. }
  assert (Hsc : StronglySorted lt codes) by (apply sort_codes_sorted; auto).
  destruct (@items_defined sl codes W) as [items Hitems].
  { intros c Hc. apply Hg. apply Hcodes; auto. }
  unfold item_of_code in Hitems. rewrite Hitems. cbn [option_bind].
  fold (item_of_code sl) in Hitems.
  assert (Hir : in_range occu (sl_sites sl) = true).
  { unfold in_range. apply forallb_forall. intros s Hs. apply Nat.ltb_lt; auto. }
  rewrite Hir. cbn [negb].
  destruct (items_sorted W Hsc Hitems) as [Hs Hp].
  assert (Hine : items <> []).
  { intros ->. apply opt_map_length in Hitems. simpl in Hitems.
    apply Hne. apply Permutation_length in Hperm. destruct g; auto. simpl in *. lia. }
  destruct (part_space Hine Hs Hp) as (space & Hspace & Hsp & Hal).
  unfold part_comp in Hspace. rewrite Hspace. cbn [option_bind].
  eexists; split; [reflexivity|].
  assert (Hlen : length codes = length g) by (symmetry; apply Permutation_length; auto).
  rewrite Hlen.
  assert (Hsites : sl_sites (mk_sublattice space (flat_map (sites_with_code occu (sl_sites sl)) codes))
            = filter (carries_one_of occu g) (sl_sites sl)).
  { transitivity (np_unique (flat_map (sites_with_code occu (sl_sites sl)) codes)).
    { unfold mk_sublattice. destruct (length space <=? 1); auto. }
    apply sorted_ext; [apply np_unique_sorted|apply sorted_filter, (wf_sites W)|].
    intros s. rewrite np_unique_In, flat_map_sites_In, filter_In.
    rewrite (@carries_perm occu codes g s Hcodes). tauto. }
  set (acts := flat_map (sites_with_code occu (sl_active sl)) codes).
  assert (Hact : Permutation acts (filter (carries_one_of occu g) (sl_active sl))).
  { apply NoDup_Permutation.
    - apply flat_map_sites_NoDup; [apply (wf_active_nodup W)|apply sorted_NoDup; auto].
    - apply NoDup_filter, (wf_active_nodup W).
    - intros s. unfold acts. rewrite flat_map_sites_In, filter_In.
      rewrite (@carries_perm occu codes g s Hcodes). tauto. }
  assert (Hsub : forall s, In s acts -> In s (filter (carries_one_of occu g) (sl_sites sl))).
  { intros s Hs'. eapply Permutation_in in Hs'; [|exact Hact]. apply filter_In in Hs'.
    apply filter_In. split; [apply (wf_active_sub W)|]; tauto. }
  assert (Hnil : forall l l' : list nat, (forall x, In x l -> In x l') ->
     filter (fun i => negb (memb i l')) l = []).
  { induction l as [|x l IHl]; simpl; auto. intros l' Hl.
    rewrite (proj2 (memb_In x l')) by auto. simpl. auto. }
  assert (Hwt : vacancy_weighty sl g -> map fst space = map fst items).
  { intros Hw. apply Hal. intros x Hx. apply In_nth_error in Hx. destruct Hx as [j Hj].
    assert (Hj' : j < length codes) by (rewrite <- (opt_map_length _ _ Hitems); eapply nth_error_Some_lt; eauto).
    destruct (nth_error_lt _ Hj') as [c Hc].
    destruct (@opt_map_nth _ _ _ _ _ j c Hitems Hc) as (y & Hy & Hy').
    assert (y = (Vac, x)) by congruence. subst y.
    destruct (@opt_map_perm _ _ _ _ _ _ (Permutation_sym Hperm) Hitems) as (its' & Hi2 & Hq).
    rewrite (qsum_perm (Permutation_map snd Hq)).
    apply (Hw c x); auto. apply Hcodes. eapply nth_error_In; eauto. }
  assert (Hwf : vacancy_weighty sl g -> forall acts', NoDup acts' ->
     (forall s, In s acts' -> In s acts) ->
     wf_sublattice leb (mkSL space (filter (carries_one_of occu g) (sl_sites sl)) acts' codes)).
  { intros Hw acts' Hnd Hs'. specialize (Hwt Hw). constructor; simpl; auto.
    - apply sorted_filter, (wf_sites W).
    - rewrite <- (opt_map_length _ _ Hitems), <- (map_length fst items), <- Hwt. apply map_length.
    - rewrite Hwt; auto. }
  destruct (Nat.eqb_spec (length g) 1) as [H1|H1].
  - unfold restrict_sites, set_active. cbn [sl_space sl_sites sl_active sl_encoding].
    rewrite Hsites, (Hnil acts) by auto. split; auto. split; auto. split; auto.
    intros Hw. split; [rewrite Hitems; discriminate|]. split.
    + intros items' Hi'. assert (items' = items) by congruence; subst. apply Hwt; auto.
    + apply Hwf; auto; [constructor|]. intros s [].
  - cbn [sl_space sl_sites sl_active sl_encoding]. rewrite Hsites.
    split; auto. split; auto. split; auto.
    intros Hw. split; [rewrite Hitems; discriminate|]. split.
    + intros items' Hi'. assert (items' = items) by congruence; subst. apply Hwt; auto.
    + apply Hwf; auto. eapply Permutation_NoDup; [apply Permutation_sym; exact Hact|].
      apply NoDup_filter, (wf_active_nodup W).
Qed.

Lemma split_spec sl occu groups :
  wf_sublattice leb sl -> (forall s, In s (sl_sites sl) -> s < length occu) ->
  (forall g, In g groups -> NoDup g /\ g <> [] /\ forall c, In c g -> In c (sl_encoding sl)) ->
  exists parts, split_by_species leb sl occu groups = Some parts /\
    Forall2 (is_part_of sl occu) groups parts /\
    Forall2 (fun g part => vacancy_weighty sl g ->
       exists items, opt_map (item_of_code sl) (sl_encoding part) = Some items /\
         sl_species part = map fst items) groups parts /\
    Forall2 (fun g part => vacancy_weighty sl g -> wf_sublattice leb part) groups parts.
Proof.
  intros W Hr Hg. induction groups as [|g groups IH].
  - exists []. repeat split; constructor.
  - destruct IH as (parts & E & F1 & F2 & F3); [intros; apply Hg; right; auto|].
    destruct (Hg g (or_introl eq_refl)) as (H1 & H2 & H3).
    destruct (@split_part_spec sl occu g W Hr H1 H2 H3) as (part & Ep & P1 & P2 & P3 & P4).
    exists (part :: parts). unfold split_by_species in *. simpl. rewrite Ep, E.
    split; auto. repeat split; constructor; auto.
    + repeat split; auto.
    + intros Hw. destruct (P4 Hw) as (Q1 & Q2 & Q3).
      destruct (opt_map (item_of_code sl) (sl_encoding part)) as [items|]; [|congruence].
      eauto.
    + intros Hw. apply P4; auto.
Qed.

Lemma parts_disjoint sl occu groups parts i j gi gj pi pj s :
  Forall2 (is_part_of sl occu) groups parts ->
  (forall i j gi gj c, nth_error groups i = Some gi -> nth_error groups j = Some gj ->
     In c gi -> In c gj -> i = j) ->
  nth_error groups i = Some gi -> nth_error groups j = Some gj ->
  nth_error parts i = Some pi -> nth_error parts j = Some pj ->
  In s (sl_sites pi) -> In s (sl_sites pj) -> i = j.
Proof.
  intros F Hd Gi Gj Pi Pj Hsi Hsj.
  assert (K : forall k g p, nth_error groups k = Some g -> nth_error parts k = Some p -> is_part_of sl occu g p).
  { clear - F. induction F as [|g p gs ps H F IH]; intros [|k] g' p' Hg Hp; simpl in *; try discriminate.
    - inversion Hg; inversion Hp; subst; auto.
    - eauto. }
  destruct (K _ _ _ Gi Pi) as (_ & Si & _). destruct (K _ _ _ Gj Pj) as (_ & Sj & _).
  rewrite Si in Hsi. rewrite Sj in Hsj. apply filter_In in Hsi, Hsj.
  unfold carries_one_of in *. destruct (nth_error occu s) as [c|]; [|destruct Hsi; discriminate].
  destruct Hsi as [_ Hi], Hsj as [_ Hj]. apply memb_In in Hi, Hj. eapply Hd; eauto.
Qed.

Lemma mk_sublattice_wf space sites :
  StronglySorted (sp_before leb) (map fst space) -> Forall (fun p => (0 < snd p)%Qc) space ->
  wf_sublattice leb (mk_sublattice space sites).
Proof.
  intros Hs Hp. unfold mk_sublattice.
  assert (Hseq : forall n s, StronglySorted lt (seq s n)).
  { induction n as [|n IH]; intros s; simpl; constructor; auto.
    apply Forall_forall. intros x Hx. apply in_seq in Hx; lia. }
  destruct (length space <=? 1); constructor; simpl; auto using np_unique_sorted.
  - intros s H. apply filter_In in H; tauto.
  - apply NoDup_filter, sorted_NoDup, np_unique_sorted.
  - apply seq_length.
  - apply sorted_NoDup, np_unique_sorted.
  - apply seq_length.
Qed.

Lemma step_wf sl o : wf_sublattice leb sl -> wf_sublattice leb (sl_step sl o).
Proof.
  intros W. destruct o as [s|]; simpl.
  - constructor; simpl; try apply W.
    + intros x Hx. apply filter_In in Hx. apply W; tauto.
    + apply NoDup_filter; apply W.
  - unfold reset_restricted_sites. destruct (_ <? _); auto.
    constructor; simpl; auto; try apply W. apply sorted_NoDup; apply W.
Qed.

Lemma history_wf sl ops : wf_sublattice leb sl -> wf_sublattice leb (fold_left sl_step ops sl).
Proof. revert sl; induction ops as [|o ops IH]; intros sl W; simpl; auto. apply IH, step_wf; auto. Qed.
End Split.

Lemma species_index_spec sp l i : species_index sp l = Some i ->
  nth_error l i = Some sp.
Proof.
  revert i; induction l as [|x l IH]; intros i; simpl; [discriminate|].
  destruct (sp_eqb x sp) eqn:E.
  - intros H; inversion H; simpl. destruct x, sp; simpl in E; try discriminate; auto.
    apply Nat.eqb_eq in E; subst; auto.
  - destruct (species_index sp l); [|discriminate]. intros H; inversion H; simpl; auto.
Qed.

Lemma codes_of_species_spec sl groups codes :
  codes_of_species sl groups = Some codes ->
  Forall2 (Forall2 (fun sp c => exists i, nth_error (sl_species sl) i = Some sp /\
                                          nth_error (sl_encoding sl) i = Some c)) groups codes.
Proof.
  assert (K : forall A B (f : A -> option B) (R : A -> B -> Prop),
    (forall a b, f a = Some b -> R a b) -> forall l l', opt_map f l = Some l' -> Forall2 R l l').
  { intros A B f R Hf. induction l as [|a l IH]; intros l' H; simpl in H.
    - inversion H; constructor.
    - destruct (f a) eqn:E; [|discriminate]. destruct (opt_map f l); [|discriminate].
      inversion H; subst. constructor; auto. }
  unfold codes_of_species. apply K. intros g cs. apply K.
  intros sp c H. destruct (species_index sp (sl_species sl)) as [i|] eqn:E; simpl in H; [|discriminate].
  exists i. split; auto. apply species_index_spec; auto.
Qed.

Lemma Forall2_nth {A B} (R : A -> B -> Prop) l l' i x y :
  Forall2 R l l' -> nth_error l i = Some x -> nth_error l' i = Some y -> R x y.
Proof.
  intros F; revert i; induction F; intros [|i] Hx Hy; simpl in *; try discriminate.
  - inversion Hx; inversion Hy; subst; auto.
  - eauto.
Qed.

Lemma partition_history leb sl ops : wf_sublattice leb sl ->
  let sl' := fold_left sl_step ops sl in
  restricted_sites sl' = without (sl_sites sl) (sl_active sl') /\
  Permutation (sl_active sl' ++ restricted_sites sl') (sl_sites sl).
Proof.
  intros W sl'. pose proof (@history_wf leb sl ops W) as W'. fold sl' in W'.
  destruct (fold_static ops sl) as (_ & E & _). fold sl' in E. rewrite <- E.
  apply restricted_partition; apply W'.
Qed.

Lemma split_ok leb sl occu groups :
  wf_sublattice leb sl -> (forall s, In s (sl_sites sl) -> s < length occu) ->
  (forall g, In g groups -> NoDup g /\ g <> [] /\ forall c, In c g -> In c (sl_encoding sl)) ->
  exists parts, split_by_species leb sl occu groups = Some parts /\
    Forall2 (is_part_of sl occu) groups parts.
Proof.
  intros W Hr Hg. destruct (@split_spec leb sl occu groups W Hr Hg) as (parts & E & F & _). eauto.
Qed.

Lemma split_disjoint_cover leb sl occu groups parts :
  wf_sublattice leb sl -> (forall s, In s (sl_sites sl) -> s < length occu) ->
  (forall g, In g groups -> NoDup g /\ g <> [] /\ forall c, In c g -> In c (sl_encoding sl)) ->
  (forall i j gi gj c, nth_error groups i = Some gi -> nth_error groups j = Some gj ->
     In c gi -> In c gj -> i = j) ->
  split_by_species leb sl occu groups = Some parts ->
  (forall i j pi pj s, nth_error parts i = Some pi -> nth_error parts j = Some pj ->
     In s (sl_sites pi) -> In s (sl_sites pj) -> i = j) /\
  (forall i g p s c, nth_error groups i = Some g -> nth_error parts i = Some p ->
     In s (sl_sites sl) -> nth_error occu s = Some c ->
     (In c g <-> In s (sl_sites p)) /\
     (1 < length g -> In s (sl_active sl) -> (In c g <-> In s (sl_active p)))).
Proof.
  intros W Hr Hg Hd E. destruct (@split_ok leb sl occu groups W Hr Hg) as (parts' & E' & F).
  assert (parts' = parts) by congruence; subst parts'. split.
  - intros i j pi pj s Hi Hj Hsi Hsj.
    assert (L : length groups = length parts) by (eapply Forall2_length; eauto).
    destruct (@nth_error_lt _ groups i) as [gi Gi]; [rewrite L; eapply nth_error_Some_lt; eauto|].
    destruct (@nth_error_lt _ groups j) as [gj Gj]; [rewrite L; eapply nth_error_Some_lt; eauto|].
    eapply (@parts_disjoint sl occu groups parts); eauto.
  - intros i g p s c Gi Pi Hs Hc.
    destruct (@Forall2_nth _ _ _ _ _ _ _ _ F Gi Pi) as (_ & Es & Ea). split.
    + rewrite Es, filter_In. unfold carries_one_of. rewrite Hc, memb_In. tauto.
    + intros Hl Ha. destruct (Nat.eqb_spec (length g) 1); [lia|].
      transitivity (In s (filter (carries_one_of occu g) (sl_active sl))).
      * rewrite filter_In. unfold carries_one_of. rewrite Hc, memb_In. tauto.
      * split; apply Permutation_in; auto. apply Permutation_sym; auto.
Qed.

Lemma split_codes_species leb sl occu groups parts :
  wf_sublattice leb sl -> (forall s, In s (sl_sites sl) -> s < length occu) ->
  (forall g, In g groups -> NoDup g /\ g <> [] /\ forall c, In c g -> In c (sl_encoding sl)) ->
  (forall g, In g groups -> vacancy_weighty sl g) ->
  split_by_species leb sl occu groups = Some parts ->
  Forall (fun part =>
    wf_sublattice leb part /\
    forall p c, nth_error (sl_encoding part) p = Some c ->
      exists sp x y, nth_error (sl_space part) p = Some (sp, x) /\
                     item_of_code sl c = Some (sp, y)) parts.
Proof.
  intros W Hr Hg Hw E. destruct (@split_spec leb sl occu groups W Hr Hg) as (parts' & E' & _ & F2 & F3).
  assert (parts' = parts) by congruence; subst parts'. clear E E'.
  revert F2 F3 Hw. clear Hg. revert groups.
  induction parts as [|part parts IH]; intros groups F2 F3 Hw; [constructor|].
  inversion F2 as [|g p gs ps A2 B2]; subst. inversion F3 as [|g' p' gs' ps' A3 B3]; subst.
  constructor.
  - assert (Hwg : vacancy_weighty sl g) by (apply Hw; left; auto). split; auto.
    intros q c Hq. destruct (A2 Hwg) as (items & Hi & Hsp).
    destruct (@opt_map_nth _ _ _ _ _ q c Hi Hq) as ([sp y] & Hy & Hy').
    unfold sl_species in Hsp.
    assert (Hn : nth_error (map fst (sl_space part)) q = Some sp).
    { rewrite Hsp, nth_error_map, Hy'. auto. }
    rewrite nth_error_map in Hn. destruct (nth_error (sl_space part) q) as [[sp' x]|]; [|discriminate].
    simpl in Hn. inversion Hn; subst. eauto.
  - apply (IH gs); auto. intros; apply Hw; right; auto.
Qed.

Lemma reachable_wf leb space sites ops :
  StronglySorted (sp_before leb) (map fst space) -> Forall (fun p => (0 < snd p)%Qc) space ->
  wf_sublattice leb (fold_left sl_step ops (mk_sublattice space sites)).
Proof. intros. apply history_wf, mk_sublattice_wf; auto. Qed.
