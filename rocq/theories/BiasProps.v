(** Property C19: bias values and bias changes. *)
From Verif Require Import BiasSpec SiteTableProofs OccuUtilsProofs KernelProofs SublatticeProofs OccuUtilsProps.
Set Implicit Arguments.
Unset Strict Implicit.
Open Scope nat_scope.

(** ** Fugacity *)
Lemma fu_table_spec sls N value t : layout sls N -> coded sls -> fu_table sls value = Some t ->
  (forall k sl d s c p sp, nth_error (filter is_active sls) k = Some sl -> nth_error value k = Some d ->
     In s (sl_sites sl) -> nth_error (sl_encoding sl) p = Some c -> nth_error (sl_species sl) p = Some sp ->
     get_val t s c = sp_lookup sp d /\ sp_lookup sp d <> None) /\
  (forall s c, s < N -> c < n_cols sls ->
     (forall k sl, nth_error (filter is_active sls) k = Some sl -> k < length value -> ~ In s (sl_sites sl)) ->
     get_val t s c = Some 1%Qc).
Proof.
  intros L C. unfold fu_table. destruct (fugacities_ok (filter is_active sls) value) eqn:Ok; [|discriminate].
  rewrite (layout_cols L), (layout_rows L). cbn [option_bind].
  set (act := filter is_active sls) in *.
  unfold fugacities_ok in Ok. rewrite !andb_true_iff in Ok. destruct Ok as [_ Ok]. rewrite forallb_forall in Ok.
  assert (Hcomb : forall k sl d, nth_error act k = Some sl -> nth_error value k = Some d -> In (sl, d) (combine act value)).
  { clear. revert value. induction act as [|a act IH]; intros value k sl d Hk Hd; [destruct k; discriminate|].
    destruct value as [|v value]; [destruct k; discriminate|]. destruct k as [|k]; simpl in *; [left; congruence|eauto]. }
  assert (Hact : forall sl, In sl act -> In sl sls) by (intros sl H; apply filter_In in H; tauto).
  (* the values of every zipped pair *)
  assert (Hb : exists pairs, fu_blocks act value = Some (map (fun p => mkBlock (sl_sites (fst p)) (sl_encoding (fst p)) (snd p)) pairs) /\
     map fst pairs = firstn (length value) act /\
     forall k sl vals, nth_error pairs k = Some (sl, vals) -> exists d, nth_error value k = Some d /\
        length vals = length (sl_encoding sl) /\ forall p sp, nth_error (sl_species sl) p = Some sp -> nth_error vals p = sp_lookup sp d).
  { assert (Hin : incl act sls) by (intros x; auto). clearbody act. clear Hcomb Hact L. unfold fu_blocks.
    revert act Ok Hin. induction value as [|d value IH]; intros act Ok Hin; cbn [combine opt_map].
    - exists []. repeat split; auto. intros k ? ? Hk. destruct k; discriminate.
    - destruct act as [|sl act].
      + exists []. repeat split; auto. intros k ? ? Hk. destruct k; discriminate.
      + cbn [combine opt_map fst snd].
        assert (Hs : same_species (sl_species sl) (map fst d) = true) by (apply (Ok (sl, d)); simpl; auto).
        rewrite same_species_spec in Hs.
        destruct (@species_values_spec d sl) as (vals & Ev & Hl & Hv); [intros; apply Hs; auto|].
        rewrite Ev. cbn [option_bind].
        destruct (IH act) as (pairs & Ep & Em & Hp).
        { intros x Hx. apply Ok. simpl. auto. }
        { intros x Hx. apply Hin. simpl. auto. }
        rewrite Ep. exists ((sl, vals) :: pairs). split; [reflexivity|]. split; [simpl; congruence|].
        intros [|k] sl' vals' E; simpl in E.
        * injection E as <- <-. exists d. repeat split; auto. rewrite Hl. apply C. apply Hin. simpl. auto.
        * destruct (Hp k sl' vals' E) as (d' & B & D). exists d'. auto. }
  destruct Hb as (pairs & Eb & Em & Hp). rewrite Eb. cbn [option_bind]. intros Ht.
  destruct (@layout_table sls N 1%Qc pairs L) as (t' & Et & P & Q).
  - intros sl vals Hin. apply In_nth_error in Hin as (k & Hk). destruct (Hp k sl vals Hk) as (d & _ & B & _). split; auto.
    assert (Hi : In sl (map fst pairs)) by (apply in_map_iff; exists (sl, vals); split; auto; eapply nth_error_In; eauto).
    rewrite Em in Hi. apply Hact. rewrite <- (firstn_skipn (length value) act). apply in_or_app. auto.
  - rewrite Em. apply FOP_firstn, FOP_filter. eapply layout_disjoint; eauto.
  - rewrite Et in Ht. injection Ht as <-. split.
    + intros k sl d s c p sp Hk Hd Hs Hc Hsp.
      assert (Hsame : same_species (sl_species sl) (map fst d) = true) by (apply (Ok (sl, d)); eauto).
      rewrite same_species_spec in Hsame.
      destruct (@sp_lookup_defined sp d) as (v & Hv); [apply Hsame; eapply nth_error_In; eauto|].
      split; [|congruence].
      assert (Hin : nth_error (map fst pairs) k = Some sl).
      { rewrite Em. rewrite nth_error_firstn_lt; auto. apply nth_error_Some. congruence. }
      destruct (nth_error pairs k) as [[sl' vals]|] eqn:Ek.
      2:{ apply nth_error_None in Ek. rewrite <- (map_length fst) in Ek. apply nth_error_None in Ek. congruence. }
      rewrite (map_nth_error fst _ _ Ek) in Hin. simpl in Hin. injection Hin as ->.
      destruct (Hp k sl vals Ek) as (d' & B & Hl & Hvals).
      assert (d' = d) by congruence. subst d'.
      rewrite Hv. apply (P sl vals s p c v); auto; [eapply nth_error_In; eauto|]. rewrite <- Hv. apply Hvals. auto.
    + intros s c Hs Hc H. apply Q; auto. intros sl Hin. rewrite Em in Hin.
      apply In_nth_error in Hin as (k & Hk).
      assert (Hkl : k < length value).
      { assert (Hk2 : k < length (firstn (length value) act)) by (apply nth_error_Some; congruence). rewrite firstn_length in Hk2. lia. }
      rewrite nth_error_firstn_lt in Hk by auto. apply (H k); auto.
Qed.

(** Fugacity fractions that are all positive. *)
Definition positive_fractions (value : list (list (species * Qc))) :=
  forall d sp v, In d value -> In (sp, v) d -> (0 < v)%Qc.

Lemma fu_cell_positive sls N value t sl s c : layout sls N -> coded sls -> fu_table sls value = Some t ->
  positive_fractions value -> In sl sls -> In s (sl_sites sl) -> In c (sl_encoding sl) ->
  exists v, get_val t s c = Some v /\ (0 < v)%Qc.
Proof.
  intros L C Ht Hpos Hin Hs Hc. destruct (fu_table_spec L C Ht) as [P Q].
  apply In_nth_error in Hc as (p & Hp).
  assert (Hp2 : p < length (sl_species sl)) by (rewrite (C sl Hin); apply nth_error_Some; congruence).
  destruct (nth_error (sl_species sl) p) as [sp|] eqn:Esp; [|apply nth_error_None in Esp; lia].
  destruct (is_active sl) eqn:Ea.
  - assert (Hi : In sl (filter is_active sls)) by (apply filter_In; auto).
    apply In_nth_error in Hi as (k & Hk).
    destruct (nth_error value k) as [d|] eqn:Ed.
    + destruct (P k sl d s c p sp Hk Ed Hs Hp Esp) as [E N'].
      destruct (sp_lookup sp d) as [v|] eqn:Ev; [|congruence]. exists v. split; auto.
      apply (Hpos d sp v); [eapply nth_error_In; eauto|apply sp_lookup_In; auto].
    + exists 1%Qc. split; [|reflexivity]. apply Q.
      * apply (@layout_site_lt sls N sl s L Hin Hs).
      * eapply code_lt_cols; eauto. eapply nth_error_In; eauto.
      * intros k' sl' Hk' Hlt Hs'. apply nth_error_None in Ed.
        assert (F : sl_disjoint (filter is_active sls)) by (apply FOP_filter; eapply layout_disjoint; eauto).
        destruct (Nat.eq_dec k k') as [<-|Hne]; [lia|].
        assert (Hlt2 : k' < k) by lia.
        apply nth_error_split in Hk' as (l1 & l2 & E & Hl1).
        rewrite E in Hk, F. rewrite nth_error_app2 in Hk by lia.
        destruct (k - length l1) as [|j] eqn:Ej; [lia|]. simpl in Hk.
        assert (F2 : sl_disjoint (sl' :: l2)).
        { clear - F. induction l1; simpl in F; auto. inversion F; auto. }
        inversion F2 as [|? ? F3 _]; subst. rewrite Forall_forall in F3.
        apply (F3 sl (nth_error_In _ _ Hk) s); auto.
  - exists 1%Qc. split; [|reflexivity]. apply Q.
    + apply (@layout_site_lt sls N sl s L Hin Hs).
    + eapply code_lt_cols; eauto. eapply nth_error_In; eauto.
    + intros k' sl' Hk' _ Hs'. apply nth_error_In in Hk'. apply filter_In in Hk' as [Hin' Ha'].
      destruct (In_nth_error _ _ Hin) as (j & Hj). destruct (In_nth_error _ _ Hin') as (j' & Hj').
      assert (j = j') by (eapply layout_unique; eauto). congruence.
Qed.

Lemma log_opt_pos q : (0 < q)%Qc -> log_opt q = Some (ln (Qc2R q)).
Proof. intros H. unfold log_opt. destruct (Qcltb_spec 0 q); auto. contradiction. Qed.

Lemma fu_bias_eq t o : all_defined t o -> (forall s, s < length o -> (0 < val t s (code o s))%Qc) ->
  fu_bias t o = Some (rsum (map (fun s => ln (Qc2R (val t s (code o s)))) (seq 0 (length o)))).
Proof.
  intros Hd Hp. unfold fu_bias. rewrite site_values_eq by auto. cbn [option_bind].
  assert (E : opt_map log_opt (map (fun s => val t s (code o s)) (seq 0 (length o))) =
              Some (map (fun s => ln (Qc2R (val t s (code o s)))) (seq 0 (length o)))).
  { rewrite <- (map_map (fun s => val t s (code o s)) (fun q => ln (Qc2R q))). apply opt_map_map.
    intros q Hq. apply in_map_iff in Hq as (s & <- & Hs). apply in_seq in Hs. apply log_opt_pos. apply Hp. lia. }
  rewrite E. reflexivity.
Qed.

Lemma valid_defined sls N value t o : layout sls N -> coded sls -> fu_table sls value = Some t ->
  positive_fractions value -> valid_occu sls N o ->
  all_defined t o /\ (forall s, s < length o -> (0 < val t s (code o s))%Qc).
Proof.
  intros L C Ht Hpos [Vl V].
  assert (G : forall s c, nth_error o s = Some c -> exists v, get_val t s c = Some v /\ (0 < v)%Qc).
  { intros s c Hs. assert (Hlt : s < N) by (rewrite <- Vl; apply nth_error_Some; congruence).
    destruct (@layout_covers sls N s L Hlt) as (sl & Hin & Hsl).
    destruct (V sl s Hin Hsl) as (c' & Hc' & Hce). assert (c' = c) by congruence. subst c'.
    eapply fu_cell_positive; eauto. }
  split.
  - intros s c Hs. destruct (G s c Hs) as (v & E & _). congruence.
  - intros s Hs. destruct (nth_error o s) as [c|] eqn:Ec; [|apply nth_error_None in Ec; lia].
    destruct (G s c Ec) as (v & E & Hv). unfold val, code. rewrite (nth_error_nth _ _ _ Ec), E. auto.
Qed.

Theorem C19_fugacity_change : forall sls N value t o st,
  layout sls N -> coded sls -> fu_table sls value = Some t -> positive_fractions value ->
  valid_occu sls N o -> allowed_step sls st ->
  exists a b d, fu_bias t o = Some a /\ fu_bias t (apply_step o st) = Some b /\ fu_change t o st = Some d /\
    d = (b - a)%R.
Proof.
  intros sls N value t o st L C Ht Hpos V Hst.
  assert (V' : valid_occu sls N (apply_step o st)) by (eapply valid_step_occu; eauto).
  destruct (valid_defined L C Ht Hpos V) as [D P]. destruct (valid_defined L C Ht Hpos V') as [D' P'].
  destruct V as [Vl V]. destruct V' as [Vl' _].
  destruct (step_dict_spec st) as (Nd & Ap & Inc).
  exists (rsum (map (fun s => ln (Qc2R (val t s (code o s)))) (seq 0 (length o)))).
  exists (rsum (map (fun s => ln (Qc2R (val t s (code (apply_step o st) s)))) (seq 0 (length (apply_step o st))))).
  exists (rsum (map (fun f : nat * nat => ln (Qc2R (val t (fst f) (snd f))) - ln (Qc2R (val t (fst f) (code o (fst f)))))%R (step_dict st))).
  split; [apply fu_bias_eq; auto|]. split; [apply fu_bias_eq; auto|]. split.
  - unfold fu_change.
    rewrite (opt_map_map _ (fun f : nat * nat => ln (Qc2R (val t (fst f) (snd f))) - ln (Qc2R (val t (fst f) (code o (fst f)))))%R); [reflexivity|].
    intros [s c] Hf. cbn [fst snd]. apply Inc in Hf. destruct (Hst s c Hf) as (sl & Hin & Hs & Hc).
    destruct (fu_cell_positive L C Ht Hpos Hin Hs Hc) as (v & Ev & Hv). rewrite Ev. cbn [option_bind].
    destruct (V sl s Hin Hs) as (c0 & Ec0 & Hc0). rewrite Ec0. cbn [option_bind].
    destruct (fu_cell_positive L C Ht Hpos Hin Hs Hc0) as (v0 & Ev0 & Hv0). rewrite Ev0. cbn [option_bind].
    destruct (Qceqb_spec v0 0) as [->|_]; [exfalso; apply (Qclt_not_eq _ _ Hv0); auto|].
    assert (Hq : (0 < v / v0)%Qc).
    { apply Qcdiv_gt_iff; auto; replace (0 * v0)%Qc with 0%Qc by ring; auto. }
    rewrite log_opt_pos by auto. unfold val, code. rewrite Ev, (nth_error_nth _ _ _ Ec0), Ev0.
    f_equal. unfold Qcdiv. rewrite Qc2R_mult, Qc2R_inv by (intros ->; apply (Qclt_not_eq _ _ Hv0); auto).
    rewrite ln_mult, ln_Rinv; auto.
    + apply Qc2R_pos; auto.
    + apply Qc2R_pos; auto.
    + apply Rinv_0_lt_compat. apply Qc2R_pos; auto.
  - rewrite Vl', Vl. rewrite <- (Ap o).
    rewrite (@rsum_step (fun s c => ln (Qc2R (val t s c))) N (step_dict st) o Vl); auto.
    + lra.
    + intros f Hf. apply Inc in Hf. destruct f as [s c]. destruct (Hst s c Hf) as (sl & Hin & Hs & _).
      apply (@layout_site_lt sls N sl s L Hin Hs).
Qed.

(** The value: the logarithms of the fugacity fractions of the species present on the
    active sublattices. *)
Theorem C19_fugacity_value : forall sls N value t o (f : nat -> R),
  layout sls N -> coded sls -> fu_table sls value = Some t -> positive_fractions value ->
  length value = length (filter is_active sls) -> valid_occu sls N o ->
  (forall k sl d s sp v, nth_error (filter is_active sls) k = Some sl -> nth_error value k = Some d ->
     carries sl o s sp -> sp_lookup sp d = Some v -> f s = ln (Qc2R v)) ->
  (forall sl s, In sl sls -> is_active sl = false -> In s (sl_sites sl) -> f s = 0%R) ->
  fu_bias t o = Some (rsum (map f (seq 0 N))).
Proof.
  intros sls N value t o f L C Ht Hpos Hlen V Ha Hi.
  destruct (valid_defined L C Ht Hpos V) as [D P]. rewrite fu_bias_eq by auto. destruct V as [Vl V].
  rewrite Vl. f_equal. f_equal. apply map_ext_in. intros s Hs. apply in_seq in Hs.
  destruct (fu_table_spec L C Ht) as [T1 T2].
  destruct (@layout_covers sls N s L) as (sl & Hin & Hsl); [lia|].
  destruct (V sl s Hin Hsl) as (c & Ec & Hc). unfold val, code. rewrite (nth_error_nth _ _ _ Ec).
  destruct (is_active sl) eqn:Ea.
  - assert (Hk : In sl (filter is_active sls)) by (apply filter_In; auto). apply In_nth_error in Hk as (k & Hk).
    destruct (nth_error value k) as [d|] eqn:Ed.
    2:{ apply nth_error_None in Ed. assert (k < length (filter is_active sls)) by (apply nth_error_Some; congruence). lia. }
    apply In_nth_error in Hc as (p & Hp).
    assert (Hp2 : p < length (sl_species sl)) by (rewrite (C sl Hin); apply nth_error_Some; congruence).
    destruct (nth_error (sl_species sl) p) as [sp|] eqn:Esp; [|apply nth_error_None in Esp; lia].
    destruct (T1 k sl d s c p sp Hk Ed Hsl Hp Esp) as [E Nn]. rewrite E.
    destruct (sp_lookup sp d) as [v|] eqn:Ev; [|congruence].
    symmetry. eapply Ha; eauto. split; eauto.
  - rewrite T2; [|lia|eapply code_lt_cols; eauto|].
    + rewrite (Hi sl s Hin Ea Hsl). rewrite Qc2R_1. apply ln_1.
    + intros k' sl' Hk' _ Hs'. apply nth_error_In in Hk'. apply filter_In in Hk' as [Hin' Ha'].
      destruct (In_nth_error _ _ Hin) as (j & Hj). destruct (In_nth_error _ _ Hin') as (j' & Hj').
      assert (j = j') by (eapply layout_unique; eauto). congruence.
Qed.

Lemma index_of_nth l p c : NoDup l -> nth_error l p = Some c -> index_of c l = Some p.
Proof.
  revert p. induction l as [|x l IH]; intros p Hn Hp; [destruct p; discriminate|]. inversion Hn; subst.
  destruct p as [|p]; simpl in *.
  - injection Hp as ->. rewrite Nat.eqb_refl. auto.
  - destruct (Nat.eqb_spec x c) as [->|_]; [exfalso; eauto using nth_error_In|]. rewrite (IH p); auto.
Qed.

(** ** Charge *)
Theorem C19_charge_value : forall oxi sls N penalty o,
  layout sls N -> coded sls -> valid_occu sls N o ->
  exists t, charge_table oxi sls = Some t /\
    forall f : nat -> Qc,
      (forall sl s sp, In sl sls -> carries sl o s sp -> f s = oxi sp) ->
      let c := qsum (map f (seq 0 N)) in
      charge_bias penalty t o = Some (- penalty * (c * c))%Qc.
Proof.
  intros oxi sls N penalty o L C V. unfold charge_table. rewrite (layout_cols L), (layout_rows L). cbn [option_bind].
  destruct (@layout_table sls N 0%Qc (map (fun sl => (sl, map oxi (sl_species sl))) sls) L) as (t & Et & P & _).
  - intros sl vals Hin. apply in_map_iff in Hin as (sl' & E & Hin). injection E as <- <-. split; auto.
    rewrite map_length. apply C. auto.
  - rewrite map_map. simpl. rewrite map_id. eapply layout_disjoint; eauto.
  - rewrite map_map in Et. simpl in Et. exists t. split; auto. intros f Hf. simpl.
    destruct V as [Vl V].
    assert (G : forall s c, nth_error o s = Some c -> get_val t s c = Some (f s)).
    { intros s c Hs. assert (Hlt : s < N) by (rewrite <- Vl; apply nth_error_Some; congruence).
      destruct (@layout_covers sls N s L Hlt) as (sl & Hin & Hsl).
      destruct (V sl s Hin Hsl) as (c' & Hc' & Hce). assert (c' = c) by congruence. subst c'.
      apply In_nth_error in Hce as (p & Hp).
      assert (Hp2 : p < length (sl_species sl)) by (rewrite (C sl Hin); apply nth_error_Some; congruence).
      destruct (nth_error (sl_species sl) p) as [sp|] eqn:Esp; [|apply nth_error_None in Esp; lia].
      rewrite (Hf sl s sp Hin) by (split; eauto).
      apply (P sl (map oxi (sl_species sl)) s p c (oxi sp)); auto.
      - apply in_map_iff. eauto.
      - apply map_nth_error; auto. }
    unfold charge_bias. rewrite site_values_eq.
    + cbn [option_bind]. rewrite Vl.
      assert (E : map (fun s => val t s (code o s)) (seq 0 N) = map f (seq 0 N)).
      { apply map_ext_in. intros s Hs. apply in_seq in Hs.
        destruct (nth_error o s) as [c|] eqn:Ec; [|apply nth_error_None in Ec; lia].
        unfold val, code. rewrite (nth_error_nth _ _ _ Ec), (G s c Ec). auto. }
      rewrite E. reflexivity.
    + intros s c Hs. rewrite (G s c Hs). discriminate.
Qed.
Theorem C19_charge_change : forall oxi sls N penalty o st,
  layout sls N -> coded sls -> valid_occu sls N o -> allowed_step sls st ->
  exists t a b, charge_table oxi sls = Some t /\ charge_bias penalty t o = Some a /\
    charge_bias penalty t (apply_step o st) = Some b /\ charge_change penalty t o st = Some (b - a)%Qc.
Proof.
  intros oxi sls N penalty o st L C V Hst.
  assert (V' : valid_occu sls N (apply_step o st)) by (eapply valid_step_occu; eauto).
  assert (G : forall o, valid_occu sls N o -> exists t a, charge_table oxi sls = Some t /\ charge_bias penalty t o = Some a).
  { clear o V st Hst V'. intros o V. destruct (@C19_charge_value oxi sls N penalty o L C V) as (t & Et & H).
    pose (f := fun s => match find (fun sl => memb s (sl_sites sl)) sls with
      | Some sl => match nth_error o s with
                   | Some c => match index_of c (sl_encoding sl) with
                               | Some p => match nth_error (sl_species sl) p with Some sp => oxi sp | None => 0%Qc end
                               | None => 0%Qc end
                   | None => 0%Qc end
      | None => 0%Qc end).
    exists t. eexists. split; auto. apply (H f).
    intros sl s sp Hin [Hs (c & p & Ec & Ep & Esp)]. unfold f.
    destruct (find (fun sl => memb s (sl_sites sl)) sls) as [sl'|] eqn:Ef.
    - apply find_some in Ef as [Hin' Hm]. unfold memb in Hm. apply existsb_exists in Hm as (x & Hx & E). apply Nat.eqb_eq in E. subst x.
      destruct (In_nth_error _ _ Hin) as (j & Hj). destruct (In_nth_error _ _ Hin') as (j' & Hj').
      assert (j = j') by (eapply layout_unique; eauto). subst j'. assert (sl' = sl) by congruence. subst sl'.
      rewrite Ec. rewrite (@index_of_nth (sl_encoding sl) p c); auto.
      + rewrite Esp. auto.
      + apply (lay_codes L _ Hin).
    - exfalso. pose proof (find_none _ _ Ef sl Hin) as Hm. simpl in Hm. unfold memb in Hm.
      apply not_true_iff_false in Hm. apply Hm. apply existsb_exists. exists s. split; auto. apply Nat.eqb_refl. }
  destruct (G o V) as (t & a & Et & Ea). destruct (G _ V') as (t' & b & Et' & Eb).
  assert (t' = t) by congruence. subst t'.
  exists t, a, b. repeat split; auto. unfold charge_change, default_change. rewrite Eb. cbn [option_bind]. rewrite Ea. reflexivity.
Qed.
(** A penalty that is not positive is rejected; for an accepted one the charge bias is
    never positive and vanishes exactly for neutral occupancies. *)
Theorem C19_charge_sign : forall penalty t o v a,
  penalty_ok penalty = true -> site_values t o = Some v -> charge_bias penalty t o = Some a ->
  (a <= 0)%Qc /\ (a = 0%Qc <-> qsum v = 0%Qc).
Proof.
  intros penalty t o v a Hp Hv Ha. unfold charge_bias in Ha. rewrite Hv in Ha. cbn [option_bind] in Ha.
  assert (E : a = (- penalty * (qsum v * qsum v))%Qc) by congruence. clear Ha. subst a.
  unfold penalty_ok in Hp. destruct (Qcltb_spec 0 penalty) as [Hpos|]; [|discriminate].
  split.
  - assert (H : (0 <= qsum v * qsum v)%Qc) by qcnra. qcnra.
  - split; intros H.
    + destruct (Qc_eq_dec (qsum v) 0) as [|Hne]; auto. exfalso.
      assert (H2 : (penalty * (qsum v * qsum v))%Qc = 0%Qc) by (replace (penalty * (qsum v * qsum v))%Qc with (- (- penalty * (qsum v * qsum v)))%Qc by ring; rewrite H; ring).
      apply Qcmult_integral in H2 as [H2|H2]; [subst; apply (Qclt_not_eq _ _ Hpos); auto|].
      apply Qcmult_integral in H2. tauto.
    + rewrite H. ring.
Qed.

(** ** Hyperplanes *)
Theorem C19_hyperplane_value : forall penalty A b sls N o,
  layout sls N -> valid_occu sls N o -> Forall (fun row => length row = n_dims_of sls) A -> length A = length b ->
  exists t n, get_dim_ids_table sls false = Some t /\
    length n = n_dims_of sls /\
    (forall k sl p c, nth_error sls k = Some sl -> nth_error (sl_encoding sl) p = Some c ->
       nth_error n (dim_offset sls k + p) = Some (Z.of_nat (length (sites_carrying N (sl_sites sl) o c)))) /\
    hyperplane_bias penalty A b (n_dims_of sls) t o =
      Some (- penalty * Qc_of_Z (zsum (map (fun ab => let r := (dot (fst ab) n - snd ab)%Z in (r * r)%Z) (combine A b))))%Qc.
Proof.
  intros penalty A b sls N o L V HA Hb.
  destruct (@species_lists sls N false o L V) as (t & Li & n & Et & El & En & Hl & Em & Hsp & _).
  exists t, n. split; auto. split; [rewrite <- Em, map_length; auto|]. split.
  - intros k sl p c Hk Hp. rewrite <- Em. erewrite map_nth_error; [reflexivity|]. apply (Hsp k sl p c); auto.
  - unfold hyperplane_bias. rewrite En. cbn [option_bind].
    rewrite (proj2 (forallb_forall _ _)).
    + rewrite Hb, Nat.eqb_refl. reflexivity.
    + rewrite Forall_forall in HA. intros row Hr. apply Nat.eqb_eq. auto.
Qed.
Theorem C19_hyperplane_change : forall penalty A b sls N o st,
  layout sls N -> valid_occu sls N o -> Forall (fun row => length row = n_dims_of sls) A -> length A = length b ->
  allowed_step sls st ->
  exists t x y, get_dim_ids_table sls false = Some t /\
    hyperplane_bias penalty A b (n_dims_of sls) t o = Some x /\
    hyperplane_bias penalty A b (n_dims_of sls) t (apply_step o st) = Some y /\
    hyperplane_change penalty A b (n_dims_of sls) t o st = Some (y - x)%Qc.
Proof.
  intros penalty A b sls N o st L V HA Hb Hst.
  assert (V' : valid_occu sls N (apply_step o st)) by (eapply valid_step_occu; eauto).
  destruct (@C19_hyperplane_value penalty A b sls N o L V HA Hb) as (t & n & Et & _ & _ & E).
  destruct (@C19_hyperplane_value penalty A b sls N _ L V' HA Hb) as (t' & n' & Et' & _ & _ & E').
  assert (t' = t) by congruence. subst t'.
  exists t. eexists. eexists. split; auto. split; [exact E|]. split; [exact E'|].
  unfold hyperplane_change, default_change. rewrite E'. cbn [option_bind]. rewrite E. reflexivity.
Qed.

(** Fractions whose dictionaries do not list exactly the species of their sublattice, or do
    not sum to one, are rejected. *)
Theorem C19_fugacity_rejected : forall sls value k sl d,
  nth_error (filter is_active sls) k = Some sl -> nth_error value k = Some d ->
  (~ (forall sp, In sp (sl_species sl) <-> In sp (map fst d)) \/ qsum (map snd d) <> 1%Qc) ->
  fu_table sls value = None.
Proof.
  intros sls value k sl d Hk Hd H. unfold fu_table.
  destruct (fugacities_ok (filter is_active sls) value) eqn:Ok; auto. exfalso.
  unfold fugacities_ok in Ok. rewrite !andb_true_iff, !forallb_forall in Ok. destruct Ok as [[_ O2] O3].
  destruct H as [H|H].
  - apply H. apply same_species_spec. apply (O3 (sl, d)). clear - Hk Hd.
    revert value k Hk Hd. induction (filter is_active sls) as [|a l IH]; intros value k Hk Hd; [destruct k; discriminate|].
    destruct value as [|v value]; [destruct k; discriminate|]. destruct k as [|k]; simpl in *; [left; congruence|right; eauto].
  - specialize (O2 d (nth_error_In _ _ Hd)). destruct (Qceqb_spec (qsum (map snd d)) 1); auto; discriminate.
Qed.

(** Concrete instances on the layout of OccuUtilsProps: site 0 is flipped twice. *)
Definition ex_fractions : list (list (species * Qc)) :=
  [ [(Sp 0, Qc_frac 1 4); (Sp 1, Qc_frac 3 4)]; [(Sp 1, Qc_frac 1 3); (Sp 0, Qc_frac 2 3)] ].
Definition ex_bias_step : step := [(0, 0); (4, 2); (0, 1); (0, 0)].
Example ex_coded : coded ex_layout.
Proof. intros sl [<-|[<-|[]]]; reflexivity. Qed.
Example ex_bias_step_ok : allowed_step ex_layout ex_bias_step.
Proof.
  intros s c H. simpl in H. repeat (destruct H as [E|H]; [injection E as <- <-|]); try contradiction.
  1, 3, 4: exists (nth 0 ex_layout (mkSL [] [] [] [])); simpl; auto 10.
  exists (nth 1 ex_layout (mkSL [] [] [] [])); simpl; auto 10.
Qed.
Example ex_fractions_ok : (exists t, fu_table ex_layout ex_fractions = Some t) /\ positive_fractions ex_fractions.
Proof.
  split; [eexists; vm_compute; reflexivity|]. intros d sp v [<-|[<-|[]]] H; simpl in H;
  repeat (destruct H as [E|H]; [injection E as <- <-; reflexivity|]); contradiction.
Qed.
Example ex_fu_change : exists t, fu_table ex_layout ex_fractions = Some t /\
  match fu_change t ex_occu ex_bias_step with Some d => d = (ln (Qc2R (Qc_frac 1 3)) + (ln (Qc2R (Qc_frac 1 2)) + 0))%R | None => False end.
Proof.
  eexists. split; [vm_compute; reflexivity|]. unfold fu_change. cbn [step_dict fold_left ex_bias_step dict_put Nat.eqb fst snd opt_map].
  cbn [get_val nth_error option_bind ex_occu].
  repeat (unfold log_opt; match goal with |- context [Qceqb ?a 0] => change (Qceqb a 0) with false end).
  cbv iota. cbn [option_bind].
  repeat match goal with |- context [Qcltb 0 ?a] => change (Qcltb 0 a) with true end. cbv iota. cbn [option_bind rsum].
  match goal with |- (ln (Qc2R ?a) + (ln (Qc2R ?b) + 0))%R = _ =>
    assert (Ea : a = Qc_frac 1 3) by (apply Qc_is_canon; reflexivity);
    assert (Eb : b = Qc_frac 1 2) by (apply Qc_is_canon; reflexivity); rewrite Ea, Eb end.
  reflexivity.
Qed.
Definition ex_oxi (sp : species) : Qc := match sp with Sp 0 => Qc_of_nat 2 | _ => (- Qc_of_nat 1)%Qc end.
Example ex_charge : exists t, charge_table ex_oxi ex_layout = Some t /\
  charge_bias (Qc_frac 1 2) t ex_occu = Some (- Qc_of_nat 8)%Qc /\
  charge_change (Qc_frac 1 2) t ex_occu [(4, 2); (0, 0); (4, 0)] = Some (- Qc_frac 33 2)%Qc.
Proof. eexists. split; [vm_compute; reflexivity|]. split; vm_compute; f_equal; apply Qc_is_canon; reflexivity. Qed.
Example ex_hyperplane : exists t, get_dim_ids_table ex_layout false = Some t /\
  hyperplane_bias (Qc_of_nat 1) [[1; 0; 0; 0]; [0; 1; 0; -1]]%Z [1; 0]%Z 4 t ex_occu = Some (- Qc_of_nat 1)%Qc.
Proof. eexists. split; [vm_compute; reflexivity|]. vm_compute; f_equal; apply Qc_is_canon; reflexivity. Qed.

Print Assumptions C19_fugacity_change.
Print Assumptions C19_fugacity_value.
Print Assumptions C19_fugacity_rejected.
Print Assumptions C19_charge_value.
Print Assumptions C19_charge_change.
Print Assumptions C19_charge_sign.
Print Assumptions C19_hyperplane_value.
Print Assumptions C19_hyperplane_change.
