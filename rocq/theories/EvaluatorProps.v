(** Properties C26, C27, C32, C34 and C70. *)
From Verif Require Import LibProofs EvaluatorSpec EvaluatorProofs KernelProofs WangLandauProofs.
From Coq Require Import Lia Permutation.
Set Implicit Arguments.
Unset Strict Implicit.
Open Scope nat_scope.

(** ** C34: flat tensor indices *)
Lemma cumprod_app a l x : cumprod a (l ++ [x]) = cumprod a l ++ [a * nprod l * x].
Proof.
  revert a. induction l as [|y l IH]; intros a; simpl.
  - do 2 f_equal. unfold nprod. simpl. lia.
  - rewrite IH. do 3 f_equal. unfold nprod. simpl. ring.
Qed.
Lemma nprod_app a b : nprod (a ++ b) = nprod a * nprod b.
Proof. induction a as [|x a IH]; simpl; [lia|]. rewrite IH. lia. Qed.
Lemma nprod_rev l : nprod (rev l) = nprod l.
Proof. induction l as [|x l IH]; simpl; auto. rewrite nprod_app, IH. unfold nprod at 2. simpl. lia. Qed.
Lemma flat_tensor_indices_eq dims : dims <> [] -> flat_tensor_indices dims = strides_of dims.
Proof.
  destruct dims as [|d ds]; [congruence|]. intros _. unfold flat_tensor_indices. cbn [tl strides_of].
  revert d. induction ds as [|d' ds IH]; intros d; [reflexivity|].
  replace (rev ((d' :: ds) ++ [1])) with (rev (ds ++ [1]) ++ [d']) by (simpl; auto).
  rewrite cumprod_app, rev_app_distr. cbn [rev app]. rewrite (IH d'). cbn [strides_of]. f_equal.
  rewrite nprod_rev, nprod_app. unfold nprod at 2. simpl. unfold nprod. lia.
Qed.

Fixpoint index_of_codes (strides codes : list nat) : nat :=
  match strides, codes with t :: ts, c :: cs => t * c + index_of_codes ts cs | _, _ => 0 end.
Definition codes_below (dims codes : list nat) : Prop := Forall2 (fun d c => c < d) dims codes.
Lemma index_lt dims codes : codes_below dims codes -> index_of_codes (strides_of dims) codes < nprod dims.
Proof.
  induction 1 as [|d c ds cs H H2 IH]; cbn [strides_of index_of_codes]; [unfold nprod; simpl; lia|]. rewrite nprod_cons. nia.
Qed.
Lemma index_inj dims c1 c2 : codes_below dims c1 -> codes_below dims c2 ->
  index_of_codes (strides_of dims) c1 = index_of_codes (strides_of dims) c2 -> c1 = c2.
Proof.
  intros H. revert c2. induction H as [|d c ds cs H H2 IH]; intros c2 H' E; inversion H' as [|d' c' ds' cs' Hc Hcs]; subst; auto.
  cbn [strides_of index_of_codes] in E. pose proof (index_lt H2). pose proof (index_lt Hcs).
  assert (c = c') by nia. subst. f_equal. apply IH; auto. lia.
Qed.
Lemma index_surj dims i : i < nprod dims -> exists codes, codes_below dims codes /\ index_of_codes (strides_of dims) codes = i.
Proof.
  revert i. induction dims as [|d ds IH]; intros i Hi.
  - exists []. split; [constructor|]. unfold nprod in Hi. simpl in *. lia.
  - rewrite nprod_cons in Hi. destruct (IH (i mod nprod ds)) as (cs & H1 & H2).
    { apply Nat.mod_upper_bound. nia. }
    exists (i / nprod ds :: cs). split.
    + constructor; auto. apply Nat.div_lt_upper_bound; nia.
    + cbn [strides_of index_of_codes]. rewrite H2. rewrite (Nat.div_mod i (nprod ds)) at 3 by nia. auto.
Qed.
Lemma entry_index dims codes t : codes_below dims codes -> length t = nprod dims ->
  entry dims t codes = nth_error t (index_of_codes (strides_of dims) codes).
Proof.
  intros H. revert t. induction H as [|d c ds cs H H2 IH]; intros t L.
  - unfold nprod in L. simpl in *. destruct t as [|x [|y t]]; simpl in L; try lia; auto.
  - rewrite nprod_cons in L. cbn [entry strides_of index_of_codes]. rewrite (proj2 (Nat.ltb_lt c d)) by auto. rewrite L, Nat.eqb_refl. cbn [andb].
    rewrite IH.
    + pose proof (index_lt H2). rewrite nth_error_firstn_lt by auto. rewrite nth_error_skipn. f_equal. lia.
    + rewrite firstn_length, skipn_length. nia.
Qed.
(** The stride vector addresses, for every tensor shape, exactly the entry selected by the
    codes, within the flattened tensor, and each position belongs to exactly one combination of codes. *)
Theorem C34_entry dims codes t : dims <> [] -> codes_below dims codes -> length t = nprod dims ->
  index_of_codes (flat_tensor_indices dims) codes < length t /\
  nth_error t (index_of_codes (flat_tensor_indices dims) codes) = entry dims t codes.
Proof.
  intros Hd H L. rewrite flat_tensor_indices_eq by auto. split; [rewrite L; apply index_lt; auto|]. symmetry. apply entry_index; auto.
Qed.
Theorem C34_bijection dims i : dims <> [] -> i < nprod dims ->
  exists! codes, codes_below dims codes /\ index_of_codes (flat_tensor_indices dims) codes = i.
Proof.
  intros Hd H. rewrite flat_tensor_indices_eq by auto. destruct (index_surj H) as (cs & H1 & H2). exists cs. split; auto.
  intros cs' [H3 H4]. eapply index_inj; eauto. congruence.
Qed.
(** The index loop of the evaluator computes this index from the species codes of the cluster's sites. *)
Theorem C34_loop dims occu row codes : dims <> [] -> length row = length dims ->
  Forall2 (fun s c => nth_error occu s = Some c) row codes ->
  flat_index (flat_tensor_indices dims) occu row = Some (index_of_codes (flat_tensor_indices dims) codes).
Proof.
  intros Hd L H. rewrite flat_tensor_indices_eq by auto. clear Hd. revert dims L. induction H as [|s c row cs H H2 IH]; intros [|d ds] L; simpl in L; try discriminate; auto.
  cbn [flat_index strides_of index_of_codes]. rewrite H. cbn [option_bind]. rewrite IH by lia. auto.
Qed.
Example C34_case : flat_tensor_indices [2; 3; 4] = [12; 4; 1] /\ codes_below [2; 3; 4] [1; 2; 3] /\ index_of_codes [12; 4; 1] [1; 2; 3] = 23.
Proof. repeat split. repeat constructor. Qed.

(** ** Changes along flips *)
Lemma scale_sub P a b : length a = length b -> scale P (qvsub a b) = qvsub (scale P a) (scale P b).
Proof.
  unfold scale, qvsub, qmap2. revert b. induction a as [|x a IH]; intros [|y b] L; simpl in *; try discriminate; auto.
  f_equal; [ring|apply IH; lia].
Qed.
Lemma length_qvsub' a b : length (qvsub a b) = Nat.min (length a) (length b).
Proof. unfold qvsub, qmap2. rewrite map_length, combine_length. auto. Qed.
Lemma nth_qvsub' a b j : length a = length b -> nth j (qvsub a b) 0%Qc = (nth j a 0 - nth j b 0)%Qc.
Proof.
  unfold qvsub, qmap2. revert b j. induction a as [|x a IH]; intros [|y b] [|j] L; simpl in *; try discriminate; auto; try ring.
Qed.
Lemma nth_ext_Qc (a b : list Qc) : length a = length b -> (forall j, nth j a 0%Qc = nth j b 0%Qc) -> a = b.
Proof. intros L H. apply (nth_ext a b 0%Qc 0%Qc); auto. Qed.
Lemma set_site_ok sd N occu s c : codes_ok sd N occu -> s < N -> c < sd s ->
  set_site occu (s, c) = Some (upd occu s c) /\ codes_ok sd N (upd occu s c).
Proof.
  intros [L H] Hs Hc. unfold set_site. cbn [fst snd]. rewrite (proj2 (Nat.ltb_lt _ _)) by lia. split; auto. split; [rewrite length_upd; auto|].
  intros s' c' E. destruct (Nat.eq_dec s s') as [<-|Hn].
  - rewrite nth_error_upd_eq in E by lia. injection E as <-. auto.
  - rewrite nth_error_upd_neq in E by auto. apply H; auto.
Qed.

Lemma ce_loop sd N P occu flips acc : proc_ok sd N P -> codes_ok sd N occu -> flips_ok sd N P flips -> length acc = e_num_corr (p_eval P) ->
  codes_ok sd N (apply_step occu flips) /\
  exists r, ce_change_loop P occu flips acc = Some r /\ length r = e_num_corr (p_eval P) /\
    forall j, nth j r 0%Qc = (nth j acc 0 + (corr_at P (apply_step occu flips) j - corr_at P occu j))%Qc.
Proof.
  intros HP. revert occu acc. induction flips as [|[s c] flips IH]; intros occu acc HC HF La.
  - split; auto. exists acc. split; auto. split; auto. intros j. cbn [apply_step fold_left]. ring.
  - destruct (HF s c (or_introl eq_refl)) as (Hs & Hc & Hin).
    destruct (set_site_ok HC Hs Hc) as [E1 HC'].
    destruct (delta_corr_total HP Hin HC HC') as (d & Ed & Ld & Vd).
    cbn [ce_change_loop]. rewrite E1. cbn [option_bind fst snd].
    destruct (local_eval P s) as [L|]; [|discriminate]. cbn [option_bind] in *. rewrite Ed. cbn [option_bind].
    destruct (IH (upd occu s c) (qvadd acc d)) as (HC2 & r & Er & Lr & Vr); auto.
    + intros s' c' H'. apply HF. simpl; auto.
    + rewrite length_qvadd. lia.
    + unfold apply_step in *. cbn [fold_left fst snd]. split; auto. exists r. split; auto. split; auto. intros j. rewrite Vr, nth_qvadd by congruence. rewrite Vd. ring.
Qed.
Lemma cd_loop sd N P occu flips acc : proc_ok sd N P -> codes_ok sd N occu -> flips_ok sd N P flips -> length acc = e_num_orbits (p_eval P) ->
  codes_ok sd N (apply_step occu flips) /\
  exists r, cd_change_loop P occu flips acc = Some r /\ length r = e_num_orbits (p_eval P) /\
    forall j, nth j r 0%Qc = (nth j acc 0 + (inter_at P (apply_step occu flips) j - inter_at P occu j))%Qc.
Proof.
  intros HP. revert occu acc. induction flips as [|[s c] flips IH]; intros occu acc HC HF La.
  - split; auto. exists acc. split; auto. split; auto. intros j. cbn [apply_step fold_left]. ring.
  - destruct (HF s c (or_introl eq_refl)) as (Hs & Hc & Hin).
    destruct (set_site_ok HC Hs Hc) as [E1 HC'].
    destruct (delta_inter_total HP Hin HC HC') as (d & Ed & Ld & Vd).
    cbn [cd_change_loop]. rewrite E1. cbn [option_bind fst snd].
    destruct (local_eval P s) as [L|]; [|discriminate]. cbn [option_bind] in *. rewrite Ed. cbn [option_bind].
    destruct (IH (upd occu s c) (qvadd acc d)) as (HC2 & r & Er & Lr & Vr); auto.
    + intros s' c' H'. apply HF. simpl; auto.
    + rewrite length_qvadd. lia.
    + unfold apply_step in *. cbn [fold_left fst snd]. split; auto. exists r. split; auto. split; auto. intros j. rewrite Vr, nth_qvadd by congruence. rewrite Vd. ring.
Qed.

(** ** C26 *)
Theorem C26_change sd N P occu flips : proc_ok sd N P -> codes_ok sd N occu -> flips_ok sd N P flips ->
  exists before after, ce_features P occu = Some before /\ ce_features P (apply_step occu flips) = Some after /\
    ce_change P occu flips = Some (qvsub after before).
Proof.
  intros HP HC HF.
  destruct (@ce_loop sd N P occu flips (repeat (Q2Qc 0) (e_num_corr (p_eval P))) HP HC HF (repeat_length _ _)) as (HC' & r & Er & Lr & Vr).
  destruct (correlations_total HP HC) as (v & Ev & Lv & Vv). destruct (correlations_total HP HC') as (v' & Ev' & Lv' & Vv').
  unfold ce_features, ce_change. rewrite Ev, Ev', Er. cbn [option_bind]. do 2 eexists. split; [reflexivity|]. split; [reflexivity|].
  f_equal. rewrite <- scale_sub by congruence. f_equal. apply nth_ext_Qc.
  - rewrite length_qvsub'. lia.
  - intros j. rewrite Vr, nth_qvsub', Vv, Vv', nth_zeros by congruence. ring.
Qed.
(** ** C27 *)
Theorem C27_change sd N P occu flips : proc_ok sd N P -> codes_ok sd N occu -> flips_ok sd N P flips ->
  exists before after, cd_features P occu = Some before /\ cd_features P (apply_step occu flips) = Some after /\
    cd_change P occu flips = Some (qvsub after before).
Proof.
  intros HP HC HF.
  destruct (@cd_loop sd N P occu flips (repeat (Q2Qc 0) (e_num_orbits (p_eval P))) HP HC HF (repeat_length _ _)) as (HC' & r & Er & Lr & Vr).
  destruct (interactions_total HP HC) as (v & Ev & Lv & Vv). destruct (interactions_total HP HC') as (v' & Ev' & Lv' & Vv').
  unfold cd_features, cd_change. rewrite Ev, Ev', Er. cbn [option_bind]. do 2 eexists. split; [reflexivity|]. split; [reflexivity|].
  f_equal. rewrite <- scale_sub by congruence. f_equal. apply nth_ext_Qc.
  - rewrite length_qvsub'. lia.
  - intros j. rewrite Vr, nth_qvsub', Vv, Vv', nth_zeros by congruence. ring.
Qed.

(** The entries of the feature vector: the size for the empty cluster, and for every correlation
    function the size times the average over the orbit's clusters of the tensor
    entry selected by the species codes of the cluster. *)
Lemma qsum_single {A} (l : list A) (f : A -> Qc) n x : nth_error l n = Some x -> (forall m y, nth_error l m = Some y -> m <> n -> f y = 0%Qc) ->
  qsum (map f l) = f x.
Proof.
  revert n. induction l as [|a l IH]; intros [|n] Hx Hz; simpl in Hx; try discriminate.
  - injection Hx as ->. simpl. unfold qsum. simpl. fold (qsum (map f l)). rewrite qsum_map_0; [ring|].
    intros y Hy. apply In_nth_error in Hy as (m & Hm). apply (Hz (S m)); auto.
  - simpl. unfold qsum. simpl. fold (qsum (map f l)). rewrite (IH n) by (auto; intros m y Hm Hne; apply (Hz (S m)); auto).
    rewrite (Hz 0 a) by auto. ring.
Qed.
Lemma NoDup_flat_nth {A B} (f : A -> list B) l n m x y z : NoDup (flat_map f l) -> nth_error l n = Some x -> nth_error l m = Some y ->
  In z (f x) -> In z (f y) -> n = m.
Proof.
  revert n m. induction l as [|a l IH]; intros [|n] [|m] Hn Hx Hy Hz1 Hz2; simpl in *; try discriminate; auto.
  - injection Hx as ->. exfalso. apply (@NoDup_app_disj _ _ _ z Hn Hz1). apply in_flat_map. exists y. split; auto. eapply nth_error_In; eauto.
  - injection Hy as ->. exfalso. apply (@NoDup_app_disj _ _ _ z Hn Hz2). apply in_flat_map. exists x. split; auto. eapply nth_error_In; eauto.
  - f_equal. apply NoDup_app_remove_l in Hn. eapply IH; eauto.
Qed.
Lemma nth_concat_block (ts : list (list Qc)) d k i : (forall t, In t ts -> length t = d) -> i < d -> k < length ts ->
  nth (k * d + i) (concat ts) 0%Qc = nth i (nth k ts []) 0%Qc.
Proof.
  revert k. induction ts as [|t ts IH]; intros k H Hi Hk; simpl in *; [lia|].
  destruct k as [|k].
  - simpl. apply app_nth1. rewrite (H t); auto.
  - simpl. rewrite app_nth2 by (rewrite (H t) by auto; lia). rewrite (H t) by auto.
    replace (d + k * d + i - d) with (k * d + i) by lia. apply IH; auto; try lia.
Qed.
Lemma fidx_codes strides occu row : fidx strides occu row = index_of_codes strides (map (fun s => nth s occu 0) row).
Proof. revert strides. induction row as [|s row IH]; intros [|t strides]; simpl; auto. Qed.
Theorem C26_value sd N P occu n o rows k t dims : proc_ok sd N P -> codes_ok sd N occu ->
  nth_error (e_orbits (p_eval P)) n = Some o -> nth_error (p_tables P) n = Some rows -> nth_error (o_tensors o) k = Some t ->
  (forall row, In row rows -> map sd row = dims) ->
  exists v xs, ce_features P occu = Some v /\ length v = e_num_corr (p_eval P) /\ nth_error v 0 = Some (Qc_of_nat (p_size P)) /\
    opt_map (fun row => entry dims t (map (fun s => nth s occu 0) row)) rows = Some xs /\
    nth_error v (o_bit o + k) = Some (qsum xs / Qc_of_nat (length rows) * Qc_of_nat (p_size P))%Qc.
Proof.
  intros HP HC Ho Hr Ht Hd. destruct (correlations_total HP HC) as (v & Ev & Lv & Vv).
  assert (Hk : k < o_rows o) by (unfold o_rows; apply nth_error_Some; congruence).
  destruct (@nth_error_lt _ (e_inter (p_eval P)) n) as [it Hi].
  { rewrite (ok_inter HP). apply nth_error_Some. congruence. }
  destruct (ok_orbits HP _ Ho Hi Hr) as (dims' & Es & Hts & Hit & Hrows & HR).
  assert (Ed : dims' = dims).
  { destruct rows as [|row rows]; [congruence|]. destruct (HR row (or_introl eq_refl)) as [E _]. rewrite <- E. apply Hd. simpl; auto. }
  subst dims'.
  pose proof (@ok_bits_in _ _ _ HP o k (nth_error_In _ _ Ho) Hk) as Hb.
  unfold ce_features. rewrite Ev. cbn [option_bind].
  assert (Hq : nth_error (odata P) n = Some (o, it, rows)).
  { unfold odata. revert Ho Hi Hr. generalize (e_orbits (p_eval P)) as os, (e_inter (p_eval P)) as is, (p_tables P) as ts. clear.
    induction n as [|n IH]; intros [|o' os] [|i' is] [|t' ts]; simpl; try discriminate; try congruence. apply IH. }
  assert (Hent : forall row, In row rows -> entry dims t (map (fun s => nth s occu 0) row) = Some (nth (index_of_codes (strides_of dims) (map (fun s => nth s occu 0) row)) t 0%Qc)).
  { intros row Hrow. destruct (HR _ Hrow) as [E HN].
    assert (Hcb : codes_below dims (map (fun s => nth s occu 0) row)).
    { rewrite <- E. clear - HC HN. unfold codes_below. induction row as [|s row IH]; simpl; constructor.
      - destruct HC as [L H]. destruct (@nth_error_lt _ occu s) as [c Hc]; [rewrite L; apply HN; simpl; auto|].
        rewrite (nth_error_nth _ _ _ Hc). apply H; auto.
      - apply IH. intros; apply HN; simpl; auto. }
    rewrite entry_index; auto; [|apply Hts; eapply nth_error_In; eauto]. apply nth_error_nth'. rewrite (Hts t) by (eapply nth_error_In; eauto). apply index_lt; auto. }
  exists (scale P v), (map (fun row => nth (index_of_codes (strides_of dims) (map (fun s => nth s occu 0) row)) t 0%Qc) rows).
  split; auto. split; [unfold scale; rewrite map_length; auto|].
  assert (Hn : forall j, j < e_num_corr (p_eval P) -> nth_error (scale P v) j = Some (corr_at P occu j * Qc_of_nat (p_size P))%Qc).
  { intros j Hj. unfold scale. rewrite nth_error_map, (nth_error_nth' v 0%Qc) by lia. cbn [option_map]. rewrite Vv. auto. }
  split; [|split].
  - rewrite Hn by lia. unfold corr_at. cbn [Nat.eqb]. rewrite qsum_map_0; [f_equal; ring|].
    intros q Hq'. apply contrib_out. unfold cw. rewrite slots_seq. intros H0. apply in_seq in H0.
    assert (Hqo : In (fst (fst q)) (e_orbits (p_eval P))) by (rewrite <- (odata_orbits HP); apply (in_map (fun q => fst (fst q))); auto).
    destruct (o_rows (fst (fst q))) as [|m] eqn:Em; [lia|].
    pose proof (@ok_bits_in _ _ _ HP _ 0 Hqo) as H1. lia.
  - apply opt_map_map. auto.
  - rewrite Hn by lia. do 2 f_equal. unfold corr_at. destruct (Nat.eqb_spec (o_bit o + k) 0); [lia|].
    rewrite (qsum_single Hq).
    + unfold contrib, cw. rewrite map_map. cbn [fst snd].
      rewrite (@qsum_single _ (seq 0 (o_rows o)) _ k k).
      * rewrite Nat.eqb_refl. unfold tmean. rewrite (cols_eq Hts) by lia. unfold csum. rewrite Qcplus_0_l. f_equal. apply f_equal.
        apply map_ext_in. intros row Hrow. rewrite Es, <- fidx_codes. destruct (HR _ Hrow) as [E HN].
        destruct (flat_index_total HC E HN) as [_ B]. rewrite (@nth_concat_block _ (nprod dims)); auto.
        f_equal. apply nth_error_nth; auto.
      * rewrite nth_error_seq. rewrite (proj2 (Nat.ltb_lt _ _)) by auto. auto.
      * intros m y Hm Hne. rewrite nth_error_seq in Hm. destruct (m <? o_rows o); [|discriminate]. injection Hm as <-.
        destruct (Nat.eqb_spec (o_bit o + m) (o_bit o + k)); [lia|auto].
    + intros m q' Hm Hne. apply contrib_out. unfold cw. rewrite slots_seq. intros Hin. apply Hne.
      pose proof (ok_bits HP) as Hnd. rewrite <- (odata_orbits HP), flat_map_concat_map, map_map, <- flat_map_concat_map in Hnd.
      eapply (NoDup_flat_nth Hnd); eauto. cbn [fst]. apply in_seq. lia.
Qed.

(** ** C32: parallel evaluation *)
Lemma parallel_iff out work r : (forall w, work = Some w -> NoDup (map fst (concat w))) ->
  (parallel_result out work r <-> run_work out work = Some r).
Proof.
  intros Hn. unfold parallel_result, run_work. split.
  - intros (o & w & ws & -> & -> & Hi & E). cbn [option_bind]. apply interleaved_perm in Hi.
    apply (@write_all_perm o ws); auto; [|apply Permutation_sym; auto].
    apply (Permutation_NoDup (Permutation_map fst Hi)). auto.
  - destruct out as [o|]; [|discriminate]. destruct work as [w|]; [|discriminate]. cbn [option_bind]. intros E.
    exists o, w, (concat w). repeat split; auto. apply interleaved_concat.
Qed.
Lemma opt_map_fst {A} (f : A -> option (nat * Qc)) (g : A -> nat) l ys : (forall x y, f x = Some y -> fst y = g x) ->
  opt_map f l = Some ys -> map fst ys = map g l.
Proof.
  intros H. revert ys. induction l as [|a l IH]; intros ys E; simpl in E; [injection E as <-; auto|].
  destruct (f a) as [y|] eqn:Ey; [|discriminate]. destruct (opt_map f l) as [zs|]; [|discriminate]. injection E as <-.
  simpl. rewrite (H _ _ Ey), (IH zs); auto.
Qed.
Lemma seq_shift_map b n : map (fun k => b + k) (seq 0 n) = seq b n.
Proof.
  assert (H : forall m, map (fun k => b + k) (seq m n) = seq (b + m) n).
  { induction n as [|n IH]; intros m; simpl; auto. rewrite IH. do 2 f_equal. lia. }
  rewrite H, Nat.add_0_r. auto.
Qed.
Ltac opt_inv H := match type of H with
  | option_bind ?e _ = Some _ => let E := fresh "E" in destruct e eqn:E; [cbn [option_bind] in H|discriminate]
  end.
Lemma corr_slots occu o rows ws : corr_writes occu o rows = Some ws -> map fst ws = seq (o_bit o) (o_rows o).
Proof.
  intros H. rewrite <- seq_shift_map. eapply opt_map_fst; [|exact H]. intros k y Hy. cbn beta in Hy. repeat opt_inv Hy. injection Hy as <-. auto.
Qed.
Lemma dcorr_slots of oi r o rows ws : dcorr_writes of oi r o rows = Some ws -> map fst ws = seq (o_bit o) (o_rows o).
Proof.
  intros H. rewrite <- seq_shift_map. eapply opt_map_fst; [|exact H]. intros k y Hy. cbn beta in Hy. repeat opt_inv Hy. injection Hy as <-. auto.
Qed.
Lemma dist_slots occu ref o rows ws : dist_writes occu ref o rows = Some ws -> map fst ws = seq (o_bit o) (o_rows o).
Proof.
  intros H. unfold dist_writes in H. opt_inv H. rewrite <- (corr_slots E).
  rewrite (opt_map_fst (g := fst) (l := l)) with (2 := H); auto. intros x y Hy. cbn beta in Hy. repeat opt_inv Hy. injection Hy as <-. auto.
Qed.
Lemma zip_slots {A B} (f : A -> B -> option (list (nat * Qc))) (g : A -> list nat) os ts w :
  (forall o t ws, f o t = Some ws -> map fst ws = g o) -> zip_orbits f os ts = Some w -> map fst (concat w) = flat_map g os.
Proof.
  intros H. unfold zip_orbits. destruct (Nat.leb_spec (length os) (length ts)) as [L|]; [|discriminate].
  revert ts w L. induction os as [|o os IH]; intros [|t ts] w L E; simpl in *; try lia; try (injection E as <-; auto; fail).
  destruct (f o t) as [x|] eqn:Ex; [|discriminate].
  destruct (opt_map _ (combine os ts)) as [y|] eqn:Ey; [|discriminate]. injection E as <-.
  simpl. rewrite map_app, (H _ _ _ Ex), (IH ts); auto. lia.
Qed.
(** Every execution of the parallel loops gives the sequential result (and conversely), for every number
    of threads and schedule, whenever the orbits have distinct slots. *)
Theorem C32_correlations ev occu ref ts r : NoDup (flat_map (fun o => seq (o_bit o) (o_rows o)) (e_orbits ev)) ->
  (parallel_result (init_out (e_num_corr ev) 1%Qc) (corr_work ev occu ts) r <-> correlations ev occu ts = Some r) /\
  (parallel_result (init_out (e_num_corr ev) 0%Qc) (dist_work ev occu ref ts) r <-> corr_distances ev occu ref ts = Some r).
Proof.
  intros Hn. split; apply parallel_iff; intros w Hw.
  - rewrite (zip_slots (g := fun o => seq (o_bit o) (o_rows o))) with (2 := Hw); auto. intros; eapply corr_slots; eauto.
  - rewrite (zip_slots (g := fun o => seq (o_bit o) (o_rows o))) with (2 := Hw); auto. intros; eapply dist_slots; eauto.
Qed.
Theorem C32_interactions ev occu ts r : length (e_inter ev) = length (e_orbits ev) -> NoDup (map o_id (e_orbits ev)) ->
  (parallel_result (init_out (e_num_orbits ev) (e_offset ev)) (inter_work ev occu ts) r <-> interactions ev occu ts = Some r).
Proof.
  intros HL Hn. apply parallel_iff; intros w Hw.
  rewrite (zip_slots (g := fun oi => [o_id (fst oi)])) with (2 := Hw).
  - replace (flat_map _ _) with (map o_id (e_orbits ev)); auto. revert HL. generalize (e_inter ev). clear. induction (e_orbits ev) as [|o os IH]; intros [|i is] L; simpl in *; try discriminate; auto.
    f_equal. apply IH. lia.
  - intros o t ws H. unfold inter_writes in H. repeat opt_inv H. injection H as <-. auto.
Qed.
Theorem C32_changes ev of oi rs ts r : length (e_inter ev) = length (e_orbits ev) -> length rs = length (e_orbits ev) ->
  NoDup (flat_map (fun o => seq (o_bit o) (o_rows o)) (e_orbits ev)) -> NoDup (map o_id (e_orbits ev)) ->
  (parallel_result (Some (repeat (Q2Qc 0) (e_num_corr ev))) (dcorr_work ev of oi rs ts) r <-> delta_correlations ev of oi rs ts = Some r) /\
  (parallel_result (Some (repeat (Q2Qc 0) (e_num_orbits ev))) (dinter_work ev of oi rs ts) r <-> delta_interactions ev of oi rs ts = Some r).
Proof.
  intros HL HR Hn Hid. split; apply parallel_iff; intros w Hw.
  - rewrite (zip_slots (g := fun orr => seq (o_bit (fst orr)) (o_rows (fst orr)))) with (2 := Hw).
    + replace (flat_map _ (combine _ _)) with (flat_map (fun o => seq (o_bit o) (o_rows o)) (e_orbits ev)); auto.
      clear - HR. revert rs HR. induction (e_orbits ev) as [|o os IH]; intros [|i is] L; simpl in *; try discriminate; auto.
      f_equal. apply IH. lia.
    + intros o t ws H. eapply dcorr_slots; eauto.
  - rewrite (zip_slots (g := fun oir => [o_id (fst (fst oir))])) with (2 := Hw).
    + replace (flat_map _ _) with (map o_id (e_orbits ev)); auto. clear - HL HR. revert rs HR HL. generalize (e_inter ev).
      induction (e_orbits ev) as [|o os IH]; intros [|i is] [|x rs] L1 L2; simpl in *; try discriminate; auto.
      f_equal. apply IH; lia.
    + intros o t ws H. unfold dinter_writes in H. repeat opt_inv H. injection H as <-. auto.
Qed.

(** ** C70: sites without clusters *)
Theorem C70_no_cluster_refuted sd N P occu s c flips : proc_ok sd N P -> codes_ok sd N occu -> s < N -> c < sd s -> ~ in_cluster P s ->
  (exists v, ce_features P occu = Some v /\ ce_features P (upd occu s c) = Some v) /\
  ce_change P occu ((s, c) :: flips) = None /\ cd_change P occu ((s, c) :: flips) = None.
Proof.
  intros HP HC Hs Hc Hno. destruct (set_site_ok HC Hs Hc) as [E1 HC'].
  assert (El : local_eval P s = None) by (apply local_eval_none with (sd := sd) (N := N); auto).
  split; [|split].
  - destruct (correlations_total HP HC) as (v & Ev & Lv & Vv). destruct (correlations_total HP HC') as (v' & Ev' & Lv' & Vv').
    unfold ce_features. rewrite Ev, Ev'. cbn [option_bind]. exists (scale P v). split; auto. f_equal. f_equal. symmetry. apply nth_ext_Qc; [congruence|].
    intros j. rewrite Vv, Vv'. unfold corr_at. f_equal. apply qsum_map_ext. intros q Hq. f_equal.
    symmetry. apply cw_same. unfold touches. apply negb_false_iff, Nat.eqb_eq.
    destruct (filter (has_site s) (snd q)) as [|row rows] eqn:Ef; auto. exfalso. apply Hno.
    assert (Hr : In row (filter (has_site s) (snd q))) by (rewrite Ef; simpl; auto). apply filter_In in Hr as [Hr Hss].
    apply existsb_exists in Hss as (y & Hy & Ey). apply Nat.eqb_eq in Ey. subst y. exists (snd q), row. split; auto.
    rewrite <- (odata_tables HP). apply in_map; auto.
  - unfold ce_change. cbn [ce_change_loop]. rewrite E1. cbn [option_bind fst]. rewrite El. auto.
  - unfold cd_change. cbn [cd_change_loop]. rewrite E1. cbn [option_bind fst]. rewrite El. auto.
Qed.

(** ** A concrete processor *)
(** Three binary sites: a point orbit on sites 0 and 1, a pair orbit with two functions on their two pairs,
    and site 2 in no cluster. *)
Definition ex_q (z : Z) : Qc := Qc_of_Z z.
Definition ex_point : orbit := mkOrbit 1 1 [[ex_q (-1); ex_q 1]] [1].
Definition ex_pair : orbit := mkOrbit 2 2 [[ex_q 1; ex_q (-1); ex_q (-1); ex_q 1]; [ex_q 0; ex_q 2; ex_q 3; ex_q 5]] [2; 1].
Definition ex_eval : evaluator := mkEval [ex_point; ex_pair] 3 4 (ex_q 7) [[ex_q 1; ex_q 4]; [ex_q 0; ex_q 1; ex_q 2; ex_q 9]].
Definition ex_proc : proc := mkProc 2 ex_eval [[[0]; [1]]; [[0; 1]; [1; 0]]].
Definition ex_sd (s : nat) : nat := 2.
Ltac ex_in H := simpl in H; repeat (destruct H as [<-|H]); try contradiction.
Example ex_proc_ok : proc_ok ex_sd 3 ex_proc.
Proof.
  constructor; try reflexivity; simpl.
  - intros [|[|[|n]]] o i rows; simpl; try discriminate; intros [= <-] [= <-] [= <-].
    + exists [2]. split; [reflexivity|]. split; [intros t H; ex_in H; reflexivity|]. split; [reflexivity|]. split; [congruence|].
      intros row H; ex_in H; (split; [reflexivity|]); intros s H'; ex_in H'; lia.
    + exists [2; 2]. split; [reflexivity|]. split; [intros t H; ex_in H; reflexivity|]. split; [reflexivity|]. split; [congruence|].
      intros row H; ex_in H; (split; [reflexivity|]); intros s H'; ex_in H'; lia.
  - repeat (constructor; simpl; [intuition lia|]). constructor.
  - intros o k [<-|[<-|[]]]; unfold o_rows; simpl; lia.
  - repeat (constructor; simpl; [intuition lia|]). constructor.
  - intros o [<-|[<-|[]]]; simpl; lia.
  - lia.
Qed.
Example ex_codes_ok : codes_ok ex_sd 3 [0; 1; 1].
Proof. split; auto. intros [|[|[|[|s]]]] c E; simpl in E; try discriminate; injection E as <-; unfold ex_sd; lia. Qed.
Example ex_flips_ok : flips_ok ex_sd 3 ex_proc [(0, 1); (1, 0); (0, 0)].
Proof.
  intros s c [E|[E|[E|[]]]]; injection E as <- <-; unfold ex_sd; repeat split; try lia; exists [[0]; [1]]; simpl; [exists [0]|exists [1]|exists [0]]; simpl; auto.
Qed.
Example ex_not_in : ~ in_cluster ex_proc 2.
Proof. intros (rows & row & H1 & H2 & H3). ex_in H1; ex_in H2; simpl in H3; intuition lia. Qed.
Example C26_change_case : exists v d, ce_features ex_proc [0; 1; 1] = Some v /\ ce_change ex_proc [0; 1; 1] [(0, 1)] = Some d /\
  map this v = map this [ex_q 2; ex_q 0; ex_q (-2); ex_q 5] /\ map this d = map this [ex_q 0; ex_q 2; ex_q 4; ex_q 5].
Proof. vm_compute. eexists _, _. repeat split; reflexivity. Qed.
Example C70_case : ce_change ex_proc [0; 1; 1] [(2, 0)] = None /\ ce_features ex_proc [0; 1; 1] = ce_features ex_proc [0; 1; 0].
Proof. split; reflexivity. Qed.
Example C32_case : exists r, parallel_result (init_out 4 1%Qc) (corr_work ex_eval [0; 1; 1] (p_tables ex_proc)) r.
Proof.
  destruct (correlations_total ex_proc_ok ex_codes_ok) as (v & E & _). exists v.
  apply (C32_correlations (ev := ex_eval) [0; 1; 1] [] (p_tables ex_proc) v); auto. apply (ok_bits ex_proc_ok).
Qed.

Print Assumptions C34_entry.
Print Assumptions C34_bijection.
Print Assumptions C34_loop.
Print Assumptions C26_change.
Print Assumptions C26_value.
Print Assumptions C27_change.
Print Assumptions C32_correlations.
Print Assumptions C32_interactions.
Print Assumptions C32_changes.
Print Assumptions C70_no_cluster_refuted.
