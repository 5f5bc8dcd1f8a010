(** Property C55: distances to a target vector. *)
From Verif Require Import Distance LibProofs EvaluatorSpec EvaluatorProofs EvaluatorProps SubspaceSpec SubspaceProofs TensorProofs ExpansionProps.
From Coq Require Import Lia Sorted Permutation.
Set Implicit Arguments.
Unset Strict Implicit.
Open Scope nat_scope.

(** ** Specification *)
(** A processor and a target vector that fit: every feature after the first belongs to an orbit. *)
Record dist_ok (sd : nat -> nat) (N : nat) (D : dproc) : Prop := {
  do_proc : proc_ok sd N (d_proc D);
  do_size : 0 < p_size (d_proc D);
  do_target : length (d_target D) = (if d_inter D then e_num_orbits else e_num_corr) (p_eval (d_proc D));
  do_cover : forall j, 0 < j < length (d_target D) -> exists o, In o (e_orbits (p_eval (d_proc D))) /\
    if d_inter D then j = o_id o else o_bit o <= j < o_bit o + o_rows o;
  do_diams : length (d_diams D) = length (e_orbits (p_eval (d_proc D)));
  do_coefs : length (d_coefs D) = length (d_target D)
}.
(** All features of orbits up to a diameter match. *)
Definition matched (D : dproc) (dv : list Qc) (d : Qc) : Prop :=
  forall d' ids i x, In (d', ids) (d_positions D) -> (d' <= d)%Qc -> In i ids -> nth_error dv i = Some x -> (x <= d_tol D)%Qc.
(** The largest diameter of an orbit up to which all features match, 0 if there is none. *)
Definition max_matched (D : dproc) (dv : list Qc) (L : Qc) : Prop :=
  (exists ids, In (L, ids) (d_positions D) /\ matched D dv L /\ forall d ids', In (d, ids') (d_positions D) -> matched D dv d -> (d <= L)%Qc) \/
  (L = 0%Qc /\ forall d ids, In (d, ids) (d_positions D) -> ~ matched D dv d).
(** Flips of sites to allowed species; the sites need not belong to clusters. *)
Definition flips_in (sd : nat -> nat) (N : nat) (flips : step) : Prop := forall s c, In (s, c) flips -> s < N /\ c < sd s.

(** ** Writes *)
Lemma write_all_keep ws : forall out r, write_all out ws = Some r -> length r = length out /\ forall j, ~ In j (map fst ws) -> nth_error r j = nth_error out j.
Proof.
  induction ws as [|[i x] ws IH]; intros out r H; simpl in H; [injection H as <-; auto|].
  destruct (Nat.ltb_spec i (length out)) as [Hi|]; [|discriminate]. destruct (IH _ _ H) as [L K]. rewrite length_upd in L. split; auto.
  intros j Hj. simpl in Hj. rewrite K by tauto. apply nth_error_upd_neq. intros E. apply Hj. auto.
Qed.
Lemma write_all_in ws : forall out r j x, write_all out ws = Some r -> NoDup (map fst ws) -> In (j, x) ws -> nth_error r j = Some x.
Proof.
  induction ws as [|[i y] ws IH]; intros out r j x H Hnd Hin; simpl in *; [contradiction|].
  destruct (Nat.ltb_spec i (length out)) as [Hi|]; [|discriminate]. apply NoDup_cons_iff in Hnd as [Hn Hnd].
  destruct Hin as [[= -> ->]|Hin]; [|eauto]. destruct (write_all_keep H) as [_ K]. rewrite (K j Hn). apply nth_error_upd_eq; auto.
Qed.
Lemma write_all_some ws : forall out, (forall i x, In (i, x) ws -> i < length out) -> exists r, write_all out ws = Some r.
Proof.
  induction ws as [|[i x] ws IH]; intros out H; simpl; [eauto|]. assert (Hi : i < length out) by (eapply H; left; reflexivity).
  destruct (Nat.ltb_spec i (length out)) as [_|]; [|lia]. apply IH. intros k y Hk. rewrite length_upd. eapply H. right. eauto.
Qed.
Definition to_dist (ref : list Qc) (w : nat * Qc) : nat * Qc := (fst w, qabs (snd w - nth (fst w) ref 0%Qc)%Qc).
Lemma dist_of_writes ref n c ws v : 0 < n -> length ref = n -> NoDup (map fst ws) -> (forall i x, In (i, x) ws -> 0 < i < n) ->
  (forall j, 0 < j < n -> In j (map fst ws)) -> write_all (upd (repeat (Q2Qc 0) n) 0 c) ws = Some v ->
  exists r, write_all (upd (repeat (Q2Qc 0) n) 0 0%Qc) (map (to_dist ref) ws) = Some r /\ length r = n /\ length v = n /\ nth_error r 0 = Some 0%Qc /\
    forall j, 0 < j < n -> nth_error r j = Some (qabs (nth j v 0 - nth j ref 0))%Qc.
Proof.
  intros Hn Lr Hnd Hin Hcov Hv.
  assert (Hf : map fst (map (to_dist ref) ws) = map fst ws) by (rewrite map_map; apply map_ext; auto).
  destruct (@write_all_some (map (to_dist ref) ws) (upd (repeat (Q2Qc 0) n) 0 0%Qc)) as [r Er].
  { intros i x Hi. apply in_map_iff in Hi as ([i' x'] & [= <- _] & Hi). rewrite length_upd, repeat_length. apply (Hin _ _ Hi). }
  destruct (write_all_keep Er) as [L K]. destruct (write_all_keep Hv) as [Lv _]. rewrite length_upd, repeat_length in L, Lv.
  exists r. do 3 (split; auto). split.
  - rewrite K; [destruct n; [lia|]; auto|]. rewrite Hf. intros H0. apply in_map_iff in H0 as ([i x] & E & Hi). simpl in E. subst i. apply Hin in Hi. lia.
  - intros j Hj. destruct (proj1 (in_map_iff _ _ _) (Hcov j Hj)) as ([i x] & E & Hi). simpl in E. subst i.
    apply (write_all_in Er); [rewrite Hf; auto|]. apply in_map_iff. exists (j, x). split; auto. unfold to_dist. cbn [fst snd].
    pose proof (write_all_in Hv Hnd Hi) as Ex. rewrite (nth_error_nth v j 0%Qc Ex). auto.
Qed.

(** ** Rows of distances *)
Section Rows.
Variables (sd : nat -> nat) (N : nat) (D : dproc).
Hypothesis HD : dist_ok sd N D.
Let P := d_proc D.
Let num := length (d_target D).
Lemma num_pos : 0 < num.
Proof using HD. unfold num. rewrite (do_target HD). destruct (ok_num (do_proc HD)). destruct (d_inter D); auto. Qed.
Lemma to_dist_opt ws : (forall i x, In (i, x) ws -> i < num) ->
  opt_map (fun w : nat * Qc => let? r := nth_error (d_target D) (fst w) in Some (fst w, qabs (snd w - r)%Qc)) ws = Some (map (to_dist (d_target D)) ws).
Proof using.
  intros H. apply opt_map_map. intros [i x] Hw. cbn [fst snd]. rewrite (nth_error_nth' (d_target D) 0%Qc) by (apply (H _ _ Hw)). auto.
Qed.
(** Features before scaling and the row of distances. *)
Definition plain (occu : list nat) := (if d_inter D then interactions else correlations) (p_eval P) occu (p_tables P).
Lemma row_total occu : codes_ok sd N occu -> exists v r, plain occu = Some v /\ dist_row D occu = Some r /\
  length v = num /\ length r = num /\ nth_error r 0 = Some 0%Qc /\ forall j, 0 < j < num -> nth_error r j = Some (qabs (nth j v 0 - nth j (d_target D) 0))%Qc.
Proof using HD.
  intros HO. pose proof (do_proc HD) as HP. fold P in HP. unfold plain, dist_row. fold P.
  pose proof num_pos as Hn. pose proof (do_target HD) as Lt. fold P in Lt. fold num in Lt. pose proof (do_cover HD) as Hc. fold P in Hc. fold num in Hc.
  destruct (d_inter D) eqn:Ei.
  - set (ws := concat (map (iw occu) (odata P))).
    assert (Hs : map fst ws = map o_id (e_orbits (p_eval P))).
    { unfold ws. rewrite map_fst_concat, <- (odata_orbits HP), map_map. clear. induction (odata P) as [|q l IH]; simpl; auto. }
    assert (Hin : forall i x, In (i, x) ws -> 0 < i < num).
    { intros i x Hi. rewrite Lt. apply (in_map fst) in Hi. rewrite Hs in Hi. change (fst (i, x)) with i in Hi. apply in_map_iff in Hi as (o & <- & Ho). apply (ok_ids_in HP _ Ho). }
    assert (Ew : interactions (p_eval P) occu (p_tables P) = write_all (upd (repeat (Q2Qc 0) num) 0 (e_offset (p_eval P))) ws).
    { unfold interactions, run_work. rewrite <- Lt, init_out_ok, (inter_work_total HP) by auto. auto. }
    destruct (interactions_total HP HO) as (v & Ev & _). rewrite Ev in Ew.
    assert (Hcov : forall j, 0 < j < num -> In j (map fst ws)).
    { intros j Hj. rewrite Hs. destruct (Hc j Hj) as (o & Ho & ->). apply in_map; auto. }
    assert (Hnd : NoDup (map fst ws)) by (rewrite Hs; apply (ok_ids HP)).
    destruct (dist_of_writes Hn (eq_refl num) Hnd Hin Hcov (eq_sym Ew)) as (r & Er & Lr & Lv & R0 & RJ).
    exists v, r. split; auto. split; [|auto].
    unfold inter_distances, run_work. rewrite <- Lt, init_out_ok by auto. cbn [option_bind].
    assert (Edw : idist_work (p_eval P) occu (d_target D) (p_tables P) = Some (map (fun q => map (to_dist (d_target D)) (iw occu q)) (odata P))).
    { pose proof (inter_work_total HP HO) as Eiw. unfold idist_work, inter_work, zip_orbits in *.
      destruct (length (combine (e_orbits (p_eval P)) (e_inter (p_eval P))) <=? length (p_tables P)); [|discriminate].
      apply opt_map_map. intros q Hq. destruct q as [[o i] rows]. cbn [fst snd]. unfold idist_writes.
      pose proof (@inter_writes_total _ _ _ HP occu (o, i, rows) Hq HO) as Eo. cbn [fst snd] in Eo. rewrite Eo. cbn [option_bind]. apply (to_dist_opt (ws := iw occu (o, i, rows))).
      intros i' x Hi'. apply (Hin i' x). unfold ws. apply in_concat. exists (iw occu (o, i, rows)). split; auto. apply in_map. auto. }
    rewrite Edw. cbn [option_bind]. rewrite <- Er. f_equal. unfold ws. rewrite concat_map, map_map. auto.
  - set (ws := concat (map (cw occu) (odata P))).
    assert (Hs : map fst ws = flat_map (fun o => seq (o_bit o) (o_rows o)) (e_orbits (p_eval P))).
    { unfold ws. rewrite map_fst_concat, <- (odata_orbits HP), !flat_map_concat_map, map_map. f_equal. apply map_ext. intros q. apply slots_seq. }
    assert (Hin : forall i x, In (i, x) ws -> 0 < i < num).
    { intros i x Hi. rewrite Lt. apply (in_map fst) in Hi. rewrite Hs in Hi. change (fst (i, x)) with i in Hi. apply in_flat_map in Hi as (o & Ho & Hi). apply in_seq in Hi. cbn [fst] in Hi.
      replace i with (o_bit o + (i - o_bit o)) by lia. apply (ok_bits_in HP); auto. lia. }
    assert (Ew : correlations (p_eval P) occu (p_tables P) = write_all (upd (repeat (Q2Qc 0) num) 0 1%Qc) ws).
    { unfold correlations, run_work. rewrite <- Lt, init_out_ok, (corr_work_total HP) by auto. auto. }
    destruct (correlations_total HP HO) as (v & Ev & _). rewrite Ev in Ew.
    assert (Hcov : forall j, 0 < j < num -> In j (map fst ws)).
    { intros j Hj. rewrite Hs. destruct (Hc j Hj) as (o & Ho & Hb). apply in_flat_map. exists o. split; auto. apply in_seq. lia. }
    assert (Hnd : NoDup (map fst ws)) by (rewrite Hs; apply (ok_bits HP)).
    destruct (dist_of_writes Hn (eq_refl num) Hnd Hin Hcov (eq_sym Ew)) as (r & Er & Lr & Lv & R0 & RJ).
    exists v, r. split; auto. split; [|auto].
    unfold corr_distances, run_work. rewrite <- Lt, init_out_ok by auto. cbn [option_bind].
    assert (Edw : dist_work (p_eval P) occu (d_target D) (p_tables P) = Some (map (fun q => map (to_dist (d_target D)) (cw occu q)) (odata P))).
    { unfold dist_work, zip_orbits. rewrite (ok_tables HP), Nat.leb_refl, (odata_pairs HP), opt_map_comp.
      apply opt_map_map. intros q Hq. cbn [fst snd]. unfold dist_writes.
      rewrite (@corr_writes_total _ _ _ HP occu q) by auto. cbn [option_bind]. apply to_dist_opt.
      intros i' x Hi'. apply (Hin i' x). unfold ws. apply in_concat. exists (cw occu q). split; auto. apply in_map. auto. }
    rewrite Edw. cbn [option_bind]. rewrite <- Er. f_equal. unfold ws. rewrite concat_map, map_map. auto.
Qed.
End Rows.

(** ** Sorting and grouping *)
Lemma ins_key_in {A} (x y : Qc * A) l : In y (ins_key x l) <-> y = x \/ In y l.
Proof.
  induction l as [|z l IH]; simpl; [intuition congruence|]. destruct (Qcleb (fst x) (fst z)); simpl; [intuition congruence|]. rewrite IH. intuition congruence.
Qed.
Lemma sort_key_in {A} (y : Qc * A) l : In y (sort_key l) <-> In y l.
Proof. unfold sort_key. induction l as [|x l IH]; simpl; [tauto|]. rewrite ins_key_in, IH. intuition congruence. Qed.
Definition le_key {A} (x y : Qc * A) : Prop := (fst x <= fst y)%Qc.
Lemma sort_key_sorted {A} (l : list (Qc * A)) : Sorted le_key (sort_key l).
Proof.
  unfold sort_key. induction l as [|x l IH]; simpl; [constructor|]. clear - IH.
  induction (fold_right ins_key [] l) as [|y s IHs]; simpl; [repeat constructor|].
  destruct (Qcleb_spec (fst x) (fst y)) as [H|H]; [constructor; auto; constructor; auto|].
  apply Sorted_inv in IH as [H1 H2]. constructor; auto.
  destruct s as [|z s]; simpl; [constructor; unfold le_key; apply Qclt_le_weak, Qcnot_le_lt; auto|].
  destruct (Qcleb (fst x) (fst z)); constructor; unfold le_key; [apply Qclt_le_weak, Qcnot_le_lt; auto|]. apply HdRel_inv in H2. auto.
Qed.
Definition lt_key {A} (x y : Qc * A) : Prop := (fst x < fst y)%Qc.
Lemma group_key_head {A} (d : Qc) (a : A) l : exists g gs, group_key ((d, a) :: l) = (d, g) :: gs.
Proof. simpl. destruct (group_key l) as [|[d' g] gs]; [eauto|]. destruct (Qceqb d d'); eauto. Qed.
Lemma group_key_in {A} (l : list (Qc * A)) d a : In (d, a) l <-> exists g, In (d, g) (group_key l) /\ In a g.
Proof.
  induction l as [|[e b] l IH]; simpl; [split; [tauto|intros (g & [] & _)]|]. rewrite IH. destruct (group_key l) as [|[d' g'] gs].
  - simpl. split.
    + intros [[= -> ->]|(g & [] & _)]. exists [a]. simpl; auto.
    + intros (g & [[= -> <-]|[]] & [->|[]]). auto.
  - destruct (Qceqb_spec e d') as [->|Hne]; simpl; split.
    + intros [[= -> ->]|(g & [[= -> ->]|H] & Ha)]; [exists (a :: g')|exists (b :: g)|exists g]; simpl; auto.
    + intros (g & [[= -> <-]|H] & Ha); [|right; exists g; auto]. destruct Ha as [->|Ha]; [auto|]. right. exists g'. auto.
    + intros [[= -> ->]|(g & H & Ha)]; [exists [a]; simpl; auto|exists g; auto].
    + intros (g & [[= -> <-]|H] & Ha); [|right; exists g; auto]. destruct Ha as [->|[]]. auto.
Qed.
Lemma group_key_sorted {A} (l : list (Qc * A)) : Sorted le_key l -> Sorted lt_key (group_key l).
Proof.
  induction l as [|[d a] l IH]; intros H; [constructor|]. apply Sorted_inv in H as [H1 H2]. specialize (IH H1). simpl.
  destruct l as [|[e b] l]; [repeat constructor|]. destruct (group_key_head e b l) as (g & gs & E). rewrite E in IH |- *.
  apply HdRel_inv in H2. unfold le_key in H2. cbn [fst] in H2. apply Sorted_inv in IH as [I1 I2].
  destruct (Qceqb_spec d e) as [->|Hne].
  - constructor; auto. destruct gs as [|x gs]; constructor. apply HdRel_inv in I2. auto.
  - constructor; [constructor; auto|]. constructor. unfold lt_key. cbn [fst]. destruct (Qcle_lt_or_eq _ _ H2); [auto|contradiction].
Qed.

(** ** The loop over diameters *)
Definition all_below (tol : Qc) (dv : list Qc) (g : list (list nat)) : Prop := forall ids i x, In ids g -> In i ids -> nth_error dv i = Some x -> (x <= tol)%Qc.
Definition in_range (dv : list Qc) (gs : list (Qc * list (list nat))) : Prop := forall d g ids i, In (d, g) gs -> In ids g -> In i ids -> i < length dv.
Lemma read_all (dv : list Qc) ids : (forall i, In i ids -> i < length dv) -> exists vs, opt_map (nth_error dv) ids = Some vs /\ forall x, In x vs <-> exists i, In i ids /\ nth_error dv i = Some x.
Proof.
  induction ids as [|i ids IH]; intros H; simpl; [exists []; split; auto; intros x; split; [intros []|intros (i & [] & _)]|].
  destruct (@nth_error_lt _ dv i) as [y Hy]; [apply H; simpl; auto|]. rewrite Hy. cbn [option_bind]. destruct IH as (vs & -> & Hv); [intros; apply H; simpl; auto|].
  cbn [option_bind]. exists (y :: vs). split; auto. intros x. simpl. rewrite Hv. split.
  - intros [<-|(j & Hj & Ej)]; eauto.
  - intros (j & [<-|Hj] & Ej); [left; congruence|eauto].
Qed.
Lemma group_test tol dv g : (forall ids i, In ids g -> In i ids -> i < length dv) ->
  exists vs, opt_map (nth_error dv) (concat g) = Some vs /\ (forallb (fun v => Qcleb v tol) vs = true <-> all_below tol dv g).
Proof.
  intros H. destruct (@read_all dv (concat g)) as (vs & E & Hv).
  { intros i Hi. apply in_concat in Hi as (ids & H1 & H2). eauto. }
  exists vs. split; auto. rewrite forallb_forall. split.
  - intros Hf ids i x H1 H2 H3. assert (Hx : In x vs) by (apply Hv; exists i; split; auto; apply in_concat; eauto).
    specialize (Hf x Hx). destruct (Qcleb_spec x tol); [auto|discriminate].
  - intros Ha x Hx. apply Hv in Hx as (i & Hi & Ex). apply in_concat in Hi as (ids & H1 & H2). destruct (Qcleb_spec x tol) as [|Hn]; auto. destruct (Hn (Ha _ _ _ H1 H2 Ex)).
Qed.
Lemma match_loop_spec tol dv gs : forall best, Sorted lt_key gs -> in_range dv gs ->
  exists L, match_loop tol dv best gs = Some L /\
   ((L = best /\ forall d g, In (d, g) gs -> exists d' g', In (d', g') gs /\ (d' <= d)%Qc /\ ~ all_below tol dv g') \/
    (exists g, In (L, g) gs /\ (forall d' g', In (d', g') gs -> (d' <= L)%Qc -> all_below tol dv g') /\
       forall d g, In (d, g) gs -> (L < d)%Qc -> exists d' g', In (d', g') gs /\ (d' <= d)%Qc /\ ~ all_below tol dv g')).
Proof.
  induction gs as [|[d g] gs IH]; intros best HS HR; simpl; [exists best; split; auto; left; split; auto; intros d g []|].
  apply Sorted_inv in HS as [H1 H2]. destruct (@group_test tol dv g) as (vs & -> & Ht); [intros ids i Hids Hi; eapply HR; simpl; eauto|]. cbn [option_bind].
  assert (Hlt : forall d' g', In (d', g') gs -> (d < d')%Qc).
  { assert (HSS : StronglySorted lt_key ((d, g) :: gs)).
    { apply Sorted_StronglySorted; [|constructor; auto]. intros x y z Hx Hy. unfold lt_key in *. eapply Qclt_trans; eauto. }
    apply StronglySorted_inv in HSS as [_ HF]. rewrite Forall_forall in HF. intros d' g' Hin. apply (HF _ Hin). }
  destruct (forallb (fun v => Qcleb v tol) vs) eqn:Ef.
  - assert (Hg : all_below tol dv g) by (apply Ht; auto).
    destruct (IH d H1) as (L & EL & HL); [intros d' g' ids i Hin; apply (HR d' g'); simpl; auto|]. exists L. split; auto. right.
    destruct HL as [[-> HL]|(g' & Hg' & HL1 & HL2)].
    + exists g. split; auto. split.
      * intros d' g' [[= <- <-]|Hin] Hle; auto. exfalso. apply (Qcle_not_lt _ _ Hle). eauto.
      * intros d' g' [[= <- <-]|Hin] Hlt'; [exfalso; revert Hlt'; apply Qcle_not_lt, Qcle_refl|]. destruct (HL _ _ Hin) as (e & ge & He & Hle & Hb). eauto 6.
    + exists g'. split; auto. split.
      * intros d' g2 [[= <- <-]|Hin] Hle; eauto.
      * intros d' g2 [[= <- <-]|Hin] Hlt'; [exfalso; apply (Qclt_not_le _ _ Hlt'); apply Qclt_le_weak; eauto|].
        destruct (HL2 _ _ Hin Hlt') as (e & ge & He & Hle & Hb). eauto 6.
  - exists best. split; auto. left. split; auto. intros d' g' Hin. exists d, g. split; auto. split.
    + destruct Hin as [[= <- <-]|Hin]; [apply Qcle_refl|apply Qclt_le_weak; eauto].
    + intros Ha. apply Ht in Ha. congruence.
Qed.
Lemma opt_map_ext_in {A B} (f g : A -> option B) l : (forall x, In x l -> f x = g x) -> opt_map f l = opt_map g l.
Proof. induction l as [|x l IH]; intros H; simpl; auto. rewrite H by (simpl; auto). rewrite IH; auto. intros; apply H; simpl; auto. Qed.
Lemma match_loop_ext tol dv dv' gs : (forall d g ids i, In (d, g) gs -> In ids g -> In i ids -> nth_error dv i = nth_error dv' i) ->
  forall best, match_loop tol dv best gs = match_loop tol dv' best gs.
Proof.
  induction gs as [|[d g] gs IH]; intros H best; simpl; auto.
  rewrite (@opt_map_ext_in _ _ (nth_error dv) (nth_error dv')).
  - destruct (opt_map (nth_error dv') (concat g)) as [vs|]; cbn [option_bind]; auto. rewrite IH; auto. intros d' g' ids i H1. apply (H d' g'). simpl; auto.
  - intros i Hi. apply in_concat in Hi as (ids & H1 & H2). apply (H d g ids); simpl; auto.
Qed.
Lemma groups_in D d g ids : In (d, g) (group_key (sort_key (d_positions D))) -> In ids g -> In (d, ids) (d_positions D).
Proof. intros H1 H2. apply sort_key_in. apply group_key_in. eauto. Qed.

Lemma nth_error_ext_upd {A} (a b : list A) m : length a = length b -> (forall j, 0 < j < length a -> nth_error a j = nth_error b j) -> upd a 0 m = upd b 0 m.
Proof.
  intros L H. destruct a as [|x a], b as [|y b]; simpl in *; try discriminate; auto. f_equal.
  assert (Hj : forall j, j < length a -> nth_error a j = nth_error b j) by (intros j Hj; apply (H (S j)); lia). clear H. injection L as L. revert b L Hj.
  induction a as [|z a IH]; intros [|w b] L H; simpl in *; try discriminate; auto. f_equal; [assert (Some z = Some w) by (apply (H 0); lia); congruence|].
  apply IH; [lia|]. intros j Hj. apply (H (S j)). lia.
Qed.
Lemma nth_error_ext_tl {A} (a b : list A) n : length a = n -> length b = n -> (forall j, j < n -> nth_error a j = nth_error b j) -> a = b.
Proof.
  revert b n. induction a as [|x a IH]; intros [|y b] [|n] La Lb H; simpl in *; try discriminate; auto.
  f_equal; [assert (Some x = Some y) by (apply (H 0); lia); congruence|]. apply (IH b n); try lia. intros j Hj. apply (H (S j)). lia.
Qed.
Lemma nth_map_lt (f : Qc -> Qc) l j : j < length l -> nth j (map f l) 0%Qc = f (nth j l 0%Qc).
Proof. revert j. induction l as [|x l IH]; intros [|j] H; simpl in *; try lia; auto. apply IH. lia. Qed.

Section Features.
Variables (sd : nat -> nat) (N : nat) (D : dproc).
Hypothesis HD : dist_ok sd N D.
Lemma positions_range d ids i : In (d, ids) (d_positions D) -> In i ids -> 0 < i < length (d_target D).
Proof using HD.
  intros H Hi. unfold d_positions in H. apply in_combine_r in H. apply in_map_iff in H as (o & <- & Ho). rewrite (do_target HD).
  destruct (d_inter D).
  - destruct Hi as [<-|[]]. apply (ok_ids_in (do_proc HD)); auto.
  - apply in_seq in Hi. replace i with (o_bit o + (i - o_bit o)) by lia. apply (ok_bits_in (do_proc HD)); auto. lia.
Qed.
Lemma exact_match_spec dv : length dv = length (d_target D) -> exists L, exact_match D dv = Some L /\ max_matched D dv L.
Proof using HD.
  intros Ld. unfold exact_match. set (gs := group_key (sort_key (d_positions D))).
  destruct (@match_loop_spec (d_tol D) dv gs 0%Qc) as (L & EL & HL).
  - apply group_key_sorted, sort_key_sorted.
  - intros d g ids i H1 H2 H3. rewrite Ld. apply (positions_range (groups_in H1 H2) H3).
  - exists L. split; auto.
    assert (Hm : forall d, matched D dv d <-> forall d' g', In (d', g') gs -> (d' <= d)%Qc -> all_below (d_tol D) dv g').
    { intros d. split.
      - intros H d' g' H1 H2 ids i x H3 H4 H5. apply (H d' ids i x); auto. apply (groups_in H1 H3).
      - intros H d' ids i x H1 H2 H3 H4. apply sort_key_in, group_key_in in H1 as (g & Hg & Hids). apply (H d' g Hg H2 ids i x); auto. }
    assert (Hbad : forall d e ge, In (e, ge) gs -> (e <= d)%Qc -> ~ all_below (d_tol D) dv ge -> ~ matched D dv d).
    { intros d e ge H1 H2 H3 Hmd. apply H3. apply (proj1 (Hm d) Hmd e ge); auto. }
    assert (Hgi : forall d ids, In (d, ids) (d_positions D) -> exists g, In (d, g) gs).
    { intros d ids H. apply sort_key_in, group_key_in in H as (g & Hg & _). eauto. }
    destruct HL as [[-> HL]|(g & Hg & H1 & H2)].
    + right. split; auto. intros d ids Hd. destruct (Hgi _ _ Hd) as (g & Hg). destruct (HL _ _ Hg) as (e & ge & He & Hle & Hb). eapply Hbad; eauto.
    + left. assert (Hne : exists ids, In ids g).
      { destruct g as [|ids g']; [|exists ids; simpl; auto]. exfalso. clear - Hg. revert Hg. unfold gs. generalize (sort_key (d_positions D)) as l.
        assert (Hn : forall (l : list (Qc * list nat)) d, In (d, []) (group_key l) -> False).
        { induction l as [|[e a] l IH]; intros d; simpl; [tauto|]. destruct (group_key l) as [|[d' g'] gs']; [intros [[=]|[]]|].
          destruct (Qceqb e d'); simpl.
          - intros [[=]|H]. apply (IH d). simpl; auto.
          - intros [[=]|H]. apply (IH d). auto. }
        intros l Hl. eapply Hn; eauto. }
      destruct Hne as (ids & Hids). exists ids. split; [apply (groups_in Hg Hids)|]. split; [apply Hm; auto|].
      intros d ids' Hd Hmd. destruct (Hgi _ _ Hd) as (g2 & Hg2). destruct (Qclt_le_dec L d) as [Hlt|]; auto. exfalso.
      destruct (H2 _ _ Hg2 Hlt) as (e & ge & He & Hle & Hb). apply (Hbad d e ge); auto.
Qed.
(** Distances of an occupancy, first entry aside. *)
Definition dist_spec (occu : list nat) (w : list Qc) : Prop :=
  exists f, (if d_inter D then cd_features else ce_features) (d_proc D) occu = Some f /\ length f = length (d_target D) /\ length w = length (d_target D) /\
    forall j, 0 < j < length (d_target D) -> nth_error w j = Some (qabs (nth j f 0 / Qc_of_nat (p_size (d_proc D)) - nth j (d_target D) 0))%Qc.
Lemma uses_some : exists u c, nth_error (d_coefs D) 0 = Some c /\ uses_match D = Some u /\ (u = true <-> c <> 0%Qc).
Proof using HD.
  assert (H : 0 < length (d_coefs D)) by (rewrite (do_coefs HD); apply (num_pos HD)). destruct (@nth_error_lt _ (d_coefs D) 0 H) as [c Hc].
  exists (negb (Qceqb c 0)), c. split; auto. unfold uses_match. rewrite Hc. split; auto. destruct (Qceqb_spec c 0); simpl; intuition congruence.
Qed.
(** The features: the row of distances with the matched diameter, or 0, in front. *)
Lemma features_row occu : codes_ok sd N occu -> exists r m u w, uses_match D = Some u /\ dist_row D occu = Some r /\ length r = length (d_target D) /\ nth_error r 0 = Some 0%Qc /\
  (u = true -> exact_match D r = Some m /\ max_matched D w m) /\ (u = false -> m = 0%Qc) /\ dist_features D occu = Some w /\ w = upd r 0 m /\ dist_spec occu w.
Proof using HD.
  intros HO. destruct (row_total HD HO) as (v & r & Ev & Er & Lv & Lr & R0 & RJ). destruct uses_some as (u & c & Ec & Eu & Hu).
  set (f := scale (d_proc D) v). assert (Ef : (if d_inter D then cd_features else ce_features) (d_proc D) occu = Some f).
  { unfold plain in Ev. destruct (d_inter D); unfold cd_features, ce_features; rewrite Ev; auto. }
  assert (Lf : length f = length (d_target D)) by (unfold f, scale; rewrite map_length; auto).
  set (dv := qmap2 (fun x t => qabs (x / Qc_of_nat (p_size (d_proc D)) - t))%Qc f (d_target D)).
  assert (Ldv : length dv = length (d_target D)) by (unfold dv, qmap2; rewrite map_length, combine_length; lia).
  assert (Hs : Qc_of_nat (p_size (d_proc D)) <> 0%Qc) by (apply Qc_of_nat_nz; pose proof (do_size HD); lia).
  assert (Hdv : forall j, j < length (d_target D) -> nth_error dv j = Some (qabs (nth j v 0 - nth j (d_target D) 0))%Qc).
  { intros j Hj. unfold dv. rewrite nth_error_qmap2 with (x := (nth j v 0 * Qc_of_nat (p_size (d_proc D)))%Qc) (y := nth j (d_target D) 0%Qc).
    - f_equal. f_equal. f_equal. field. auto.
    - unfold f, scale. rewrite nth_error_map, (nth_error_nth' v 0%Qc) by lia. auto.
    - apply nth_error_nth'. auto. }
  assert (Hagree : forall j, 0 < j < length (d_target D) -> nth_error dv j = nth_error r j) by (intros j Hj; rewrite Hdv, RJ by lia; auto).
  assert (Hupd : forall m, upd dv 0 m = upd r 0 m).
  { intros m. apply nth_error_ext_upd; [lia|]. intros j Hj. apply Hagree. lia. }
  assert (Eem : exact_match D dv = exact_match D r).
  { unfold exact_match. apply match_loop_ext. intros d g ids i H1 H2 H3. apply Hagree. apply (positions_range (groups_in H1 H2) H3). }
  destruct (exact_match_spec Lr) as (L & EL & HL).
  assert (Hmm : forall m w, w = upd r 0 m -> max_matched D r L -> max_matched D w L).
  { intros m w -> H. assert (Hi : forall d, matched D (upd r 0 m) d <-> matched D r d).
    { intros d. unfold matched. split; intros H' d' ids i x H1 H2 H3 H4; apply (H' d' ids i x); auto; pose proof (positions_range H1 H3); rewrite nth_error_upd_neq in * by lia; auto. }
    unfold max_matched in *. destruct H as [(ids & H1 & H2 & H3)|[-> H]].
    - left. exists ids. split; auto. split; [apply Hi; auto|]. intros d ids' Hd Hmd. apply (H3 d ids'); auto. apply Hi; auto.
    - right. split; auto. intros d ids Hd Hmd. apply (H d ids); auto. apply Hi; auto. }
  set (m := if u then L else 0%Qc). exists r, m, u, (upd r 0 m).
  split; auto. split; auto. split; auto. split; auto. split; [intros ->; split; auto; apply (Hmm L); auto|]. split; [intros ->; auto|].
  split.
  - unfold dist_features. rewrite Ef. cbn [option_bind]. rewrite Lf, Nat.eqb_refl. cbn [negb]. fold dv. rewrite Eu. cbn [option_bind].
    unfold m. destruct u; [rewrite Eem, EL; cbn [option_bind]; rewrite Hupd; auto|]. cbn [option_bind]. rewrite Hupd. auto.
  - split; auto. exists f. split; auto. split; auto. split; [rewrite length_upd; auto|]. intros j Hj. rewrite nth_error_upd_neq, RJ by lia.
    f_equal. f_equal. f_equal. unfold f, scale. rewrite (nth_map_lt (fun x => x * Qc_of_nat (p_size (d_proc D)))%Qc) by lia. field. auto.
Qed.
End Features.

(** ** The property *)
Lemma assign_flips_ok sd N flips : forall occu, codes_ok sd N occu -> flips_in sd N flips ->
  assign_flips occu flips = Some (apply_step occu flips) /\ codes_ok sd N (apply_step occu flips).
Proof.
  induction flips as [|[s c] flips IH]; intros occu HO HF; [split; auto|]. unfold assign_flips, apply_step in *. cbn [fold_left fst snd option_bind].
  destruct (HF s c (or_introl eq_refl)) as [Hs Hc]. rewrite (proj1 HO). destruct (Nat.ltb_spec s N) as [_|]; [|lia].
  apply IH; [apply set_site_ok; auto|]. intros s' c' H. apply HF. simpl; auto.
Qed.
(** Features: absolute differences to the target, and in front the largest diameter up to which they are within the
    tolerance if it is weighted, 0 otherwise. *)
Theorem C55_features sd N D occu : dist_ok sd N D -> codes_ok sd N occu ->
  exists w m c, dist_features D occu = Some w /\ dist_spec D occu w /\ nth_error w 0 = Some m /\ nth_error (d_coefs D) 0 = Some c /\
    (c <> 0%Qc -> max_matched D w m) /\ (c = 0%Qc -> m = 0%Qc).
Proof.
  intros HD HO. destruct (features_row HD HO) as (r & m & u & w & Eu & Er & Lr & R0 & H1 & H0 & Ef & -> & HS).
  destruct (uses_some HD) as (u' & c & Ec & Eu' & Hu). rewrite Eu in Eu'. injection Eu' as <-.
  exists (upd r 0 m), m, c. split; auto. split; auto. split; [apply nth_error_upd_eq; pose proof (num_pos HD); lia|]. split; auto. split.
  - intros Hc. apply H1. apply Hu. auto.
  - intros Hc. apply H0. destruct u; auto. destruct (proj1 Hu eq_refl Hc).
Qed.
(** The change for a step is the difference of the features after and before it. *)
Theorem C55_change sd N D occu flips : dist_ok sd N D -> codes_ok sd N occu -> flips_in sd N flips ->
  exists b a, dist_features D occu = Some b /\ dist_features D (apply_step occu flips) = Some a /\ dist_change D occu flips = Some (qvsub a b) /\
    qdot (d_coefs D) (qvsub a b) = (qdot (d_coefs D) a - qdot (d_coefs D) b)%Qc.
Proof.
  intros HD HO HF. destruct (assign_flips_ok HO HF) as [Ea HO'].
  destruct (features_row HD HO) as (r & m & u & w & Eu & Er & Lr & R0 & H1 & H0 & Ef & Ew & HS).
  destruct (features_row HD HO') as (r' & m' & u' & w' & Eu' & Er' & Lr' & R0' & H1' & H0' & Ef' & Ew' & HS').
  rewrite Eu in Eu'. injection Eu' as <-. exists w, w'. split; auto. split; auto. split.
  - unfold dist_change. rewrite Ea. cbn [option_bind]. rewrite Er, Er', Eu. cbn [option_bind]. destruct u.
    + destruct (H1 eq_refl) as [-> _]. destruct (H1' eq_refl) as [-> _]. cbn [option_bind]. rewrite Ew, Ew'. auto.
    + rewrite Ew, Ew', (H0 eq_refl), (H0' eq_refl).
      assert (Hz : forall l : list Qc, nth_error l 0 = Some 0%Qc -> upd l 0 0%Qc = l) by (intros [|x l] E; simpl in *; congruence).
      rewrite !Hz by auto. auto.
  - apply qdot_qvsub. destruct HS as (_ & _ & _ & L & _). destruct HS' as (_ & _ & _ & L' & _). congruence.
Qed.
(** The matched diameter is unique. *)
Theorem C55_diameter_unique D dv L L' : max_matched D dv L -> max_matched D dv L' -> L = L'.
Proof.
  intros [(ids & H1 & H2 & H3)|[-> H]] [(ids' & H1' & H2' & H3')|[-> H']]; auto.
  - apply Qcle_antisym; eauto.
  - destruct (H' _ _ H1 H2).
  - destruct (H _ _ H1' H2').
Qed.
(** Processors of a subspace meet the hypotheses. *)
Theorem C55_subspace sd N st tables coefs size (inter : bool) P target mw weights tol diams : expansion_ok sd N st tables -> length coefs = sub_ncorr st ->
  expansion_proc size st tables coefs 0 = Some P -> 0 < size -> (0 <= mw)%Qc ->
  length target = (if inter then sub_norb st else sub_ncorr st) -> S (length weights) = length target -> length diams = length (sub_orbits st) ->
  exists D, new_dproc inter P target mw weights tol diams = Some D /\ dist_ok sd N D /\ d_coefs D = (- mw)%Qc :: weights.
Proof.
  intros HE HL EP Hs Hmw Lt Lw Ld. pose proof (ex_cons HE) as HC.
  unfold new_dproc. destruct (Qcltb_spec mw 0) as [H|_]; [destruct (Qcle_not_lt _ _ Hmw H)|]. rewrite Lw, Nat.eqb_refl. cbn [negb]. eexists. split; [reflexivity|].
  assert (HL' : length coefs = sub_ncorr st + 0) by lia.
  split; [|auto]. pose proof (exp_proc_ok HE HL' EP) as HP. destruct (exp_proc size HE HL') as (P' & e & EP' & Ee & EqP & Hn). rewrite EP in EP'. injection EP' as <-.
  constructor; cbn [d_proc d_target d_inter d_diams d_coefs]; auto.
  - rewrite EqP. auto.
  - rewrite EqP. cbn [p_eval e_num_orbits e_num_corr]. destruct inter; auto.
  - intros j Hj. rewrite Lt in Hj. rewrite EqP. cbn [p_eval e_orbits]. destruct inter.
    + assert (Hin : In j (map s_id (sub_orbits st))) by (rewrite (c_ids HC); apply in_seq; rewrite (c_norb HC) in Hj; lia).
      apply in_map_iff in Hin as (o & <- & Ho). exists (odata_of o). split; auto. apply in_map; auto.
    + assert (Hin : In j (flat_map (fun o => seq (s_bit o) (s_len o)) (sub_orbits st))).
      { rewrite (@bits_seq _ 1 (c_bits HC)). apply in_seq. rewrite (c_ncorr HC) in Hj. lia. }
      apply in_flat_map in Hin as (o & Ho & Hj'). apply in_seq in Hj'. exists (odata_of o). split; [apply in_map; auto|].
      cbn [odata_of o_bit]. change (o_rows _) with (o_rows (odata_of o)). destruct (exp_orbit HE Ho) as (n & _ & rows & Hno & Hr & _).
      destruct (Hn n o rows Hno Hr) as (dims & ts & _ & _ & _ & _ & _ & Et & Ltt & _). unfold o_rows, odata_of. cbn [o_tensors]. rewrite Et. lia.
  - rewrite EqP. cbn [p_eval e_orbits]. rewrite map_length. auto.
Qed.

(** ** Serialization (C73) *)
(** The processor is the same again if all weights are 1 and the tolerance is the default. *)
Theorem C73_defaults_partial D mw : (0 <= mw)%Qc -> d_coefs D = (- mw)%Qc :: repeat 1%Qc (length (d_target D) - 1) -> 0 < length (d_target D) -> d_tol D = default_tol ->
  dist_round_trip D = Some D.
Proof.
  intros H0 Hc Hn Ht. unfold dist_round_trip. rewrite Hc. cbn [nth_error option_bind]. unfold new_dproc.
  assert (E : (- - mw)%Qc = mw) by ring. rewrite E. destruct (Qcltb_spec mw 0) as [H|_]; [destruct (Qcle_not_lt _ _ H0 H)|].
  rewrite repeat_length. destruct (Nat.eqb_spec (S (length (d_target D) - 1)) (length (d_target D))) as [_|]; [|lia]. cbn [negb].
  rewrite <- Hc, <- Ht. destruct D; auto.
Qed.
(** Features other than the first never change. *)
Theorem C73_features_partial sd N D D' occu : dist_ok sd N D -> codes_ok sd N occu -> dist_round_trip D = Some D' ->
  dist_ok sd N D' /\ exists w w', dist_features D occu = Some w /\ dist_features D' occu = Some w' /\ tl w = tl w'.
Proof.
  intros HD HO E. unfold dist_round_trip in E. destruct (nth_error (d_coefs D) 0) as [c|]; [|discriminate]. cbn [option_bind] in E.
  unfold new_dproc in E. destruct (Qcltb (- c) 0); [discriminate|]. rewrite repeat_length in E.
  destruct (Nat.eqb_spec (S (length (d_target D) - 1)) (length (d_target D))) as [En|]; [|discriminate]. cbn [negb] in E. injection E as <-.
  set (D' := mkD _ _ _ _ _ _).
  assert (HD' : dist_ok sd N D').
  { destruct HD. constructor; cbn [D' d_proc d_target d_inter d_diams d_coefs]; auto. simpl. rewrite repeat_length. lia. }
  split; auto. destruct (C55_features HD HO) as (w & m & _ & Ew & (f & Ef & Lf & Lw & Hw) & _). destruct (C55_features HD' HO) as (w' & m' & _ & Ew' & (f' & Ef' & Lf' & Lw' & Hw') & _).
  exists w, w'. split; auto. split; auto. cbn [D' d_inter d_proc d_target] in *. rewrite Ef in Ef'. injection Ef' as <-.
  destruct w as [|x w], w' as [|x' w']; simpl in *; auto; try lia.
  apply nth_error_ext_tl with (n := length w); auto; [lia|]. intros j Hj. specialize (Hw (S j)). specialize (Hw' (S j)). simpl in Hw, Hw'. rewrite Hw, Hw' by lia. auto.
Qed.

(** ** Concrete cases *)
Definition ex_d (weights : list Qc) (tol : Qc) : dproc :=
  mkD false (match expansion_proc 2 ex_st ex_tables (removelast ex_coefs) 0 with Some P => P | None => mkProc 0 (mkEval [] 0 0 0 []) [] end)
    [Qc_of_Z 1; Qc_of_Z 0; Qc_of_Z 1; Qc_of_Z 2; Qc_of_Z 0; Qc_of_Z 5] tol (Qc_of_Z (-3) :: weights) [Qc_of_Z 0; Q2Qc (5 # 2)].
Lemma ex_d_ok weights tol : length weights = 5 -> dist_ok (fun _ => 3) 2 (ex_d weights tol).
Proof.
  intros Lw. destruct (expansion_proc 2 ex_st ex_tables (removelast ex_coefs) 0) as [P|] eqn:EP; [|vm_compute in EP; discriminate].
  destruct (@C55_subspace (fun _ => 3) 2 ex_st ex_tables (removelast ex_coefs) 2 false P [Qc_of_Z 1; Qc_of_Z 0; Qc_of_Z 1; Qc_of_Z 2; Qc_of_Z 0; Qc_of_Z 5] (Qc_of_Z 3) weights tol [Qc_of_Z 0; Q2Qc (5 # 2)])
    as (D & ED & HD & _); auto; try lia; try apply ex_expansion_ok.
  - vm_compute. discriminate.
  - simpl. lia.
  - unfold new_dproc in ED. cbn [length] in ED. rewrite Lw in ED. cbn in ED. unfold ex_d. rewrite EP.
    destruct (Qcltb (Qc_of_Z 3) 0) eqn:E in ED; [discriminate|].
    assert (Em : (- Qc_of_Z 3)%Qc = Qc_of_Z (-3)) by (apply Qc_is_canon; reflexivity). rewrite Em in ED. injection ED as <-. exact HD.
Qed.
(** All features match within 4 before the step, only those of the points after it. *)
Example C55_case : dist_ok (fun _ => 3) 2 (ex_d (repeat 1%Qc 5) (Qc_of_Z 4)) /\ codes_ok (fun _ => 3) 2 [0; 2] /\ flips_in (fun _ => 3) 2 [(1, 1)] /\
  exists b a c, dist_features (ex_d (repeat 1%Qc 5) (Qc_of_Z 4)) [0; 2] = Some b /\ dist_features (ex_d (repeat 1%Qc 5) (Qc_of_Z 4)) [0; 1] = Some a /\
    dist_change (ex_d (repeat 1%Qc 5) (Qc_of_Z 4)) [0; 2] [(1, 1)] = Some c /\ map this b = [(5 # 2)%Q; 0%Q; 0%Q; 3%Q; 0%Q; 4%Q] /\
    map this a = [0%Q; (1 # 2)%Q; (3 # 2)%Q; 2%Q; 1%Q; 7%Q] /\ map this c = [(-5 # 2)%Q; (1 # 2)%Q; (3 # 2)%Q; (-1)%Q; 1%Q; 3%Q].
Proof.
  split; [apply ex_d_ok; reflexivity|]. split; [apply ex_exp_codes|]. split; [intros s c [[= <- <-]|[]]; lia|].
  eexists _, _, _. split; [vm_compute; reflexivity|]. split; [vm_compute; reflexivity|]. split; [vm_compute; reflexivity|]. split; [vm_compute; reflexivity|]. split; vm_compute; reflexivity.
Qed.
(** Weights are lost: the property of the processor that is read back differs. *)
Theorem C73_weights_refuted : exists D D' w, dist_ok (fun _ => 3) 2 D /\ dist_round_trip D = Some D' /\ dist_features D [0; 1] = Some w /\ dist_features D' [0; 1] = Some w /\
  this (qdot (d_coefs D) w) = (25 # 2)%Q /\ this (qdot (d_coefs D') w) = 12%Q.
Proof.
  exists (ex_d (Qc_of_Z 2 :: repeat 1%Qc 4) default_tol). eexists _, _. split; [apply ex_d_ok; reflexivity|]. split; [vm_compute; reflexivity|]. split; [vm_compute; reflexivity|].
  split; [vm_compute; reflexivity|]. split; vm_compute; reflexivity.
Qed.
(** The tolerance is lost: the matched diameter differs. *)
Theorem C73_tolerance_refuted : exists D D' w w', dist_ok (fun _ => 3) 2 D /\ dist_round_trip D = Some D' /\ dist_features D [0; 2] = Some w /\ dist_features D' [0; 2] = Some w' /\
  option_map this (nth_error w 0) = Some (5 # 2)%Q /\ option_map this (nth_error w' 0) = Some 0%Q.
Proof.
  exists (ex_d (repeat 1%Qc 5) (Qc_of_Z 4)). eexists _, _, _. split; [apply ex_d_ok; reflexivity|]. split; [vm_compute; reflexivity|]. split; [vm_compute; reflexivity|].
  split; [vm_compute; reflexivity|]. split; vm_compute; reflexivity.
Qed.

Print Assumptions C55_features.
Print Assumptions C55_change.
Print Assumptions C55_diameter_unique.
Print Assumptions C55_subspace.
Print Assumptions C73_defaults_partial.
Print Assumptions C73_features_partial.
Print Assumptions C73_weights_refuted.
Print Assumptions C73_tolerance_refuted.
