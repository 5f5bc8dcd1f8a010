(** Properties C20 and C21: chemical potentials of ensembles. *)
From Verif Require Import BiasSpec SiteTableProofs OccuUtilsProofs SublatticeProofs OccuUtilsProps BiasProps.
Set Implicit Arguments.
Unset Strict Implicit.
Open Scope nat_scope.

(** ** Histories *)
(** What a user can do to an ensemble.  A rejected assignment raises before anything is
    changed (see [C20_assign_complete] for why nothing can fail later); an exception of a split ends
    the history. *)
Inductive ens_op :=
| AssignMu (v : option (list (species * Qc)))
| SplitSl (k : nat) (occu : list nat) (groups : list (list nat))
| MapSls (f : sublattice -> sublattice).
Definition ens_do leb (e : ensemble) (o : ens_op) : option ensemble :=
  match o with
  | AssignMu v => Some (match assign_mu e v with Some e' => e' | None => e end)
  | SplitSl k occu groups => split_sublattice leb e k occu groups
  | MapSls f => Some (map_sls e f)
  end.
Fixpoint ens_run leb (e : ensemble) (ops : list ens_op) : option ensemble :=
  match ops with
  | [] => Some e
  | o :: ops' => let? e' := ens_do leb e o in ens_run leb e' ops'
  end.

Definition consistent (e : ensemble) :=
  e_params e = e_coefs e ++ match e_mu e with None => [] | Some _ => [(-(1))%Qc] end.
Definition same_processor (e e' : ensemble) :=
  e_coefs e' = e_coefs e /\ e_feat e' = e_feat e /\ e_dfeat e' = e_dfeat e /\ e_sites e' = e_sites e.

Lemma qlist_eqb_refl l : qlist_eqb l l = true.
Proof. induction l; simpl; auto. rewrite IHl, andb_true_r. destruct (Qceqb_spec a a); auto. Qed.

Lemma assign_consistent e v e' : consistent e -> assign_mu e v = Some e' ->
  consistent e' /\ same_processor e e' /\ e_sls e' = e_sls e /\
  match v with
  | None => e_mu e' = None
  | Some d => exists t, mu_table e (filter (fun p => sp_mem (fst p) (e_species e)) d) = Some t /\
      e_mu e' = Some (filter (fun p => sp_mem (fst p) (e_species e)) d, t)
  end.
Proof.
  unfold consistent, same_processor. intros C H. destruct v as [v|]; simpl in H.
  - destruct (sp_dup (map fst v)); [discriminate|].
    set (v' := filter (fun p => sp_mem (fst p) (e_species e)) v) in *.
    destruct (same_species (map fst v') (e_species e)); [|discriminate].
    destruct (e_mu e) as [mu|] eqn:Em.
    + cbn [option_bind] in H. destruct (mu_table e v') as [t|] eqn:Et; [|discriminate]. cbn [option_bind] in H.
      injection H as <-. simpl. repeat split; auto. exists t. auto.
    + unfold set_params in H. rewrite C, app_nil_r in H. rewrite firstn_app, Nat.sub_diag, firstn_all in H. simpl in H.
      rewrite app_nil_r, qlist_eqb_refl in H. cbn [option_bind] in H.
      destruct (mu_table _ v') as [t|] eqn:Et; [|discriminate]. cbn [option_bind] in H.
      injection H as <-. simpl. repeat split; auto. exists t. auto.
  - unfold del_mu in H. simpl in H. destruct (e_mu e) as [mu|] eqn:Em.
    + rewrite C in H. rewrite app_length in H. simpl in H.
      destruct (Nat.ltb_spec (length (e_coefs e)) (length (e_coefs e) + 1)); [|lia].
      rewrite removelast_last in H. unfold set_params in H. simpl in H. rewrite firstn_all, qlist_eqb_refl in H.
      injection H as <-. simpl. rewrite app_nil_r. repeat split; auto.
    + rewrite C, app_nil_r, Nat.ltb_irrefl in H. injection H as <-. simpl. rewrite app_nil_r.
      rewrite C, app_nil_r. repeat split; auto.
Qed.

Lemma do_consistent leb e o e' : consistent e -> ens_do leb e o = Some e' -> consistent e' /\ same_processor e e'.
Proof.
  intros C H. destruct o as [v|k occu groups|f]; simpl in H.
  - injection H as <-. destruct (assign_mu e v) as [e1|] eqn:E.
    + destruct (assign_consistent C E) as (A & B & _). auto.
    + split; auto. repeat split.
  - unfold split_sublattice in H. destruct (nth_error (e_sls e) k) as [sl|]; [|discriminate]. cbn [option_bind] in H.
    destruct (split_by_species leb sl occu groups) as [parts|]; [|discriminate]. cbn [option_bind] in H.
    set (e1 := mkEns (e_coefs e) (e_feat e) (e_dfeat e) (e_sites e) _ _ _) in H.
    assert (C1 : consistent e1) by exact C.
    destruct (e_mu e) as [[v t]|] eqn:Em.
    + destruct (opt_map _ _) as [v'|]; [|discriminate]. cbn [option_bind] in H.
      destruct (assign_consistent C1 H) as (A & B & _). auto.
    + injection H as <-. split; auto. repeat split.
  - injection H as <-. split; auto. repeat split.
Qed.

(** C20.  From construction on, after any history. *)
Theorem C20_parameters : forall leb coefs feat dfeat sites sls mu ops e0 e,
  mk_ensemble coefs feat dfeat sites sls mu = Some e0 -> ens_run leb e0 ops = Some e ->
  e_params e = coefs ++ match e_mu e with None => [] | Some _ => [(-(1))%Qc] end /\
  (forall o f, length (feat o) = length coefs -> e_features e o = Some f -> length f = length (e_params e)) /\
  (forall o st f, length (dfeat o st) = length coefs -> e_change e o st = Some f -> length f = length (e_params e)).
Proof.
  intros leb coefs feat dfeat sites sls mu ops e0 e H0 H.
  assert (G : consistent e /\ same_processor e0 e).
  { assert (C0 : consistent e0).
    { refine (proj1 (assign_consistent _ H0)). unfold consistent. simpl. rewrite app_nil_r. auto. }
    clear H0. revert e0 C0 H. induction ops as [|o ops IH]; intros e0 C0 H; simpl in H.
    - injection H as <-. split; auto. repeat split.
    - destruct (ens_do leb e0 o) as [e1|] eqn:E; [|discriminate]. cbn [option_bind] in H.
      destruct (do_consistent C0 E) as [C1 (A1 & A2 & A3 & A4)]. destruct (IH e1 C1 H) as [C2 (B1 & B2 & B3 & B4)]. split; auto.
      repeat split; congruence. }
  destruct G as [C (P1 & P2 & P3 & P4)].
  assert (S0 : same_processor (mkEns coefs feat dfeat sites sls coefs None) e0).
  { refine (proj1 (proj2 (assign_consistent _ H0))). unfold consistent. simpl. rewrite app_nil_r. auto. }
  destruct S0 as (Q1 & Q2 & Q3 & Q4). simpl in *. rewrite Q1 in P1. rewrite Q2 in P2. rewrite Q3 in P3.
  unfold consistent in C. rewrite P1 in C. split; auto. split.
  - intros o f Hl Hf. rewrite C. unfold e_features in Hf. rewrite P2 in Hf.
    destruct (e_mu e) as [[v t]|].
    + destruct (site_values t o); [|discriminate]. cbn [option_bind] in Hf. injection Hf as <-.
      rewrite !app_length, Hl. reflexivity.
    + injection Hf as <-. rewrite app_nil_r. auto.
  - intros o st f Hl Hf. rewrite C. unfold e_change in Hf. rewrite P3 in Hf.
    destruct (e_mu e) as [[v t]|].
    + destruct (opt_map _ st); [|discriminate]. cbn [option_bind] in Hf. injection Hf as <-.
      rewrite !app_length, Hl. reflexivity.
    + injection Hf as <-. rewrite app_nil_r. auto.
Qed.

(** ** The table of potentials *)
Lemma mu_table_spec e N v : layout (e_sls e) N -> e_sites e = N -> coded (e_sls e) ->
  (forall sp, In sp (e_species e) -> In sp (map fst v)) ->
  exists t, mu_table e v = Some t /\
    (forall sl s p c sp, In sl (e_active e) -> In s (sl_sites sl) -> nth_error (sl_encoding sl) p = Some c ->
       nth_error (sl_species sl) p = Some sp -> get_val t s c = sp_lookup sp v) /\
    (forall sl s c, In sl (e_sls e) -> is_active sl = false -> In s (sl_sites sl) -> In c (sl_encoding sl) ->
       get_val t s c = Some 0%Qc).
Proof.
  intros L HN C Hv. unfold mu_table. rewrite (layout_cols L). cbn [option_bind].
  assert (Hb : exists pairs, mu_blocks v (e_active e) = Some (map (fun p => mkBlock (sl_sites (fst p)) (sl_encoding (fst p)) (snd p)) pairs) /\
     map fst pairs = e_active e /\
     forall sl vals, In (sl, vals) pairs -> length vals = length (sl_encoding sl) /\
        forall p sp, nth_error (sl_species sl) p = Some sp -> nth_error vals p = sp_lookup sp v).
  { assert (Hs : forall sl, In sl (e_active e) -> In sl (e_sls e) /\ forall sp, In sp (sl_species sl) -> In sp (map fst v)).
    { intros sl Hin. split; [apply filter_In in Hin; tauto|]. intros sp Hsp. apply Hv. unfold e_species. apply in_flat_map. eauto. }
    induction (e_active e) as [|sl act IH].
    - exists []. split; [reflexivity|]. split; [reflexivity|]. intros ? ? [].
    - destruct (Hs sl) as [Hi Hsp]; [simpl; auto|].
      destruct (@species_values_spec v sl Hsp) as (vals & Ev & Hl & Hx).
      destruct IH as (pairs & Ep & Em & Hp); [intros; apply Hs; simpl; auto|].
      exists ((sl, vals) :: pairs). split.
      + unfold mu_blocks in *. cbn [opt_map]. rewrite Ev. cbn [option_bind]. rewrite Ep. reflexivity.
      + split; [simpl; congruence|]. intros sl' vals' [E|Hin]; [|apply Hp; auto]. injection E as <- <-. split; auto.
        rewrite Hl. apply C; auto. }
  destruct Hb as (pairs & Eb & Em & Hp). rewrite Eb. cbn [option_bind]. rewrite HN.
  destruct (@layout_table (e_sls e) N 0%Qc pairs L) as (t & Et & P & Q).
  - intros sl vals Hin. split; [|apply Hp; auto].
    assert (Hi : In sl (map fst pairs)) by (apply in_map_iff; exists (sl, vals); auto). rewrite Em in Hi. apply filter_In in Hi; tauto.
  - rewrite Em. apply FOP_filter. eapply layout_disjoint; eauto.
  - exists t. split; auto. split.
    + intros sl s p c sp Hin Hs Hc Hsp. rewrite <- Em in Hin. apply in_map_iff in Hin as ([sl' vals] & E & Hin). simpl in E. subst sl'.
      destruct (Hp sl vals Hin) as [Hl Hx]. specialize (Hx p sp Hsp).
      destruct (@sp_lookup_defined sp v) as (x & Ex).
      { apply Hv. unfold e_species. apply in_flat_map. exists sl. split; [rewrite <- Em; apply in_map_iff; exists (sl, vals); auto|].
        eapply nth_error_In; eauto. }
      rewrite Ex in *. apply (P sl vals s p c x); auto.
    + intros sl s c Hin Ha Hs Hc. apply Q.
      * apply (@layout_site_lt _ _ _ _ L Hin Hs).
      * eapply code_lt_cols; eauto.
      * rewrite Em. intros sl' Hin' Hs'. apply filter_In in Hin' as [Hin' Ha'].
        destruct (In_nth_error _ _ Hin) as (j & Hj). destruct (In_nth_error _ _ Hin') as (j' & Hj').
        assert (j = j') by (eapply layout_unique; eauto). congruence.
Qed.

(** Assigning potentials that cover the species of the active sublattices (each once) always
    succeeds: no exception can leave the ensemble half changed. *)
Lemma sp_lookup_filter sp d (f : species -> bool) : f sp = true -> sp_lookup sp (filter (fun p => f (fst p)) d) = sp_lookup sp d.
Proof.
  intros H. induction d as [|[k x] d IH]; simpl; auto.
  destruct (sp_eqb k sp) eqn:E.
  - apply sp_eqb_eq in E. subst k. rewrite H. simpl. rewrite (proj2 (sp_eqb_eq sp sp) eq_refl). auto.
  - destruct (f k); simpl; [rewrite E|]; auto.
Qed.
Theorem C20_assign_complete : forall e N v, layout (e_sls e) N -> e_sites e = N -> coded (e_sls e) -> consistent e ->
  NoDup (map fst v) -> (forall sp, In sp (e_species e) -> In sp (map fst v)) ->
  exists e', assign_mu e (Some v) = Some e'.
Proof.
  intros e N v L HN C K Hn Hv. simpl.
  assert (D : sp_dup (map fst v) = false).
  { clear - Hn. induction (map fst v) as [|x l IH]; simpl; auto. inversion Hn; subst. rewrite IH by auto. rewrite orb_false_r.
    apply not_true_iff_false. rewrite sp_mem_In. auto. }
  rewrite D. set (v' := filter (fun p => sp_mem (fst p) (e_species e)) v).
  assert (S : forall sp, In sp (map fst v') <-> In sp (e_species e)).
  { intros sp. split; intros H.
    - apply in_map_iff in H as (p & <- & H). apply filter_In in H as [_ H]. apply sp_mem_In; auto.
    - specialize (Hv sp H). apply in_map_iff in Hv as (p & <- & Hp). apply in_map. apply filter_In. split; auto. apply sp_mem_In; auto. }
  rewrite (proj2 (same_species_spec _ _) S).
  assert (T : forall e1, e_sls e1 = e_sls e -> e_sites e1 = e_sites e -> exists t, mu_table e1 v' = Some t).
  { intros e1 E1 E2. destruct (@mu_table_spec e1 N v') as (t & Et & _); try congruence; [rewrite E1; auto..| |eauto].
    unfold e_species, e_active in *. rewrite E1. intros sp. apply S. }
  destruct (e_mu e) eqn:Em.
  - cbn [option_bind]. destruct (T e) as (t & Et); auto. rewrite Et. simpl. eauto.
  - unfold consistent in K. rewrite Em, app_nil_r in K. unfold set_params. rewrite K.
    rewrite firstn_app, Nat.sub_diag, firstn_all. simpl. rewrite app_nil_r, qlist_eqb_refl. cbn [option_bind].
    match goal with |- context [mu_table ?e1 v'] => destruct (T e1) as (t & Et); auto; rewrite Et end. simpl. eauto.
Qed.
(** Potentials missing a species of an active sublattice, or given twice, are rejected. *)
Theorem C20_assign_rejected : forall e v,
  (~ NoDup (map fst v) \/ exists sp, In sp (e_species e) /\ ~ In sp (map fst v)) -> assign_mu e (Some v) = None.
Proof.
  intros e v H. simpl. destruct (sp_dup (map fst v)) eqn:D; auto. destruct H as [H|(sp & Hs & Hn)].
  - exfalso. apply H. clear - D. induction (map fst v) as [|x l IH]; [constructor|]. simpl in D. apply orb_false_iff in D as [D1 D2].
    constructor; auto. intros Hx. apply sp_mem_In in Hx. congruence.
  - destruct (same_species _ (e_species e)) eqn:E; auto. exfalso. rewrite same_species_spec in E. apply Hn.
    apply E in Hs. apply in_map_iff in Hs as (p & <- & Hp). apply filter_In in Hp. apply in_map; tauto.
Qed.

(** The chemical work of an occupancy, straight after an assignment: the sum of the
    potentials of the species present on the active sublattices. *)
Definition work_of (e : ensemble) (v : list (species * Qc)) (o : list nat) (g : nat -> Qc) :=
  (forall sl s sp x, In sl (e_active e) -> carries sl o s sp -> sp_lookup sp v = Some x -> g s = x) /\
  (forall sl s, In sl (e_sls e) -> is_active sl = false -> In s (sl_sites sl) -> g s = 0%Qc).

Lemma assigned_cells e v e' N : layout (e_sls e) N -> e_sites e = N -> coded (e_sls e) -> consistent e ->
  assign_mu e (Some v) = Some e' -> exists v' t, e_mu e' = Some (v', t) /\
    (forall sl s p c sp, In sl (e_active e) -> In s (sl_sites sl) -> nth_error (sl_encoding sl) p = Some c ->
       nth_error (sl_species sl) p = Some sp -> get_val t s c = sp_lookup sp v /\ sp_lookup sp v <> None) /\
    (forall sl s c, In sl (e_sls e) -> is_active sl = false -> In s (sl_sites sl) -> In c (sl_encoding sl) ->
       get_val t s c = Some 0%Qc).
Proof.
  intros L HN C K H. destruct (assign_consistent K H) as (_ & _ & _ & t & Et & Em). exists (filter (fun p => sp_mem (fst p) (e_species e)) v), t.
  split; auto. simpl in H. destruct (sp_dup (map fst v)); [discriminate|].
  destruct (same_species _ (e_species e)) eqn:Es; [|discriminate]. clear H. rewrite same_species_spec in Es.
  destruct (@mu_table_spec e N (filter (fun p => sp_mem (fst p) (e_species e)) v) L HN C) as (t' & Et' & P & Q).
  { intros sp. apply Es. }
  assert (t' = t) by congruence. subst t'. split; auto.
  intros sl s p c sp Hin Hs Hc Hsp. rewrite (P sl s p c sp) by auto.
  assert (Hm : In sp (e_species e)) by (unfold e_species; apply in_flat_map; exists sl; split; auto; eapply nth_error_In; eauto).
  split; [apply (@sp_lookup_filter sp v (fun x => sp_mem x (e_species e))); apply sp_mem_In; auto|].
  apply Es in Hm. apply in_map_iff in Hm as ([k x] & E & Hp). simpl in E. subst k. apply filter_In in Hp as [Hp _].
  destruct (@sp_lookup_defined sp v) as (y & ->); [apply in_map_iff; exists (sp, x); auto|discriminate].
Qed.

Theorem C20_chemical_work : forall e v e' N o g, layout (e_sls e) N -> e_sites e = N -> coded (e_sls e) -> consistent e ->
  assign_mu e (Some v) = Some e' -> valid_occu (e_sls e) N o -> work_of e v o g ->
  e_features e' o = Some (e_feat e o ++ [qsum (map g (seq 0 N))]).
Proof.
  intros e v e' N o g L HN C K H [Vl V] [G1 G2].
  destruct (assigned_cells L HN C K H) as (v' & t & Em & P & Q).
  destruct (assign_consistent K H) as (_ & (_ & E2 & _) & _ & _).
  assert (G : forall s c, nth_error o s = Some c -> get_val t s c = Some (g s)).
  { intros s c Hs. assert (Hlt : s < N) by (rewrite <- Vl; apply nth_error_Some; congruence).
    destruct (@layout_covers _ N s L Hlt) as (sl & Hin & Hsl).
    destruct (V sl s Hin Hsl) as (c' & Hc' & Hce). assert (c' = c) by congruence. subst c'.
    destruct (is_active sl) eqn:Ea.
    - apply In_nth_error in Hce as (p & Hp).
      assert (Hp2 : p < length (sl_species sl)) by (rewrite (C sl Hin); apply nth_error_Some; congruence).
      destruct (nth_error (sl_species sl) p) as [sp|] eqn:Esp; [|apply nth_error_None in Esp; lia].
      assert (Hact : In sl (e_active e)) by (apply filter_In; auto).
      destruct (P sl s p c sp Hact Hsl Hp Esp) as [E Nn]. destruct (sp_lookup sp v) as [x|] eqn:Ex; [|congruence].
      rewrite (G1 sl s sp x Hact); auto. split; eauto.
    - rewrite (Q sl s c), (G2 sl s); auto. }
  unfold e_features. rewrite Em, E2. rewrite site_values_eq.
  - cbn [option_bind]. rewrite Vl. do 4 f_equal. apply map_ext_in. intros s Hs. apply in_seq in Hs.
    destruct (nth_error o s) as [c|] eqn:Ec; [|apply nth_error_None in Ec; lia].
    unfold val, code. rewrite (nth_error_nth _ _ _ Ec), (G s c Ec). auto.
  - intros s c Hs. rewrite (G s c Hs). discriminate.
Qed.

(** ** C21: changes of the feature vector *)
Definition exact_processor (e : ensemble) := forall o st, e_feat e (apply_step o st) = qvadd (e_feat e o) (e_dfeat e o st).
Definition same_length_features (e : ensemble) := forall o st, length (e_feat e o) = length (e_coefs e) /\ length (e_dfeat e o st) = length (e_coefs e).

Lemma qvadd_app a b c d : length a = length c -> qvadd (a ++ b) (c ++ d) = qvadd a c ++ qvadd b d.
Proof. revert c. induction a as [|x a IH]; intros [|y c] H; simpl in *; try discriminate; auto. unfold qvadd, qmap2 in *. simpl. f_equal. apply IH. lia. Qed.

(** Without chemical potentials every step is exact. *)
Theorem C21_no_potentials : forall e o st, e_mu e = None -> exact_processor e ->
  exists f d g, e_features e o = Some f /\ e_change e o st = Some d /\ e_features e (apply_step o st) = Some g /\ g = qvadd f d.
Proof.
  intros e o st Hm X. unfold e_features, e_change. rewrite Hm. do 3 eexists. repeat split. apply X.
Qed.

(** With chemical potentials: exact for steps that touch every site at most once.  Missing:
    steps with repeated sites, for which the claim is false. *)
Theorem C21_feature_change_partial : forall e v e' N o st,
  layout (e_sls e) N -> e_sites e = N -> coded (e_sls e) -> consistent e ->
  assign_mu e (Some v) = Some e' -> exact_processor e -> same_length_features e ->
  valid_occu (e_sls e) N o -> allowed_step (e_sls e) st -> NoDup (map fst st) ->
  exists f d g, e_features e' o = Some f /\ e_change e' o st = Some d /\
    e_features e' (apply_step o st) = Some g /\ g = qvadd f d.
Proof.
  intros e v e' N o st L HN C K H X Len V Hst Hn.
  assert (V' : valid_occu (e_sls e) N (apply_step o st)) by (eapply valid_step_occu; eauto).
  destruct (assigned_cells L HN C K H) as (v' & t & Em & P & Q).
  destruct (assign_consistent K H) as (_ & (_ & E2 & E3 & _) & _ & _).
  assert (G0 : forall sl s c, In sl (e_sls e) -> In s (sl_sites sl) -> In c (sl_encoding sl) -> get_val t s c <> None).
  { intros sl s c Hin Hsl Hce. destruct (is_active sl) eqn:Ea.
    - apply In_nth_error in Hce as (p & Hp).
      assert (Hp2 : p < length (sl_species sl)) by (rewrite (C sl Hin); apply nth_error_Some; congruence).
      destruct (nth_error (sl_species sl) p) as [sp|] eqn:Esp; [|apply nth_error_None in Esp; lia].
      assert (Hact : In sl (e_active e)) by (apply filter_In; auto).
      destruct (P sl s p c sp Hact Hsl Hp Esp) as [E Nn]. congruence.
    - rewrite (Q sl s c); auto. discriminate. }
  assert (D : forall o, valid_occu (e_sls e) N o -> all_defined t o).
  { intros o' [Vl' V1] s c Hs. assert (Hlt : s < N) by (rewrite <- Vl'; apply nth_error_Some; congruence).
    destruct (@layout_covers _ N s L Hlt) as (sl & Hin & Hsl).
    destruct (V1 sl s Hin Hsl) as (c' & Hc' & Hce). assert (c' = c) by congruence. subst c'. eauto. }
  unfold e_features, e_change. rewrite Em, E2, E3.
  rewrite !site_values_eq by auto. cbn [option_bind].
  rewrite (opt_map_map _ (fun f : nat * nat => (val t (fst f) (snd f) - val t (fst f) (code o (fst f)))%Qc)).
  2:{ intros [s c] Hf. cbn [fst snd]. destruct (Hst s c Hf) as (sl & Hin & Hs & Hc).
      destruct V as [Vl V]. destruct (V sl s Hin Hs) as (c0 & Ec0 & Hc0).
      pose proof (G0 sl s c Hin Hs Hc). pose proof (G0 sl s c0 Hin Hs Hc0).
      destruct (get_val t s c) as [x|] eqn:Ex; [|congruence]. destruct (get_val t s c0) as [y|] eqn:Ey; [|congruence].
      cbn [option_bind]. rewrite Ec0. cbn [option_bind]. rewrite Ey. cbn [option_bind]. unfold val, code.
      rewrite (nth_error_nth _ _ _ Ec0), Ex, Ey. auto. }
  cbn [option_bind]. do 3 eexists. split; [reflexivity|]. split; [reflexivity|]. split; [reflexivity|].
  destruct (Len o st) as [Lf Ld]. rewrite X. rewrite qvadd_app by congruence. f_equal.
  destruct V as [Vl V]. destruct V' as [Vl' _]. rewrite Vl', Vl.
  rewrite (@qsum_step (fun s c => val t s c) N st o Vl); auto.
  intros [s c] Hf. destruct (Hst s c Hf) as (sl & Hin & Hs & _). apply (@layout_site_lt _ _ _ _ L Hin Hs).
Qed.

(** Comparison of optional vectors by their reduced fractions. *)
Definition same_opt (a b : option (list Qc)) : bool :=
  match a, b with Some x, Some y => qlist_eqb x y | _, _ => false end.
Lemma qlist_eqb_eq a b : qlist_eqb a b = true <-> a = b.
Proof.
  revert b. induction a as [|x a IH]; intros [|y b]; simpl; split; intros H; try discriminate; auto.
  - apply andb_true_iff in H as [H1 H2]. destruct (Qceqb_spec x y); [|discriminate]. f_equal; auto. apply IH; auto.
  - injection H as -> ->. destruct (Qceqb_spec y y); [|contradiction]. simpl. apply IH; auto.
Qed.

(** ** Concrete cases *)
Definition ex_mu : list (species * Qc) := [(Sp 0, Qc_frac 1 2); (Sp 1, Qc_frac 3 1); (Sp 7, 0%Qc)].
(** A processor with one feature: the number of sites with code zero. *)
Definition ex_feat (o : list nat) : list Qc := [Qc_of_nat (countb (Nat.eqb 0) o)].
Definition ex_dfeat (o : list nat) (st : step) : list Qc := qvsub (ex_feat (apply_step o st)) (ex_feat o).
Definition ex_ens : ensemble := mkEns [Qc_of_nat 5] ex_feat ex_dfeat 5 ex_layout [Qc_of_nat 5] None.
Example ex_ens_ok : consistent ex_ens /\ exact_processor ex_ens /\ same_length_features ex_ens /\
  exists e, assign_mu ex_ens (Some ex_mu) = Some e /\
    e_features e ex_occu = Some [Qc_of_nat 3; Qc_frac 15 2].
Proof.
  split; [reflexivity|]. split; [|split].
  - intros o st. unfold ex_ens, ex_dfeat, ex_feat. simpl e_feat. simpl e_dfeat. unfold qvadd, qvsub. cbn. f_equal. ring.
  - intros o st. split; reflexivity.
  - assert (H : match assign_mu ex_ens (Some ex_mu) with
                | Some e => same_opt (e_features e ex_occu) (Some [Qc_of_nat 3; Qc_frac 15 2]) | None => false end = true) by (vm_compute; reflexivity).
    destruct (assign_mu ex_ens (Some ex_mu)) as [e|]; [|discriminate]. exists e. split; auto.
    destruct (e_features e ex_occu) as [f|]; [|discriminate]. simpl same_opt in H. apply qlist_eqb_eq in H. congruence.
Qed.
(** The change of the chemical work of a step that flips a site and flips it back. *)
Theorem C21_repeated_site_refuted : exists e' f d g, assign_mu ex_ens (Some ex_mu) = Some e' /\
  allowed_step ex_layout [(0, 0); (0, 1)] /\
  e_features e' ex_occu = Some f /\ e_change e' ex_occu [(0, 0); (0, 1)] = Some d /\
  e_features e' (apply_step ex_occu [(0, 0); (0, 1)]) = Some g /\ g = f /\ g <> qvadd f d.
Proof.
  assert (H : match assign_mu ex_ens (Some ex_mu) with
              | Some e => match e_features e ex_occu, e_change e ex_occu [(0, 0); (0, 1)], e_features e (apply_step ex_occu [(0, 0); (0, 1)]) with
                          | Some f, Some d, Some g => qlist_eqb g f && negb (qlist_eqb g (qvadd f d)) | _, _, _ => false end
              | None => false end = true) by (vm_compute; reflexivity).
  destruct (assign_mu ex_ens (Some ex_mu)) as [e|]; [|discriminate].
  destruct (e_features e ex_occu) as [f|] eqn:Ef; [|discriminate].
  destruct (e_change e ex_occu [(0, 0); (0, 1)]) as [d|] eqn:Ed; [|discriminate].
  destruct (e_features e (apply_step ex_occu [(0, 0); (0, 1)])) as [g|] eqn:Eg; [|discriminate].
  apply andb_true_iff in H as [H1 H2]. apply negb_true_iff in H2.
  exists e, f, d, g. split; auto. split.
  { intros s c H. simpl in H. exists (nth 0 ex_layout (mkSL [] [] [] [])). destruct H as [E|[E|[]]]; injection E as <- <-; simpl; auto 10. }
  split; auto. split; auto. split; auto. split; [apply qlist_eqb_eq; auto|]. intros E. apply qlist_eqb_eq in E. congruence.
Qed.

(** A history: set, restrict, reject, delete, delete again, set, change. *)
Example ex_history : exists e,
  ens_run (fun _ _ => true) ex_ens
    [AssignMu (Some ex_mu); AssignMu (Some []); AssignMu None; AssignMu None; AssignMu (Some ex_mu);
     AssignMu (Some [(Sp 1, 0%Qc); (Sp 0, Qc_of_nat 4)])] = Some e /\
  e_params e = [Qc_of_nat 5; (-(1))%Qc].
Proof.
  assert (H : match ens_run (fun _ _ => true) ex_ens
    [AssignMu (Some ex_mu); AssignMu (Some []); AssignMu None; AssignMu None; AssignMu (Some ex_mu);
     AssignMu (Some [(Sp 1, 0%Qc); (Sp 0, Qc_of_nat 4)])] with
     | Some e => qlist_eqb (e_params e) [Qc_of_nat 5; (-(1))%Qc] | None => false end = true) by (vm_compute; reflexivity).
  destruct (ens_run _ _ _) as [e|]; [|discriminate]. exists e. split; auto. apply qlist_eqb_eq; auto.
Qed.

(** ** C66: restricting sites after assigning potentials *)
(** Freezing and unfreezing sites keeps the chemical work right as long as every sublattice
    stays active or stays inactive.  Missing: the other case, for which the claim is false. *)
Theorem C66_work_partial : forall e v e' N o g f,
  layout (e_sls e) N -> e_sites e = N -> coded (e_sls e) -> consistent e ->
  assign_mu e (Some v) = Some e' ->
  (forall sl, In sl (e_sls e) -> sl_sites (f sl) = sl_sites sl /\ sl_encoding (f sl) = sl_encoding sl /\
     sl_species (f sl) = sl_species sl /\ is_active (f sl) = is_active sl) ->
  valid_occu (e_sls e) N o -> work_of (map_sls e f) v o g ->
  e_features (map_sls e' f) o = Some (e_feat e o ++ [qsum (map g (seq 0 N))]).
Proof.
  intros e v e' N o g f L HN C K H Hf V [G1 G2].
  change (e_features (map_sls e' f) o) with (e_features e' o). apply (C20_chemical_work L HN C K H V). split.
  - intros sl s sp x Hin Hc Hx. apply filter_In in Hin as [Hin Ha]. destruct (Hf sl Hin) as (F1 & F2 & F3 & F4).
    apply (G1 (f sl) s sp x); auto.
    + apply filter_In. split; [apply in_map; auto|congruence].
    + destruct Hc as [Hs (c & p & E1 & E2 & E3)]. split; [congruence|]. exists c, p. rewrite F2, F3. auto.
  - intros sl s Hin Ha Hs. destruct (Hf sl Hin) as (F1 & F2 & F3 & F4). apply (G2 (f sl) s); try congruence. apply in_map; auto.
Qed.
(** Freeze a whole sublattice, assign, unfreeze: its sites contribute nothing until the
    potentials are assigned again. *)
Theorem C66_unfreeze_refuted : exists e1 e2 f1 f2,
  assign_mu (map_sls ex_ens (fun sl => restrict_sites sl [0; 2; 3])) (Some ex_mu) = Some e1 /\
  assign_mu (map_sls e1 reset_restricted_sites) (Some ex_mu) = Some e2 /\
  e_sls e2 = e_sls (map_sls e1 reset_restricted_sites) /\
  e_features (map_sls e1 reset_restricted_sites) ex_occu = Some f1 /\ e_features e2 ex_occu = Some f2 /\ f1 <> f2.
Proof.
  set (frozen := map_sls ex_ens (fun sl => restrict_sites sl [0; 2; 3])).
  assert (H : match assign_mu frozen (Some ex_mu) with
              | Some e1 => match assign_mu (map_sls e1 reset_restricted_sites) (Some ex_mu) with
                           | Some e2 => match e_features (map_sls e1 reset_restricted_sites) ex_occu, e_features e2 ex_occu with
                                        | Some f1, Some f2 => negb (qlist_eqb f1 f2) | _, _ => false end
                           | None => false end
              | None => false end = true) by (vm_compute; reflexivity).
  destruct (assign_mu frozen (Some ex_mu)) as [e1|] eqn:E1; [|discriminate].
  destruct (assign_mu (map_sls e1 reset_restricted_sites) (Some ex_mu)) as [e2|] eqn:E2; [|discriminate].
  destruct (e_features (map_sls e1 reset_restricted_sites) ex_occu) as [f1|] eqn:F1; [|discriminate].
  destruct (e_features e2 ex_occu) as [f2|] eqn:F2; [|discriminate].
  exists e1, e2, f1, f2. split; auto. split; auto. split.
  - assert (C0 : consistent frozen) by reflexivity.
    destruct (assign_consistent C0 E1) as (C1 & _).
    destruct (@assign_consistent (map_sls e1 reset_restricted_sites) (Some ex_mu) e2 C1 E2) as (_ & _ & S & _). exact S.
  - split; auto. split; auto. intros ->. apply negb_true_iff in H. rewrite (proj2 (qlist_eqb_eq f2 f2) eq_refl) in H. discriminate.
Qed.
Print Assumptions C20_parameters.
Print Assumptions C20_assign_complete.
Print Assumptions C20_assign_rejected.
Print Assumptions C20_chemical_work.
Print Assumptions C21_no_potentials.
Print Assumptions C21_feature_change_partial.
Print Assumptions C21_repeated_site_refuted.
Print Assumptions C66_work_partial.
Print Assumptions C66_unfreeze_refuted.

(** C04 in an ensemble: the parts take the place of the split sublattice, the others and the processor stay, and every
    species that is still active keeps its chemical potential. *)
Theorem C04_ensemble : forall leb e k occu groups e', consistent e -> split_sublattice leb e k occu groups = Some e' ->
  (exists before sl parts after, e_sls e = before ++ sl :: after /\ length before = k /\
     split_by_species leb sl occu groups = Some parts /\ e_sls e' = before ++ parts ++ after) /\
  same_processor e e' /\
  match e_mu e, e_mu e' with
  | None, None => True
  | Some (v, _), Some (v', _) => forall sp x, In (sp, x) v' -> sp_lookup sp v = Some x
  | _, _ => False
  end.
Proof.
  intros leb e k occu groups e' C H. assert (C' := H). apply (@do_consistent leb e (SplitSl k occu groups) e' C) in C' as [_ HP].
  unfold split_sublattice in H. destruct (nth_error (e_sls e) k) as [sl|] eqn:Ek; [|discriminate]. cbn [option_bind] in H.
  destruct (split_by_species leb sl occu groups) as [parts|] eqn:Ep; [|discriminate]. cbn [option_bind] in H.
  set (e1 := mkEns (e_coefs e) (e_feat e) (e_dfeat e) (e_sites e) _ _ _) in H.
  assert (Hl : e_sls e = firstn k (e_sls e) ++ sl :: skipn (S k) (e_sls e) /\ length (firstn k (e_sls e)) = k).
  { clear - Ek. revert k Ek. generalize (e_sls e) as l. induction l as [|x l IH]; intros [|k] E; simpl in *; try discriminate.
    - injection E as ->. auto.
    - destruct (IH k E) as [E1 E2]. split; [f_equal; exact E1|]. f_equal; auto. }
  assert (Hs : e_sls e' = e_sls e1 /\ match e_mu e, e_mu e' with
    | None, None => True | Some (v, _), Some (v', _) => forall sp x, In (sp, x) v' -> sp_lookup sp v = Some x | _, _ => False end).
  { destruct (e_mu e) as [[v t]|] eqn:Em.
    - destruct (opt_map _ _) as [v2|] eqn:Ev; [|discriminate]. cbn [option_bind] in H.
      assert (C1 : consistent e1) by (unfold consistent in *; rewrite Em in C; exact C).
      destruct (assign_consistent C1 H) as (_ & _ & E1 & (t' & _ & E2)). split; auto. rewrite E2. intros sp x Hin. apply filter_In in Hin as [Hin _].
      clear - Ev Hin. revert v2 Ev Hin. generalize (nodup sp_dec (e_species e1)) as l. induction l as [|s l IH]; intros v2 Ev Hin; simpl in Ev; [injection Ev as <-; contradiction|].
      destruct (sp_lookup s v) as [y|] eqn:Es; [|discriminate]. cbn [option_bind] in Ev. destruct (opt_map _ l) as [v3|] eqn:E3; [|discriminate]. injection Ev as <-.
      destruct Hin as [[= <- <-]|Hin]; auto. eapply IH; eauto.
    - injection H as <-. cbn [e1 e_sls e_mu]. split; auto. }
  destruct Hs as [Hs Hm]. split; [|split; auto]. exists (firstn k (e_sls e)), sl, parts, (skipn (S k) (e_sls e)). split; [apply Hl|]. split; [apply Hl|]. split; auto.
Qed.
Print Assumptions C04_ensemble.
Example C04_ensemble_case : exists e e', assign_mu ex_ens (Some ex_mu) = Some e /\
  split_sublattice (fun _ _ => true) e 1 ex_occu [[0]; [2]] = Some e' /\
  map sl_sites (e_sls e') = [[0; 2; 3]; [4]; [1]] /\ map sl_active (e_sls e') = [[0; 3]; []; []] /\
  option_map (fun m => map fst (fst m)) (e_mu e') = Some [Sp 0; Sp 1].
Proof.
  assert (H : match assign_mu ex_ens (Some ex_mu) with
    | Some e => option_map (fun e' => (map sl_sites (e_sls e'), map sl_active (e_sls e'), option_map (fun m => map fst (fst m)) (e_mu e')))
                  (split_sublattice (fun _ _ => true) e 1 ex_occu [[0]; [2]])
    | None => None end = Some ([[0; 2; 3]; [4]; [1]], [[0; 3]; []; []], Some [Sp 0; Sp 1])) by (vm_compute; reflexivity).
  destruct (assign_mu ex_ens (Some ex_mu)) as [e|]; [|discriminate]. destruct (split_sublattice _ e 1 ex_occu _) as [e'|] eqn:E; [|discriminate].
  injection H as H1 H2 H3. exists e, e'. auto.
Qed.
