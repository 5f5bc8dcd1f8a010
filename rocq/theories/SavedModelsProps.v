(** Properties C130 to C135: saving, loading and copying processors and expansions. *)
From Verif Require Import SavedModels LibProofs EvaluatorProofs SubspaceSpec SubspaceProofs SubspaceProps SubspaceViewsProps ExpansionProps PruneProps.
From Coq Require Import Lia.
Set Implicit Arguments.
Unset Strict Implicit.
Open Scope nat_scope.

(** ** Specification *)
(** Clusters have sites in every supercell. *)
Definition proper (G : geometry) : Prop := forall m k, g_gen G m k <> [].
(** A subspace after any history that still has orbits, with at most one (valid) external term. *)
Definition good (G : geometry) (s : space) : Prop :=
  reachable (g_gen G) (sp_sub s) /\ sub_orbits (sp_sub s) <> [] /\ length (sp_ext s) <= 1 /\ Forall (fun t => et_use t < 4) (sp_ext s).
Definition with_space (p : processor) (s : space) : processor := mkPr s (pr_mat p) (pr_coefs p) (pr_kind p).
(** What may happen to the subspace that a processor shares with others: tables are asked for, an Ewald term is added. *)
Inductive touched (G : geometry) : (space -> space) -> Prop :=
| t_ask m : touched G (ask (g_gen G) m)
| t_term : touched G with_ewald.
(** Processors with the coefficients that the constructor is given or, for decompositions, that it finds. *)
Inductive made (G : geometry) : processor -> Prop :=
| made_expansion sp m coefs p : good G sp -> make_expansion_proc G sp m coefs = Some p -> made G p
| made_decomposition sp m o ts p : good G sp -> make_decomposition G sp m o ts None = Some p -> made G p
| made_ewald sp m t c : good G sp -> et_use t < 4 -> made G (make_ewald sp m t [c])
| made_touched f p : touched G f -> made G p -> made G (with_space p (f (pr_space p))).
Definition touch (f : space -> space) (c : composite) : composite :=
  mkCo (f (co_space c)) (co_mat c) (map (fun p => with_space p (f (pr_space p))) (co_parts c)) (co_coefs c).
Inductive made_composite (G : geometry) : composite -> Prop :=
| mc_new sp m : good G sp -> made_composite G (make_composite sp m)
| mc_add c p c' : made_composite G c -> made G p -> add_processor c (One p) = Some c' -> made_composite G c'
| mc_touched f c : touched G f -> made_composite G c -> made_composite G (touch f c).
(** Expansions: made, used for predictions, pruned. *)
Inductive grown (G : geometry) : expansion -> Prop :=
| gr_make sp coefs r x : good G sp -> make_expansion sp coefs r = Some x -> grown G x
| gr_ask m x : grown G x -> grown G (mkX (ask (g_gen G) m (x_space x)) (x_coefs x) (x_reg x) (x_feat x))
| gr_prune thr w x x' : grown G x -> x_prune thr w x = Some x' -> grown G x'.

(** ** Subspaces *)
Lemma term_reload t : et_use t < 4 -> term_from_dict (term_as_dict t) = Some t.
Proof. intros H. unfold term_from_dict, term_as_dict, make_term. cbn [fst snd]. destruct (Nat.ltb_spec (et_use t) 4); [|lia]. destruct t; auto. Qed.
Lemma space_reload G s : proper G -> good G s -> space_load (space_as_dict s) = Some s.
Proof.
  intros HG (HR & Hne & HL & HV). unfold space_load, space_as_dict. cbn [fst snd]. rewrite (C72_subspace HG HR Hne). cbn [option_bind].
  destruct s as [st ext]. cbn [sp_ext sp_sub] in *. destruct ext as [|t [|t' ext]]; [reflexivity| |cbn in HL; lia].
  cbn [map fold_left load_term option_bind]. inversion HV; subst. rewrite term_reload by auto. reflexivity.
Qed.
Lemma reachable_step gen st op : reachable gen st -> reachable gen (run_op gen st op).
Proof. intros (items & ops & H & ->). exists items, (ops ++ [op]). split; auto. rewrite fold_left_app. auto. Qed.
Lemma ask_orbits gen m st : sub_orbits (snd (orbit_indices gen m st)) = sub_orbits st /\ sub_norb (snd (orbit_indices gen m st)) = sub_norb st /\ sub_ncorr (snd (orbit_indices gen m st)) = sub_ncorr st.
Proof. unfold orbit_indices. destruct (find _ _); auto. Qed.
Lemma ask_good G m s : good G s -> good G (ask (g_gen G) m s).
Proof.
  intros (HR & Hne & HL & HV). unfold good, ask. cbn [sp_sub sp_ext]. destruct (ask_orbits (g_gen G) m (sp_sub s)) as (-> & _). repeat split; auto.
  apply (@reachable_step (g_gen G) (sp_sub s) (OIndices m)). auto.
Qed.
Lemma ewald_good G s : good G s -> good G (with_ewald s).
Proof.
  intros (HR & Hne & HL & HV). unfold with_ewald. destruct (sp_ext s) as [|t ext] eqn:E; [|unfold good; rewrite E; auto].
  unfold good. cbn [sp_sub sp_ext]. repeat split; auto. repeat constructor.
Qed.
Lemma touched_good G f s : touched G f -> good G s -> good G (f s).
Proof. intros [m|]; [apply ask_good|apply ewald_good]. Qed.
Lemma mat_eqb_refl m : mat_eqb m m = true.
Proof. assert (H : forall r, zrow_eqb r r = true) by (induction r as [|x r IH]; simpl; auto; rewrite Z.eqb_refl; auto). induction m as [|r m IH]; simpl; auto. rewrite H. auto. Qed.
(** Tables that were asked for stay. *)
Definition asked gen m st := snd (orbit_indices gen m st) = st.
Lemma cache_cons (x : scmatrix * list ctable) l : x :: l <> l.
Proof. intros H. apply (f_equal (@length _)) in H. simpl in H. lia. Qed.
Lemma asked_find gen m st : asked gen m st <-> exists kv, find (fun kv => mat_eqb (fst kv) (sort_rows m)) (sub_cache st) = Some kv.
Proof.
  unfold asked, orbit_indices. destruct (find _ _) as [kv|]; cbn [snd]; [split; eauto|]. split; [|intros (kv & H); discriminate].
  intros H. exfalso. apply (f_equal sub_cache) in H. cbn [sub_cache] in H. exact (cache_cons H).
Qed.
Definition lookup_table m st := find (fun kv : scmatrix * list ctable => mat_eqb (fst kv) (sort_rows m)) (sub_cache st).
Lemma indices_found gen m st kv : lookup_table m st = Some kv -> orbit_indices gen m st = (snd kv, st).
Proof. unfold lookup_table, orbit_indices. intros ->. auto. Qed.
Lemma indices_new gen m st : lookup_table m st = None ->
  orbit_indices gen m st = (map (fun o => gen m (s_key o)) (sub_orbits st),
    mkSub (sub_items st) (sub_norb st) (sub_ncorr st) (sub_nclus st) (sub_eval st) ((sort_rows m, map (fun o => gen m (s_key o)) (sub_orbits st)) :: sub_cache st)).
Proof. unfold lookup_table, orbit_indices. intros ->. auto. Qed.
Lemma ask_asked gen m st : asked gen m (snd (orbit_indices gen m st)) /\ fst (orbit_indices gen m (snd (orbit_indices gen m st))) = fst (orbit_indices gen m st).
Proof.
  destruct (lookup_table m st) as [kv|] eqn:E.
  - pose proof (indices_found gen E) as X. unfold asked. rewrite X. cbn [fst snd]. rewrite X. auto.
  - rewrite (indices_new gen E). cbn [fst snd]. unfold asked. erewrite indices_found; [split; cbn [snd fst]; [reflexivity|]|]; [|unfold lookup_table; cbn [sub_cache find fst]; rewrite mat_eqb_refl; reflexivity]. auto.
Qed.
Lemma ask_other gen m m' st : asked gen m st ->
  asked gen m (snd (orbit_indices gen m' st)) /\ fst (orbit_indices gen m (snd (orbit_indices gen m' st))) = fst (orbit_indices gen m st).
Proof.
  intros H. pose proof H as H0. apply asked_find in H as (kv & E). destruct (lookup_table m' st) as [kv'|] eqn:E'.
  - rewrite (indices_found gen E'). auto.
  - rewrite (indices_new gen E'), (@indices_found gen m st kv E). cbn [fst snd]. unfold asked.
    assert (X : lookup_table m (mkSub (sub_items st) (sub_norb st) (sub_ncorr st) (sub_nclus st) (sub_eval st) ((sort_rows m', map (fun o => gen m' (s_key o)) (sub_orbits st)) :: sub_cache st)) = Some kv).
    { unfold lookup_table. cbn [sub_cache find fst]. destruct (mat_eqb (sort_rows m') (sort_rows m)) eqn:Em; [|exact E]. apply mat_eqb_eq in Em. unfold lookup_table in E'. rewrite Em in E'. congruence. }
    rewrite (indices_found gen X). auto.
Qed.
Lemma touched_asked G f m s : touched G f -> asked (g_gen G) m (sp_sub s) ->
  asked (g_gen G) m (sp_sub (f s)) /\ fst (orbit_indices (g_gen G) m (sp_sub (f s))) = fst (orbit_indices (g_gen G) m (sp_sub s)).
Proof. intros [m'|] H; [apply ask_other; auto|]. unfold with_ewald. destruct (sp_ext s); auto. Qed.
Lemma touched_orbits G f s : touched G f -> sub_orbits (sp_sub (f s)) = sub_orbits (sp_sub s) /\ sub_norb (sp_sub (f s)) = sub_norb (sp_sub s) /\ sub_ncorr (sp_sub (f s)) = sub_ncorr (sp_sub s).
Proof. intros [m|]; [apply ask_orbits|]. unfold with_ewald. destruct (sp_ext s); auto. Qed.
Lemma make_proc_eq G a b m o ts : sub_orbits (sp_sub a) = sub_orbits (sp_sub b) -> sub_norb (sp_sub a) = sub_norb (sp_sub b) -> sub_ncorr (sp_sub a) = sub_ncorr (sp_sub b) ->
  fst (orbit_indices (g_gen G) m (sp_sub a)) = fst (orbit_indices (g_gen G) m (sp_sub b)) -> make_proc G a m o ts = make_proc G b m o ts.
Proof. intros H1 H2 H3 H4. unfold make_proc. rewrite H1, H2, H3, H4. auto. Qed.

(** ** C130: processors *)
(** What stays true of a processor while its subspace is shared. *)
Definition settled (G : geometry) (p : processor) : Prop :=
  good G (pr_space p) /\
  match pr_kind p with
  | KExpansion P => asked (g_gen G) (pr_mat p) (sp_sub (pr_space p)) /\ length (pr_coefs p) = sub_ncorr (sp_sub (pr_space p)) /\
                    make_proc G (pr_space p) (pr_mat p) (Q2Qc 0) None = Some P
  | KDecomposition o ts P => asked (g_gen G) (pr_mat p) (sp_sub (pr_space p)) /\ S (length ts) = sub_norb (sp_sub (pr_space p)) /\
                    make_proc G (pr_space p) (pr_mat p) o (Some ts) = Some P
  | KEwald t s => et_use t < 4 /\ sp_ext (pr_space p) <> [] /\ s = (pr_mat p, et_real t, et_recip t, et_eta t)
  end.
Lemma settled_touched G f p : touched G f -> settled G p -> settled G (with_space p (f (pr_space p))).
Proof.
  intros Hf [H1 H2]. split; [apply touched_good; auto|]. cbn [with_space pr_space pr_kind pr_mat pr_coefs]. destruct (touched_orbits (pr_space p) Hf) as (E1 & E2 & E3).
  destruct (pr_kind p) as [P|o ts P|t s].
  - destruct H2 as (A & B & C). destruct (touched_asked Hf A) as [A1 A2]. rewrite (make_proc_eq (Q2Qc 0) None E1 E2 E3 A2), E3. auto.
  - destruct H2 as (A & B & C). destruct (touched_asked Hf A) as [A1 A2]. rewrite (make_proc_eq o (Some ts) E1 E2 E3 A2), E2. auto.
  - destruct H2 as (A & B & C). repeat split; auto. destruct Hf as [m|]; auto. unfold with_ewald. destruct (sp_ext (pr_space p)) eqn:E; [congruence|]. rewrite E. discriminate.
Qed.
Lemma ask_make_proc G sp m o ts : make_proc G (ask (g_gen G) m sp) m o ts = make_proc G sp m o ts.
Proof.
  destruct (ask_orbits (g_gen G) m (sp_sub sp)) as (E1 & E2 & E3). apply make_proc_eq; auto. unfold ask. cbn [sp_sub]. apply ask_asked.
Qed.
Lemma expansion_settled G sp m coefs p : good G sp -> make_expansion_proc G sp m coefs = Some p -> settled G p.
Proof.
  intros HG E. unfold make_expansion_proc in E. destruct (Nat.eqb_spec (length coefs) (sub_ncorr (sp_sub sp))) as [El|]; [|discriminate].
  destruct (make_proc G sp m (Q2Qc 0) None) as [P|] eqn:EP; [|discriminate]. injection E as <-. split; [apply ask_good; auto|]. cbn [pr_kind pr_space pr_mat pr_coefs].
  rewrite ask_make_proc. unfold ask. cbn [sp_sub]. destruct (ask_orbits (g_gen G) m (sp_sub sp)) as (_ & _ & ->). split; [apply ask_asked|auto].
Qed.
Lemma decomposition_settled G sp m o ts cs p : good G sp -> make_decomposition G sp m o ts cs = Some p -> settled G p /\ default_coefs (pr_space p) = default_coefs sp.
Proof.
  intros HG E. unfold make_decomposition in E. destruct (Nat.eqb_spec (S (length ts)) (sub_norb (sp_sub sp))) as [El|]; [|discriminate].
  destruct (make_proc G sp m o (Some ts)) as [P|] eqn:EP; [|discriminate]. injection E as <-. unfold default_coefs. cbn [pr_kind pr_space pr_mat pr_coefs].
  destruct (ask_orbits (g_gen G) m (sp_sub sp)) as (E1 & E2 & _). split.
  - split; [apply ask_good; auto|]. cbn [pr_kind pr_space pr_mat pr_coefs]. rewrite ask_make_proc. unfold ask. cbn [sp_sub]. rewrite E2. split; [apply ask_asked|auto].
  - unfold ask. cbn [sp_sub]. rewrite E1. auto.
Qed.
Lemma asked_same G m s : asked (g_gen G) m (sp_sub s) -> ask (g_gen G) m s = s.
Proof. unfold asked, ask. intros ->. destruct s; auto. Qed.
Lemma settled_load G p : proper G -> settled G p ->
  proc_load G (proc_as_dict p) = Some (mkPr (pr_space p) (pr_mat p) (match pr_kind p with KDecomposition _ _ _ => default_coefs (pr_space p) | _ => pr_coefs p end) (pr_kind p)).
Proof.
  intros HP [HG HK]. unfold proc_load, proc_as_dict. cbn [pd_kind pd_sub pd_mat pd_coefs]. destruct (pr_kind p) as [P|o ts P|t s].
  - rewrite (space_reload HP HG). cbn [option_bind]. destruct HK as (A & B & C). unfold make_expansion_proc. rewrite B, Nat.eqb_refl, C. cbn [option_bind]. rewrite (asked_same A). auto.
  - rewrite (space_reload HP HG). cbn [option_bind]. destruct HK as (A & B & C). unfold make_decomposition. rewrite B, Nat.eqb_refl, C. cbn [option_bind]. rewrite (asked_same A). auto.
  - rewrite (space_reload HP HG). cbn [option_bind]. destruct HK as (A & B & C). rewrite term_reload by auto. cbn [option_bind make_ewald pr_space pr_mat pr_coefs].
    unfold with_ewald. destruct (sp_ext (pr_space p)) eqn:E; [congruence|]. auto.
Qed.
Lemma made_settled G p : made G p -> settled G p /\ (forall o ts P, pr_kind p = KDecomposition o ts P -> pr_coefs p = default_coefs (pr_space p)).
Proof.
  induction 1 as [sp m coefs p HG E|sp m o ts p HG E|sp m t c HG Ht|f p Hf H [IH1 IH2]].
  - split; [eapply expansion_settled; eauto|]. unfold make_expansion_proc in E. destruct (_ =? _); [|discriminate]. destruct (make_proc _ _ _ _ _); [|discriminate]. injection E as <-. discriminate.
  - destruct (decomposition_settled HG E) as [H1 H2]. split; auto. intros o' ts' P _. rewrite H2. unfold make_decomposition in E. destruct (_ =? _); [|discriminate].
    destruct (make_proc _ _ _ _ _); [|discriminate]. injection E as <-. auto.
  - split; [|discriminate]. split; [apply ewald_good; auto|]. cbn [make_ewald pr_kind pr_space pr_mat]. repeat split; auto. unfold with_ewald. destruct (sp_ext sp) eqn:E; [discriminate|rewrite E; discriminate].
  - split; [apply settled_touched; auto|]. cbn [with_space pr_kind pr_coefs pr_space]. intros o ts P E. rewrite (IH2 _ _ _ E). unfold default_coefs. destruct (touched_orbits (pr_space p) Hf) as (-> & _). auto.
Qed.
(** A processor that is saved and loaded is the processor it was: subspace, matrix, coefficients, evaluator, tables and Ewald summation. *)
Theorem C130_processors G p : proper G -> made G p -> proc_load G (proc_as_dict p) = Some p.
Proof.
  intros HP HM. destruct (made_settled HM) as [H1 H2]. rewrite (settled_load HP H1). f_equal. destruct p as [s m cs k]. cbn [pr_space pr_mat pr_coefs pr_kind] in *. destruct k; auto. rewrite (H2 _ _ _ eq_refl). auto.
Qed.
(** In particular it computes the same. *)
Theorem C130_values G p p' occu flips : proper G -> made G p -> proc_load G (proc_as_dict p) = Some p' ->
  part_property (as_part G p') occu = part_property (as_part G p) occu /\ part_property_change (as_part G p') occu flips = part_property_change (as_part G p) occu flips /\
  part_feature (as_part G p') occu = part_feature (as_part G p) occu /\ part_feature_change (as_part G p') occu flips = part_feature_change (as_part G p) occu flips.
Proof. intros HP HM E. rewrite (C130_processors HP HM) in E. injection E as <-. auto. Qed.
(** So is a composite of them. *)
Definition fits (c : composite) (p : processor) : Prop := space_eqb (co_space c) (pr_space p) = true /\ mat_eqb (co_mat c) (pr_mat p) = true.
Lemma space_eqb_touched G f a b : touched G f -> space_eqb a b = true -> space_eqb (f a) (f b) = true.
Proof.
  intros Hf H. destruct Hf as [m|].
  - destruct (ask_orbits (g_gen G) m (sp_sub a)) as (A1 & _ & A3), (ask_orbits (g_gen G) m (sp_sub b)) as (B1 & _ & B3). unfold space_eqb, sub_eqb, ask in *. cbn [sp_sub sp_ext]. rewrite A1, A3, B1, B3. exact H.
  - destruct a as [sa [|ta ea]], b as [sb [|tb eb]]; unfold space_eqb, sub_eqb, with_ewald in *; cbn [sp_sub sp_ext map length Nat.eqb negb combine forallb fst snd andb] in *; auto; destruct (negb (sub_ncorr sb =? sub_ncorr sa)); try discriminate.
Qed.
Lemma made_parts G c : made_composite G c -> good G (co_space c) /\ Forall (made G) (co_parts c) /\ Forall (fits c) (co_parts c) /\ co_coefs c = flat_map pr_coefs (co_parts c).
Proof.
  induction 1 as [sp m HG|c p c' H (I1 & I2 & I3 & I4) Hp E|f c Hf H (I1 & I2 & I3 & I4)].
  - cbn [make_composite co_space co_parts co_coefs flat_map]. split; [exact HG|]. split; [constructor|split; [constructor|auto]].
  - cbn [add_processor] in E. destruct (space_eqb (co_space c) (pr_space p)) eqn:E1; [|discriminate]. destruct (mat_eqb (co_mat c) (pr_mat p)) eqn:E2; [|discriminate]. cbn [negb] in E. injection E as <-.
    cbn [co_space co_parts co_coefs]. split; auto. split; [apply Forall_app; auto|]. split; [|rewrite flat_map_app, I4; cbn [flat_map]; rewrite app_nil_r; auto].
    apply Forall_app. split; [exact I3|]. constructor; [split; auto|constructor].
  - cbn [touch co_space co_parts co_coefs]. split; [apply touched_good; auto|]. rewrite !Forall_map. split; [|split].
    + apply Forall_forall. intros p Hp. apply made_touched; auto. rewrite Forall_forall in I2. auto.
    + apply Forall_forall. intros p Hp. rewrite Forall_forall in I3. destruct (I3 p Hp) as [E1 E2]. split; cbn [touch co_space co_mat with_space pr_space pr_mat]; auto. eapply space_eqb_touched; eauto.
    + rewrite I4. clear. induction (co_parts c) as [|p ps IH]; auto. cbn [map flat_map]. rewrite IH. auto.
Qed.
Theorem C130_composites G c : proper G -> made_composite G c -> comp_load G (comp_as_dict c) = Some c.
Proof.
  intros HP HC. destruct (made_parts HC) as (H1 & H2 & H3 & H4). unfold comp_load, comp_as_dict. cbn [fst snd]. rewrite (space_reload HP H1). cbn [option_bind].
  assert (X : forall ps done cs, Forall (made G) ps -> Forall (fits c) ps ->
    fold_left (fun acc pd => let? k := acc in let? p := proc_load G pd in add_processor k (One p)) (map proc_as_dict ps) (Some (mkCo (co_space c) (co_mat c) done cs)) =
    Some (mkCo (co_space c) (co_mat c) (done ++ ps) (cs ++ flat_map pr_coefs ps))).
  { induction ps as [|p ps IH]; intros done cs Hm Hf; cbn [map fold_left flat_map]; [rewrite !app_nil_r; auto|]. inversion Hm; subst. inversion Hf as [|? ? [F1 F2] F3]; subst.
    cbn [option_bind]. rewrite C130_processors by auto. cbn [option_bind add_processor co_space co_mat co_parts co_coefs]. rewrite F1, F2. cbn [negb]. rewrite IH by auto. rewrite <- !app_assoc. auto. }
  unfold make_composite. rewrite X by auto. cbn [app]. rewrite <- H4. destruct c; auto.
Qed.
Theorem C130_composite_values G c c' occu flips : proper G -> made_composite G c -> comp_load G (comp_as_dict c) = Some c' ->
  composite_property (map (as_part G) (co_parts c')) occu = composite_property (map (as_part G) (co_parts c)) occu /\
  composite_property_change (map (as_part G) (co_parts c')) occu flips = composite_property_change (map (as_part G) (co_parts c)) occu flips /\ co_coefs c' = co_coefs c.
Proof. intros HP HM E. rewrite (C130_composites HP HM) in E. injection E as <-. auto. Qed.

(** ** C131: coefficients given to decompositions *)
Theorem C131_default_partial G sp m o ts cs p : proper G -> good G sp -> make_decomposition G sp m o ts (Some cs) = Some p -> cs = default_coefs sp -> proc_load G (proc_as_dict p) = Some p.
Proof.
  intros HP HG E Ec. apply C130_processors; auto. eapply made_decomposition; eauto. unfold make_decomposition in *. rewrite <- Ec. exact E.
Qed.
(** Coefficients other than the multiplicities are saved, but not loaded: the processor loaded has the multiplicities. *)
Theorem C131_given_refuted G sp m o ts cs p : proper G -> good G sp -> make_decomposition G sp m o ts (Some cs) = Some p -> cs <> default_coefs sp ->
  pd_coefs (proc_as_dict p) = cs /\
  exists p', proc_load G (proc_as_dict p) = Some p' /\ pr_coefs p' = default_coefs sp /\ pr_coefs p' <> pr_coefs p /\ pr_kind p' = pr_kind p.
Proof.
  intros HP HG E Hc. destruct (decomposition_settled HG E) as [H1 H2]. assert (Ek : pr_coefs p = cs /\ exists P, pr_kind p = KDecomposition o ts P).
  { unfold make_decomposition in E. destruct (_ =? _); [|discriminate]. destruct (make_proc _ _ _ _ _) as [P|]; [|discriminate]. injection E as <-. split; [reflexivity|]. exists P. reflexivity. }
  destruct Ek as (E1 & P & E2). split; [auto|]. eexists. split; [apply (settled_load HP H1)|]. rewrite E2. cbn [pr_coefs pr_kind]. rewrite H2, E1. repeat split; auto.
Qed.

(** ** C132 and C133: expansions *)
Definition held (G : geometry) (x : expansion) : Prop :=
  reachable (g_gen G) (sp_sub (x_space x)) /\ length (sp_ext (x_space x)) <= 1 /\ Forall (fun t => et_use t < 4) (sp_ext (x_space x)) /\
  interaction_tensors (sub_orbits (sp_sub (x_space x))) (x_coefs x) (length (sp_ext (x_space x))) <> None /\
  match x_reg x with
  | None => x_feat x = None
  | Some r => exists n, columns (r_features r) = Some n /\ length (x_coefs x) <= n /\ (length (x_coefs x) = n -> x_feat x = Some (r_features r))
  end.
Lemma drop_all {A} ids n (l : list A) : length (drop_at ids n l) = length l -> drop_at ids n l = l /\ forall j, n <= j < n + length l -> ~ In j ids.
Proof.
  revert n. induction l as [|a l IH]; intros n H; simpl in *; [split; auto; intros; lia|]. pose proof (@length_drop_le _ ids (S n) l) as L.
  destruct (existsb (Nat.eqb n) ids) eqn:E; [lia|]. cbn [length] in H. destruct (IH (S n)) as [I1 I2]; [lia|]. split; [congruence|].
  intros j Hj Hin. destruct (Nat.eq_dec j n) as [->|]; [|apply (I2 j); auto; lia]. assert (existsb (Nat.eqb n) ids = true); [|congruence]. apply existsb_exists. exists n. rewrite Nat.eqb_refl. auto.
Qed.
Lemma small_ids_lt thr l j : In j (small_ids thr l) -> j < length l.
Proof. intros H. apply small_ids_in in H as (x & E & _). apply nth_error_Some. congruence. Qed.
Lemma columns_rows m n row : columns m = Some n -> In row m -> length row = n.
Proof.
  unfold columns. destruct m as [|r m]; [discriminate|]. destruct (forallb _ _) eqn:E; [|discriminate]. intros [= <-] [<-|H]; auto. rewrite forallb_forall in E. apply Nat.eqb_eq, E. auto.
Qed.
Lemma grown_held G x : proper G -> grown G x -> held G x.
Proof.
  intros HP. induction 1 as [sp coefs r x HG E|m x H IH|thr w x x' H IH E].
  - unfold make_expansion in E. destruct (reg_fits coefs r) eqn:Er; [|discriminate]. cbn [negb] in E. destruct (negb _); [discriminate|].
    rewrite (space_reload HP HG) in E. cbn [option_bind] in E. destruct (interaction_tensors _ _ _) eqn:Ei; [|discriminate]. injection E as <-.
    destruct HG as (H1 & H2 & H3 & H4). unfold held. cbn [x_space x_coefs x_reg x_feat]. rewrite Ei. repeat split; auto; [discriminate|].
    destruct r as [d|]; cbn [option_map]; auto. cbn [reg_fits] in Er. destruct (columns (r_features d)) as [n|]; [|discriminate]. apply Nat.eqb_eq in Er. exists n. repeat split; auto. lia.
  - destruct IH as (I1 & I2 & I3 & I4 & I5). unfold held. cbn [x_space x_coefs x_reg x_feat ask sp_sub sp_ext]. destruct (ask_orbits (g_gen G) m (sp_sub (x_space x))) as (-> & _). repeat split; auto.
    apply (@reachable_step (g_gen G) _ (OIndices m)). auto.
  - destruct IH as (I1 & I2 & I3 & I4 & I5). unfold x_prune, prune_ids, prune in E.
    destruct (if w then eci (sub_orbits (sp_sub (x_space x))) (x_coefs x) (length (sp_ext (x_space x))) else Some (x_coefs x)) as [sel|] eqn:Es; [|discriminate]. cbn [option_bind] in E.
    destruct (remove_corr (small_ids thr sel) (sp_sub (x_space x))) as [st'|] eqn:Er; [|discriminate]. cbn [option_bind] in E.
    destruct (interaction_tensors (sub_orbits st') (drop_at (small_ids thr sel) 0 (x_coefs x)) (length (sp_ext (x_space x)))) eqn:Ei; [|discriminate]. cbn [option_bind fst snd] in E. injection E as <-.
    unfold held. cbn [x_space x_coefs x_reg x_feat sp_sub sp_ext]. split; [|split; [|split; [|split]]]; auto.
    + replace st' with (run_op (g_gen G) (sp_sub (x_space x)) (ORemoveCorr (small_ids thr sel))) by (cbn [run_op]; rewrite Er; auto). apply reachable_step. auto.
    + rewrite Ei. discriminate.
    + pose proof (@length_drop_le _ (small_ids thr sel) 0 (x_coefs x)) as L. destruct (x_reg x) as [d|]; [|rewrite I5; auto]. destruct I5 as (n & J1 & J2 & J3). exists n. split; auto. split; [lia|].
      intros El. assert (Lc : length (x_coefs x) = n) by lia. rewrite (J3 Lc). cbn [option_map]. f_equal.
      destruct (@drop_all _ (small_ids thr sel) 0 (x_coefs x)) as [_ Hno]; [lia|].
      assert (Hr : forall row, In row (r_features d) -> length row = n) by (intros; eapply columns_rows; eauto).
      revert Hr. clear - Hno Lc. induction (r_features d) as [|row rows IH]; intros Hr; auto. cbn [map]. rewrite IH by (intros; apply Hr; simpl; auto). f_equal.
      apply drop_none. intros j Hj. rewrite (Hr row (or_introl eq_refl)) in Hj. apply Hno. lia.
Qed.

(** A copy of an expansion that fits its coefficients is the expansion: coefficients, subspace, regression data, feature matrix. *)
Theorem C132_copy G x : proper G -> grown G x -> sub_orbits (sp_sub (x_space x)) <> [] -> length (x_coefs x) = space_len (x_space x) -> reg_fits (x_coefs x) (x_reg x) = true -> x_copy x = Some x.
Proof.
  intros HP HX Hne HL HF. destruct (grown_held HP HX) as (H1 & H2 & H3 & H4 & H5). assert (HG : good G (x_space x)) by (split; auto).
  unfold x_copy, x_load, x_as_dict. cbn [fst snd]. rewrite (space_reload HP HG). cbn [option_bind]. unfold make_expansion. rewrite HF, HL, Nat.eqb_refl. cbn [negb].
  rewrite (space_reload HP HG). cbn [option_bind]. destruct (interaction_tensors _ _ _); [|congruence]. cbn [option_bind]. f_equal. destruct x as [sp cs r f]. cbn [x_space x_coefs x_reg x_feat] in *. f_equal.
  destruct r as [d|]; [|auto]. destruct H5 as (n & E1 & _ & E2). cbn [reg_fits] in HF. rewrite E1 in HF. apply Nat.eqb_eq in HF. cbn [option_map]. rewrite (E2 HF). auto.
Qed.
(** Without regression data a pruned expansion is copied like any other, as long as its coefficients fit (see C56). *)
Theorem C133_no_data_partial G x thr w x' : proper G -> grown G x -> x_reg x = None -> x_prune thr w x = Some x' -> sub_orbits (sp_sub (x_space x')) <> [] ->
  length (x_coefs x') = space_len (x_space x') -> x_copy x' = Some x'.
Proof.
  intros HP HX Er E Hne HL. eapply C132_copy; eauto; [eapply gr_prune; eauto|].
  assert (X : x_reg x' = x_reg x); [|rewrite X, Er; auto]. unfold x_prune in E. destruct (prune_ids thr w x); [|discriminate]. cbn [option_bind] in E. destruct (prune _ _ _ _ _); [|discriminate]. injection E as <-. auto.
Qed.
(** With regression data, once a coefficient was pruned, the expansion can neither be copied nor loaded from its dictionary. *)
Theorem C133_data_refuted G x thr w x' r : proper G -> grown G x -> x_reg x = Some r -> x_prune thr w x = Some x' -> length (x_coefs x') < length (x_coefs x) -> x_copy x' = None /\ x_load (x_as_dict x') = None.
Proof.
  intros HP HX Er E Hlt. destruct (grown_held HP HX) as (_ & _ & _ & _ & H5). rewrite Er in H5. destruct H5 as (n & E1 & E2 & _).
  assert (X : x_reg x' = Some r). { unfold x_prune in E. destruct (prune_ids thr w x); [|discriminate]. cbn [option_bind] in E. destruct (prune _ _ _ _ _); [|discriminate]. injection E as <-. auto. }
  assert (Y : x_load (x_as_dict x') = None); [|auto]. unfold x_load, x_as_dict. cbn [fst snd]. destruct (space_load _); [|auto]. cbn [option_bind]. unfold make_expansion. rewrite X. cbn [reg_fits]. rewrite E1.
  destruct (Nat.eqb_spec (length (x_coefs x')) n); [lia|auto].
Qed.

(** ** C134: processors whose subspace changed *)
(** A processor made on the subspace of an expansion computes what it did when the expansion is pruned. *)
Theorem C134_values_partial G x m coefs p x' thr w : make_expansion_proc G (x_space x) m coefs = Some p -> x_prune thr w x = Some x' ->
  forall occu flips, part_property (as_part G (with_space p (x_space x'))) occu = part_property (as_part G p) occu /\
    part_property_change (as_part G (with_space p (x_space x'))) occu flips = part_property_change (as_part G p) occu flips.
Proof. intros _ _ occu flips. unfold as_part, with_space. cbn [pr_kind pr_coefs pr_mat]. auto. Qed.
(** But it is saved with the subspace that the expansion has now: when functions were removed, it cannot be loaded. *)
Theorem C134_saved_refuted G x m coefs p x' thr w : make_expansion_proc G (x_space x) m coefs = Some p -> x_prune thr w x = Some x' ->
  proper G -> grown G x' -> sub_ncorr (sp_sub (x_space x')) <> sub_ncorr (sp_sub (x_space x)) -> proc_load G (proc_as_dict (with_space p (x_space x'))) = None.
Proof.
  intros E _ HP HX Hn. unfold make_expansion_proc in E. destruct (Nat.eqb_spec (length coefs) (sub_ncorr (sp_sub (x_space x)))) as [El|]; [|discriminate].
  destruct (make_proc _ _ _ _ _) as [P|]; [|discriminate]. injection E as <-. unfold proc_load, proc_as_dict, with_space. cbn [pr_kind pr_space pr_mat pr_coefs pd_kind pd_sub pd_mat pd_coefs].
  destruct (space_load (space_as_dict (x_space x'))) as [sp|] eqn:Es; [|auto]. cbn [option_bind].
  assert (X : sp_sub sp = sp_sub (x_space x')).
  { unfold space_load, space_as_dict in Es. cbn [fst snd] in Es. unfold sub_load in Es. destruct (forallb _ _); [|discriminate]. cbn [option_bind] in Es.
    destruct (grown_held HP HX) as (H1 & _). rewrite (reload (reachable_consistent H1)) in Es. clear - Es. revert Es. generalize (map term_as_dict (sp_ext (x_space x'))).
    assert (H : forall l s, fold_left load_term l (Some s) = Some sp -> sp_sub sp = sp_sub s).
    { induction l as [|d l IH]; intros s E; cbn [fold_left load_term option_bind] in E; [injection E as <-; auto|].
      destruct (term_from_dict d) as [t|]; [|auto]. unfold add_term in E. destruct (sp_ext s); [apply IH in E; auto|].
      exfalso. clear - E. induction l; [discriminate|auto]. }
    intros l E. apply H in E. auto. }
  unfold make_expansion_proc. rewrite X. destruct (Nat.eqb_spec (length coefs) (sub_ncorr (sp_sub (x_space x')))); [lia|auto].
Qed.

(** ** C135: making processors leaves the subspace *)
(** The orbits, functions and external terms are those given; tables are added to the cache. *)
Definition same_space (a b : space) : Prop :=
  sub_items (sp_sub a) = sub_items (sp_sub b) /\ sub_ncorr (sp_sub a) = sub_ncorr (sp_sub b) /\ sub_norb (sp_sub a) = sub_norb (sp_sub b) /\ sub_eval (sp_sub a) = sub_eval (sp_sub b) /\ sp_ext a = sp_ext b.
Lemma ask_same_space gen m s : same_space (ask gen m s) s.
Proof. unfold same_space, ask, orbit_indices. destruct (find _ _); cbn; auto. Qed.
Theorem C135_expansion_partial G sp m coefs p : make_expansion_proc G sp m coefs = Some p -> same_space (pr_space p) sp.
Proof. unfold make_expansion_proc. destruct (_ =? _); [|discriminate]. destruct (make_proc _ _ _ _ _); [|discriminate]. intros [= <-]. apply ask_same_space. Qed.
Theorem C135_decomposition_partial G sp m o ts cs p : make_decomposition G sp m o ts cs = Some p -> same_space (pr_space p) sp.
Proof. unfold make_decomposition. destruct (_ =? _); [|discriminate]. destruct (make_proc _ _ _ _ _); [|discriminate]. intros [= <-]. apply ask_same_space. Qed.
Theorem C135_ewald_partial sp m t cs : sp_ext sp <> [] -> pr_space (make_ewald sp m t cs) = sp.
Proof. intros H. unfold make_ewald, with_ewald. cbn [pr_space]. destruct (sp_ext sp); [congruence|auto]. Qed.
Lemma write_all_length ws out v : write_all out ws = Some v -> length v = length out.
Proof.
  revert out. induction ws as [|[i x] ws IH]; intros out E; cbn [write_all] in E; [injection E as <-; auto|]. destruct (i <? length out); [|discriminate]. rewrite (IH _ E), length_upd. auto.
Qed.
Lemma correlations_length ev occu ts v : correlations ev occu ts = Some v -> length v = e_num_corr ev.
Proof.
  unfold correlations, run_work, init_out. destruct (e_num_corr ev) as [|n] eqn:En; [discriminate|]. cbn [Nat.eqb option_bind]. destruct (corr_work ev occu ts) as [w|]; [|discriminate]. cbn [option_bind].
  intros E. rewrite (write_all_length E), length_upd, repeat_length. auto.
Qed.
(** An Ewald processor on the subspace of an expansion without external terms adds a term to it (the default one, whichever is given): the expansion can no longer
    be copied, and predictions (now with a value for the term) raise. *)
Theorem C135_term_refuted G x m t cs : proper G -> grown G x -> sub_orbits (sp_sub (x_space x)) <> [] -> sp_ext (x_space x) = [] -> length (x_coefs x) = space_len (x_space x) ->
  let x' := mkX (pr_space (make_ewald (x_space x) m t cs)) (x_coefs x) (x_reg x) (x_feat x) in
  sp_ext (x_space x') = [default_term] /\ x_copy x' = None /\ forall m' occu v, x_predict G x' m' occu [v] = None.
Proof.
  intros HP HX Hne Hext HL. cbn zeta. destruct (grown_held HP HX) as (H1 & H2 & H3 & _). assert (HG : good G (x_space x)) by (split; auto).
  assert (Es : pr_space (make_ewald (x_space x) m t cs) = mkSpace (sp_sub (x_space x)) [default_term]) by (unfold make_ewald, with_ewald; cbn [pr_space]; rewrite Hext; auto).
  assert (HG' : good G (mkSpace (sp_sub (x_space x)) [default_term])). { pose proof (ewald_good HG) as X. unfold with_ewald in X. rewrite Hext in X. auto. }
  rewrite Es. cbn [x_space sp_ext]. unfold space_len in HL. rewrite Hext in HL. cbn [length] in HL. split; auto. split.
  - unfold x_copy, x_load, x_as_dict. cbn [fst snd x_space x_coefs x_reg x_feat]. rewrite (space_reload HP HG'). cbn [option_bind]. unfold make_expansion. destruct (negb (reg_fits _ _)); auto.
    unfold space_len. cbn [sp_sub sp_ext length]. destruct (Nat.eqb_spec (length (x_coefs x)) (sub_ncorr (sp_sub (x_space x)) + 1)); [lia|auto].
  - intros m' occu v. unfold x_predict. cbn [x_space x_coefs]. destruct (make_proc _ _ _ _ _) as [P|] eqn:EP; [|auto]. cbn [option_bind]. destruct (correlations _ _ _) as [c|] eqn:Ec; [|auto]. cbn [option_bind].
    apply correlations_length in Ec. assert (En : e_num_corr (p_eval P) = sub_ncorr (sp_sub (x_space x))).
    { unfold make_proc in EP. destruct (opt_map _ _); [|discriminate]. cbn [option_bind] in EP. injection EP as <-. auto. }
    unfold predict. rewrite app_length. cbn [length]. destruct (Nat.eqb_spec (length (x_coefs x)) (length c + 1)); [lia|auto].
Qed.

(** ** Concrete cases: the ternary point and pair orbits of ExpansionProps *)
Definition sv_geo : geometry := mkGeo (fun _ => 2) (fun _ k => match nth k ex_tables [] with [] => [[0]] | t => t end) (fun _ => [[false; false; true]; [false; false; true]])
  (fun s use i j => Qc_of_nat (i + 2 * j + use)).
Lemma sv_proper : proper sv_geo.
Proof. intros m k. unfold sv_geo; cbn [g_gen]. destruct (nth k ex_tables []); discriminate. Qed.
Definition sv_mat : scmatrix := [[2; 0; 0]; [0; 1; 0]; [0; 0; 1]]%Z.
Definition sv_space : space := mkSpace ex_st [].
Lemma sv_good : good sv_geo sv_space.
Proof.
  split; [|split; [discriminate|split; [cbn; lia|constructor]]]. eexists _, []. split; [|reflexivity].
  intros kv o H1 H2. cbn in H1. repeat (destruct H1 as [<-|H1]; [cbn in H2; repeat (destruct H2 as [<-|H2]; [discriminate|]); destruct H2|]). destruct H1.
Qed.
Definition sv_coefs : list Qc := removelast ex_pcoefs.
Definition sv_tensors : list (list Qc) := [map Qc_of_Z [1; 2; 3]%Z; map Qc_of_Z [1; 2; 3; 4; 5; 6; 7; 8; 9]%Z].
Example C130_case : exists p q e c, make_expansion_proc sv_geo sv_space sv_mat sv_coefs = Some p /\ make_decomposition sv_geo (pr_space p) sv_mat (Qc_of_Z 4) sv_tensors None = Some q /\
  made sv_geo e /\ add_processor (make_composite (with_ewald sv_space) sv_mat) (One e) = Some c /\ made_composite sv_geo c /\
  proc_load sv_geo (proc_as_dict p) = Some p /\ proc_load sv_geo (proc_as_dict q) = Some q /\ comp_load sv_geo (comp_as_dict c) = Some c /\
  part_property (as_part sv_geo p) [0; 2] <> None /\ part_property (as_part sv_geo q) [0; 2] <> None /\ composite_property (map (as_part sv_geo) (co_parts c)) [0; 1] <> Some (Q2Qc 0).
Proof.
  destruct (make_expansion_proc sv_geo sv_space sv_mat sv_coefs) as [p|] eqn:Ep; [|vm_compute in Ep; discriminate].
  assert (Hp : made sv_geo p) by (eapply made_expansion; [apply sv_good|exact Ep]).
  assert (Hs : pr_space p = ask (g_gen sv_geo) sv_mat sv_space) by (vm_compute in Ep; injection Ep as <-; reflexivity).
  destruct (make_decomposition sv_geo (pr_space p) sv_mat (Qc_of_Z 4) sv_tensors None) as [q|] eqn:Eq; [|exfalso; rewrite Hs in Eq; vm_compute in Eq; discriminate].
  assert (Hq : made sv_geo q) by (eapply made_decomposition; [|exact Eq]; rewrite Hs; apply ask_good, sv_good).
  pose (e := make_ewald sv_space sv_mat (mkET None None None 1) [Qc_of_Z 3]).
  assert (He : made sv_geo e) by (apply made_ewald; [apply sv_good|cbn; lia]).
  destruct (add_processor (make_composite (with_ewald sv_space) sv_mat) (One e)) as [c|] eqn:Ec; [|vm_compute in Ec; discriminate].
  assert (Hc : made_composite sv_geo c) by (eapply mc_add; [apply mc_new, ewald_good, sv_good|exact He|exact Ec]).
  exists p, q, e, c. split; [reflexivity|]. split; [exact Eq|]. split; [exact He|]. split; [exact Ec|]. split; [exact Hc|].
  split; [apply C130_processors; auto using sv_proper|]. split; [apply C130_processors; auto using sv_proper|]. split; [apply C130_composites; auto using sv_proper|].
  split; [vm_compute in Ep; injection Ep as <-; vm_compute; discriminate|]. split; [rewrite Hs in Eq; vm_compute in Eq; injection Eq as <-; vm_compute; discriminate|].
  cbn in Ec. injection Ec as <-. vm_compute. discriminate.
Qed.
(** Twice the multiplicities: the property of the loaded processor is half of what it was. *)
Example C131_case : exists p p', make_decomposition sv_geo sv_space sv_mat (Qc_of_Z 4) sv_tensors (Some (map (fun c => c + c)%Qc (default_coefs sv_space))) = Some p /\
  proc_load sv_geo (proc_as_dict p) = Some p' /\ option_map this (part_property (as_part sv_geo p) [0; 2]) = Some 84%Q /\ option_map this (part_property (as_part sv_geo p') [0; 2]) = Some 42%Q.
Proof. eexists _, _. split; [vm_compute; reflexivity|]. split; [vm_compute; reflexivity|]. split; vm_compute; reflexivity. Qed.
Definition sv_reg : regression := mkReg 1 [map Qc_of_Z [1; 0; 1; -1; 1; 1]%Z; map Qc_of_Z [1; 1; 1; 1; 0; 1]%Z] (map Qc_of_Z [3; 4]%Z).
Example C132_case : exists x, make_expansion sv_space sv_coefs (Some sv_reg) = Some x /\ grown sv_geo x /\ x_copy x = Some x /\ x_predict sv_geo x sv_mat [0; 2] [] <> None.
Proof.
  destruct (make_expansion sv_space sv_coefs (Some sv_reg)) as [x|] eqn:E; [|vm_compute in E; discriminate]. exists x. split; [reflexivity|].
  assert (HX : grown sv_geo x) by (eapply gr_make; [apply sv_good|exact E]). split; [exact HX|].
  split; [|vm_compute in E; injection E as <-; vm_compute; discriminate].
  apply (C132_copy sv_proper HX); vm_compute in E; injection E as <-; [discriminate|reflexivity|reflexivity].
Qed.
(** Two functions are pruned: with regression data the copy raises, without it is made. *)
Example C133_case : exists x x' y y', make_expansion sv_space sv_coefs (Some sv_reg) = Some x /\ x_prune (Q2Qc (1 # 2)) false x = Some x' /\ length (x_coefs x') = 4 /\ x_copy x' = None /\
  make_expansion sv_space sv_coefs None = Some y /\ x_prune (Q2Qc (1 # 2)) false y = Some y' /\ x_coefs y' = x_coefs x' /\ exists z, x_copy y' = Some z /\ x_coefs z = x_coefs y'.
Proof.
  eexists _, _, _, _. split; [vm_compute; reflexivity|]. split; [vm_compute; reflexivity|]. split; [vm_compute; reflexivity|]. split; [vm_compute; reflexivity|].
  split; [vm_compute; reflexivity|]. split; [vm_compute; reflexivity|]. split; [vm_compute; reflexivity|]. eexists. split; vm_compute; reflexivity.
Qed.
Example C134_case : exists x p x', make_expansion sv_space sv_coefs None = Some x /\ grown sv_geo x /\ make_expansion_proc sv_geo (x_space x) sv_mat sv_coefs = Some p /\
  x_prune (Q2Qc (1 # 2)) false x = Some x' /\ sub_ncorr (sp_sub (x_space x)) = 6 /\ sub_ncorr (sp_sub (x_space x')) = 4 /\
  proc_load sv_geo (proc_as_dict p) = Some p /\ proc_load sv_geo (proc_as_dict (with_space p (x_space x'))) = None.
Proof.
  destruct (make_expansion sv_space sv_coefs None) as [x|] eqn:E; [|vm_compute in E; discriminate]. exists x.
  assert (HX : grown sv_geo x) by (eapply gr_make; [apply sv_good|exact E]).
  destruct (make_expansion_proc sv_geo (x_space x) sv_mat sv_coefs) as [p|] eqn:Ep; [|exfalso; vm_compute in E; injection E as <-; vm_compute in Ep; discriminate].
  destruct (x_prune (Q2Qc (1 # 2)) false x) as [x'|] eqn:Ex; [|exfalso; vm_compute in E; injection E as <-; vm_compute in Ex; discriminate].
  assert (Hx : sub_ncorr (sp_sub (x_space x)) = 6) by (vm_compute in E; injection E as <-; reflexivity).
  assert (Hx' : sub_ncorr (sp_sub (x_space x')) = 4) by (vm_compute in E; injection E as <-; vm_compute in Ex; injection Ex as <-; reflexivity).
  exists p, x'. do 6 (split; [auto|]). split.
  - apply (C130_processors sv_proper). eapply made_expansion; [|exact Ep]. vm_compute in E. injection E as <-. exact sv_good.
  - eapply C134_saved_refuted; eauto using sv_proper; [eapply gr_prune; eauto|lia].
Qed.
Example C135_case : exists x, make_expansion sv_space sv_coefs None = Some x /\ x_copy x = Some x /\ x_predict sv_geo x sv_mat [0; 2] [] <> None /\
  let x' := mkX (pr_space (make_ewald (x_space x) sv_mat (mkET None None None 2) [1%Qc])) (x_coefs x) (x_reg x) (x_feat x) in
  sp_ext (x_space x') = [default_term] /\ x_copy x' = None /\ x_predict sv_geo x' sv_mat [0; 2] [1%Qc] = None.
Proof. eexists. split; [vm_compute; reflexivity|]. split; [vm_compute; reflexivity|]. split; [vm_compute; discriminate|]. cbn zeta. split; [|split]; vm_compute; reflexivity. Qed.

Print Assumptions C130_processors.
Print Assumptions C130_values.
Print Assumptions C130_composites.
Print Assumptions C130_composite_values.
Print Assumptions C131_default_partial.
Print Assumptions C131_given_refuted.
Print Assumptions C132_copy.
Print Assumptions C133_no_data_partial.
Print Assumptions C133_data_refuted.
Print Assumptions C134_values_partial.
Print Assumptions C134_saved_refuted.
Print Assumptions C135_expansion_partial.
Print Assumptions C135_decomposition_partial.
Print Assumptions C135_ewald_partial.
Print Assumptions C135_term_refuted.
