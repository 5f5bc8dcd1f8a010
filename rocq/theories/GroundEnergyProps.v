(** C52, C76 and C77: energy, composition and solver of the ground-state problem. *)
From Verif Require Export GroundEnergy Ensemble.
From Verif Require Import LibProofs SublatticeSpec SublatticeProofs EvaluatorSpec EvaluatorProofs EvaluatorProps ExpansionProps EwaldProps EncodingProofs SiteTableProofs OccuUtilsSpec OccuUtilsProps TableFlipSpec EnsembleProps ClusterProps GroundStateProps GroundTermsProps GroundEnergyProofs.
Set Implicit Arguments.
Unset Strict Implicit.
Open Scope nat_scope.

(** ** Specification *)
Definition width (origs : list (list species)) (s : nat) : nat := length (nth s origs []).
(** Processors on the structure: coefficients match the features, the orbits are numbered from one. *)
Inductive processor_ok (origs : list (list species)) : processor -> Prop :=
| expansion_is_ok P coefs : proc_ok (width origs) (length origs) P -> length coefs = e_num_corr (p_eval P) -> processor_ok origs (Expansion P coefs)
| decomposition_is_ok P coefs : proc_ok (width origs) (length origs) P -> map o_id (e_orbits (p_eval P)) = seq 1 (length (e_orbits (p_eval P))) ->
    length coefs = e_num_orbits (p_eval P) -> processor_ok origs (Decomposition P coefs)
| electrostatic_is_ok M coef : processor_ok origs (Electrostatic M (map (map is_vac) origs) coef).
(** The table of chemical potentials has a column for every code of a site. *)
Definition table_ok (origs : list (list species)) (mu : option vtable) : Prop :=
  match mu with None => True | Some t => forall s orig, nth_error origs s = Some orig -> exists row, nth_error t s = Some row /\ length orig <= length row end.
(** Energy of the processors minus the chemical work. *)
Definition enthalpy (ps : list processor) (mu : option vtable) (occu : list nat) : option Qc :=
  let? e := composite_property (map processor_part ps) occu in
  match mu with None => Some e | Some t => let? vals := site_values t occu in Some (e - qsum vals)%Qc end.
(** Number of sites of a sublattice with a species, and all of them in the order of sublattices and species. *)
Definition has_species (origs : list (list species)) (occu : list nat) (sp : species) (s : nat) : bool :=
  match nth_error origs s, nth_error occu s with
  | Some orig, Some c => match nth_error orig c with Some sp' => sp_eqb sp' sp | None => false end
  | _, _ => false
  end.
Definition count_of (origs : list (list species)) (occu : list nat) (sl : sublattice) (sp : species) : nat := length (filter (has_species origs occu sp) (sl_sites sl)).
Definition counts (origs : list (list species)) (sls : list sublattice) (occu : list nat) : list nat :=
  concat (map (fun sl => map (count_of origs occu sl) (sl_species sl)) sls).
(** A linear condition on the counts. *)
Definition row_holds (r : rel) (ns : list nat) (row : list Qc * Qc) : Prop := rel_holds r (qdot (fst row) (map Qc_of_nat ns)) (snd row).
(** No entries that are not zero but count as zero. *)
Definition sharp (row : list Qc * Qc) : Prop := (forall q, In q (fst row) -> tiny q = true -> q = 0%Qc) /\ (tiny (snd row) = true -> snd row = 0%Qc).
(** The row of a composition space that fixes the number of sites of the [i]-th sublattice. *)
Definition size_row (sls : list sublattice) (i : nat) : list Qc * Qc :=
  (concat (map (fun p => repeat (if fst p =? i then 1%Qc else 0%Qc) (length (sl_species (snd p)))) (combine (seq 0 (length sls)) sls)),
   match nth_error sls i with Some sl => Qc_of_nat (length (sl_sites sl)) | None => 0%Qc end).

(** Solutions of the optimisation problem. *)
Definition solution (marks : list (list mark)) (n : nat) (o : objective) (ks : list comp_con) (x aux : list Qc) : Prop :=
  feasible marks n x /\ (forall k, In k ks -> comp_holds x k) /\ length aux = length (ob_many o) /\ zero_one aux /\ forall c, In c (ob_cons o) -> con_holds x aux c.
Definition optimal (marks : list (list mark)) (n : nat) (o : objective) (ks : list comp_con) (x aux : list Qc) : Prop :=
  solution marks n o ks x aux /\ forall x' aux', solution marks n o ks x' aux' -> (obj_value o x aux <= obj_value o x' aux')%Qc.
(** Occupancies of lowest enthalpy among the allowed ones that meet a condition. *)
Definition ground_state (sls : list sublattice) (init : option (list nat)) (N : nat) (ps : list processor) (mu : option vtable) (meets : list nat -> Prop) (occu : list nat) (e : Qc) : Prop :=
  allowed sls init N occu /\ meets occu /\ enthalpy ps mu occu = Some e /\
  forall occu', allowed sls init N occu' -> meets occu' -> exists e', enthalpy ps mu occu' = Some e' /\ (e <= e')%Qc.

(** ** Energy *)
Section Problem.
Variables (origs : list (list species)) (sls : list sublattice) (init : option (list nat)) (marks : list (list mark)) (n : nat).
Hypothesis LAY : var_layout origs sls.
Hypothesis INIT : initial_ok sls init.
Hypothesis NE : origs <> [].
Hypothesis VARS : get_variables sls init origs = Some (marks, n).

Lemma problem_marks : exists ids, marks_ok origs sls init ids marks n.
Proof using LAY INIT VARS. destruct (get_variables_ok LAY INIT) as (ids & marks' & n' & E & MO). exists ids. congruence. Qed.
Lemma picked_all x occu : feasible marks n x -> decode sls x marks = Some occu ->
  length marks = length origs /\ length occu = length origs /\ forall s ms c, nth_error marks s = Some ms -> nth_error occu s = Some c -> picked x ms c /\ length ms = width origs s.
Proof using LAY INIT VARS.
  intros F D. destruct problem_marks as [ids MO]. destruct (decode_ok LAY INIT MO F) as (occu' & D' & L & H). assert (occu' = occu) by congruence. subst occu'. split; [apply (mo_len MO)|]. split; auto.
  intros s ms c Hm Hc. destruct (picked_decoded LAY MO (H s c Hc)) as (ms' & orig & Hm' & Ho & Lm & P). assert (ms' = ms) by congruence. subst ms'. split; auto. unfold width. rewrite (nth_error_nth _ _ [] Ho). auto.
Qed.
Lemma finite_choice (R : nat -> nat -> Prop) m : (forall s, s < m -> exists c, R s c) -> exists l, length l = m /\ forall s c, nth_error l s = Some c -> R s c.
Proof using.
  clear. induction m as [|m IH]; intros H; [exists []; split; auto; intros [|s] c; discriminate|]. destruct IH as (l & L & K); [intros s Hs; apply H; lia|]. destruct (H m) as [c Hc]; [lia|].
  exists (l ++ [c]). split; [rewrite app_length; simpl; lia|]. intros s c' Hs. destruct (Nat.lt_ge_cases s (length l)) as [A|A]; [rewrite nth_error_app1 in Hs by auto; auto|].
  rewrite nth_error_app2 in Hs by auto. destruct (s - length l) as [|d] eqn:Ed; [|destruct d; discriminate]. simpl in Hs. injection Hs as <-. replace s with m by lia. auto.
Qed.
Lemma some_allowed : exists occu, allowed sls init (length origs) occu.
Proof using LAY INIT.
  destruct (@finite_choice (fun s c => forall sl, In sl sls -> In s (sl_sites sl) -> allowed_code sl init s c) (length origs)) as (l & L & K).
  - intros s Hs. destruct (ids_ok LAY) as (ids & _ & _ & H). destruct (H s Hs) as (k & sl & _ & Hsl & Hin). assert (Hi : In sl sls) by (eapply nth_error_In; eauto).
    assert (U : forall c, allowed_code sl init s c -> exists c, forall sl', In sl' sls -> In s (sl_sites sl') -> allowed_code sl' init s c).
    { intros c Hc. exists c. intros sl' H1 H2. rewrite (sl_unique LAY H1 Hi H2 Hin). auto. }
    destruct (lay_len LAY Hi) as [LE NS]. assert (HE : exists c, In c (sl_encoding sl)) by (destruct (sl_encoding sl) as [|c l]; [destruct (sl_species sl); [contradiction|discriminate]|exists c; simpl; auto]).
    destruct HE as [c Hc]. destruct (le_lt_dec (length (sl_species sl)) 1) as [L1|L1].
    + apply (U c). split; auto. right. left. destruct (sl_species sl); [contradiction|simpl in *; lia].
    + destruct (in_dec Nat.eq_dec s (sl_active sl)) as [A|A]; [apply (U c); split; auto; left; split; auto|]. destruct (INIT Hi Hin L1 A) as (o & c' & E1 & E2 & E3). apply (U c'). split; auto. right. right. eauto.
  - exists l. split; [exact L|]. intros sl s c H1 H2 H3. eapply K; eauto.
Qed.
Lemma some_feasible : exists x occu, feasible marks n x /\ decode sls x marks = Some occu.
Proof using LAY INIT NE VARS.
  destruct some_allowed as [occu A]. destruct problem_marks as [ids MO]. destruct (encode_ok LAY INIT NE MO A) as (x & E & _). exists x, occu. split; [eapply encode_feasible; eauto|eapply decode_encode; eauto].
Qed.

Lemma codes_ext sd sd' N occu : (forall s, s < N -> sd s = sd' s) -> codes_ok sd N occu -> codes_ok sd' N occu.
Proof using. clear. intros H [L K]. split; auto. intros s c Hs. rewrite <- H; [auto|]. rewrite <- L. apply nth_error_Some. congruence. Qed.
Lemma processor_value x occu p : feasible marks n x -> decode sls x marks = Some occu -> processor_ok origs p ->
  exists ts, processor_terms marks p = Some ts /\ part_property (processor_part p) occu = Some (sum_terms ts x).
Proof using LAY INIT VARS.
  intros F D OK. destruct (picked_all F D) as (PL & OL & PK). destruct OK as [P coefs HP HL|P coefs HP ID HL|M coef]; cbn [processor_terms processor_part].
  - destruct (expansion_terms_ok PL OL PK HP HL) as (ts & f & E1 & E2 & L & V). exists ts. split; auto. unfold ce_part, part_property. rewrite E2. cbn [option_bind]. unfold np_dot. rewrite L, Nat.eqb_refl, V. auto.
  - destruct (decomposition_terms_ok PL OL PK HP ID HL) as (ts & f & E1 & E2 & L & V). exists ts. split; auto. unfold cd_part, part_property. rewrite E2. cbn [option_bind]. unfold np_dot. rewrite L, Nat.eqb_refl, V. auto.
  - set (spaces := map (map is_vac) origs).
    assert (W : forall s, width origs s = EwaldProps.dims spaces s).
    { intros s. unfold width, EwaldProps.dims, spaces. change (@nil bool) with (map is_vac []). rewrite map_nth, map_length. auto. }
    destruct (@ewald_terms_ok x marks occu (width origs) (length origs) PL OL PK M spaces coef) as (ts & E & V).
    + destruct F as (_ & B & _). exact B.
    + unfold spaces. apply map_length.
    + intros s sp Hs. rewrite W. unfold EwaldProps.dims. rewrite (nth_error_nth _ _ [] Hs). auto.
    + exists ts. split; auto. unfold ewald_part, part_property. rewrite feature_ok; [cbn [option_bind]; rewrite V; auto|].
      unfold spaces at 2. rewrite map_length. apply (codes_ext (sd := width origs)); [intros; apply W|]. apply (picked_codes PL OL PK).
Qed.
Lemma problem_value x occu ps mu : feasible marks n x -> decode sls x marks = Some occu -> (forall p, In p ps -> processor_ok origs p) -> table_ok origs mu ->
  exists ts, problem_terms marks ps mu = Some ts /\ enthalpy ps mu occu = Some (sum_terms ts x).
Proof using LAY INIT VARS.
  intros F D OK T. unfold problem_terms, enthalpy, composite_property.
  assert (G : exists tss vs, opt_map (processor_terms marks) ps = Some tss /\ opt_map (fun p => part_property p occu) (map processor_part ps) = Some vs /\ sum_terms (concat tss) x = qsum vs).
  { clear T. induction ps as [|p ps IH]; cbn [map opt_map]; [exists [], []; auto|]. destruct (processor_value F D (OK p (or_introl eq_refl))) as (ts & E1 & E2). destruct IH as (tss & vs & E3 & E4 & V); [intros; apply OK; right; auto|].
    rewrite E1, E2. cbn [option_bind]. rewrite E3, E4. cbn [option_bind]. do 2 eexists. split; [reflexivity|]. split; [reflexivity|]. cbn [concat qsum]. rewrite sum_terms_app, V. auto. }
  destruct G as (tss & vs & E1 & E2 & V). rewrite E1, E2. cbn [option_bind]. destruct mu as [t|]; cbn [option_bind].
  - destruct (picked_all F D) as (PL & OL & PK). destruct (mu_terms_ok PL OL PK (table := t)) as (ts & vals & E3 & E4 & V').
    { intros s ms Hm. assert (Hs : s < length origs) by (rewrite <- PL; apply nth_error_Some; congruence). destruct (nth_error origs s) as [orig|] eqn:Eo; [|apply nth_error_None in Eo; lia]. destruct (T s orig Eo) as (row & Hr & Lr). exists row. split; auto.
      destruct (nth_error occu s) as [c|] eqn:Ec; [|apply nth_error_None in Ec; lia]. destruct (PK s ms c Hm Ec) as [_ L]. unfold width in L. rewrite (nth_error_nth _ _ [] Eo) in L. lia. }
    rewrite E3, E4. cbn [option_bind]. eexists. split; [reflexivity|]. rewrite sum_terms_app, V, V'. reflexivity.
  - eexists. split; [reflexivity|]. rewrite app_nil_r, V. auto.
Qed.
End Problem.

(** The terms can be built, and for every feasible assignment their sum is the enthalpy of the decoded occupancy. *)
Theorem C52_value : forall origs sls init marks n ps mu, var_layout origs sls -> initial_ok sls init -> origs <> [] -> get_variables sls init origs = Some (marks, n) ->
  (forall p, In p ps -> processor_ok origs p) -> table_ok origs mu ->
  exists ts, problem_terms marks ps mu = Some ts /\ forall x occu, feasible marks n x -> decode sls x marks = Some occu -> enthalpy ps mu occu = Some (sum_terms ts x).
Proof.
  intros origs sls init marks n ps mu LAY INIT NE VARS OK T. destruct (some_feasible LAY INIT NE VARS) as (x0 & occu0 & F0 & D0). destruct (problem_value LAY INIT VARS F0 D0 OK T) as (ts & E & _).
  exists ts. split; auto. intros x occu F D. destruct (problem_value LAY INIT VARS F D OK T) as (ts' & E' & V). congruence.
Qed.
Print Assumptions C52_value.

(** Each group of terms (by correlation function or by orbit) has the value of one coefficient times one feature. *)
Theorem C52_groups : forall origs sls init marks n x occu P coefs, var_layout origs sls -> initial_ok sls init -> get_variables sls init origs = Some (marks, n) ->
  feasible marks n x -> decode sls x marks = Some occu -> proc_ok (width origs) (length origs) P ->
  (length coefs = e_num_corr (p_eval P) -> exists bs f, expansion_buckets marks P = Some bs /\ ce_features P occu = Some f /\ map (fun ts => sum_terms ts x) (grouped (p_size P) bs coefs) = qmap2 Qcmult coefs f) /\
  (length coefs = e_num_orbits (p_eval P) -> map o_id (e_orbits (p_eval P)) = seq 1 (length (e_orbits (p_eval P))) ->
    exists bs f, decomposition_buckets marks P = Some bs /\ cd_features P occu = Some f /\ map (fun ts => sum_terms ts x) (grouped (p_size P) bs coefs) = qmap2 Qcmult coefs f).
Proof.
  intros origs sls init marks n x occu P coefs LAY INIT VARS F D HP. destruct (picked_all LAY INIT VARS F D) as (PL & OL & PK). split.
  - intros HL. destruct (expansion_buckets_ok PL OL PK HP) as (bs & v & Eb & Ev & Lb & Lv & V). exists bs, (scale P v). split; auto. unfold ce_features. rewrite Ev. split; auto. apply buckets_value; congruence.
  - intros HL ID. destruct (decomposition_buckets_ok PL OL PK HP ID) as (bs & v & Eb & Ev & Lb & Lv & V). exists bs, (scale P v). split; auto. unfold cd_features. rewrite Ev. split; auto. apply buckets_value; congruence.
Qed.
Print Assumptions C52_groups.

(** Without a cutoff: optimal solutions are the ground states among the occupancies that meet the constraints, and the objective
    is their enthalpy. *)
Theorem C52_ground_state : forall origs sls init marks n ps mu ts cutoff o ks (meets : list nat -> Prop), var_layout origs sls -> initial_ok sls init -> origs <> [] -> get_variables sls init origs = Some (marks, n) ->
  (forall p, In p ps -> processor_ok origs p) -> table_ok origs mu -> problem_terms marks ps mu = Some ts -> (cutoff <= 0)%Qc -> linearize ts cutoff = Some o ->
  (forall x occu, feasible marks n x -> decode sls x marks = Some occu -> ((forall k, In k ks -> comp_holds x k) <-> meets occu)) ->
  (forall x aux, optimal marks n o ks x aux -> exists occu, decode sls x marks = Some occu /\ ground_state sls init (length origs) ps mu meets occu (obj_value o x aux)) /\
  (forall occu e, ground_state sls init (length origs) ps mu meets occu e -> exists x aux, encode sls occu marks = Some x /\ optimal marks n o ks x aux /\ obj_value o x aux = e).
Proof.
  intros origs sls init marks n ps mu ts cutoff o ks meets LAY INIT NE VARS OK T ET HC EL MEETS.
  destruct (C52_value LAY INIT NE VARS OK T) as (ts' & ET' & V). assert (ts' = ts) by congruence. subst ts'. destruct (problem_marks LAY INIT VARS) as [ids MO].
  assert (OV : forall x aux occu, solution marks n o ks x aux -> decode sls x marks = Some occu -> enthalpy ps mu occu = Some (obj_value o x aux)).
  { intros x aux occu (F & _ & L & B & K) D. rewrite (V x occu F D). f_equal. destruct (C51_objective EL (x := x)) as [_ H]; [destruct F as (_ & Bx & _); exact Bx|].
    destruct (H aux L) as [H1 H2]; auto; [intros q Hq; destruct (B q Hq) as [-> | ->]; split; qclra|]. rewrite H2. symmetry. apply (C51_exact x HC EL). }
  assert (SOL : forall occu, allowed sls init (length origs) occu -> meets occu -> exists x aux, encode sls occu marks = Some x /\ decode sls x marks = Some occu /\ solution marks n o ks x aux).
  { intros occu A M. destruct (encode_ok LAY INIT NE MO A) as (x & Ex & _). pose proof (encode_feasible LAY INIT NE MO A Ex) as F. pose proof (decode_encode LAY INIT NE MO A Ex) as D.
    destruct (C51_objective EL (x := x)) as [(aux & L & B & K) _]; [destruct F as (_ & Bx & _); exact Bx|]. exists x, aux. split; auto. split; auto. split; auto. split; [apply (MEETS x occu F D); auto|auto]. }
  split.
  - intros x aux (S & OPT). pose proof S as (F & KS & _). destruct (decode_ok LAY INIT MO F) as (occu & D & _). exists occu. split; auto. split; [apply (decode_allowed LAY INIT MO F D)|]. split; [apply (MEETS x occu F D); auto|]. split; [apply OV; auto|].
    intros occu' A' M'. destruct (SOL occu' A' M') as (x' & aux' & _ & D' & S'). exists (obj_value o x' aux'). split; [apply OV; auto|auto].
  - intros occu e (A & M & E & MIN). destruct (SOL occu A M) as (x & aux & Ex & D & S). exists x, aux. split; auto. pose proof (OV x aux occu S D) as Eo. assert (Ev : obj_value o x aux = e) by congruence. split; auto. split; auto.
    intros x' aux' S'. pose proof S' as (F' & KS' & _). destruct (decode_ok LAY INIT MO F') as (occu' & D' & _). destruct (MIN occu') as (e' & Ee' & Le); [apply (decode_allowed LAY INIT MO F' D')|apply (MEETS x' occu' F' D'); auto|].
    rewrite (OV x' aux' occu' S' D') in Ee'. injection Ee' as <-. rewrite Ev. auto.
Qed.
Print Assumptions C52_ground_state.

(** ** Composition *)
Lemma find_all_length {A} (f : A -> bool) l : length (find_all f l) = length (filter f l).
Proof. unfold find_all. rewrite map_length. generalize 0. induction l as [|a l IH]; intros o; simpl; auto. destruct (f a); simpl; rewrite IH; auto. Qed.
Lemma sp_eqb_refl a : sp_eqb a a = true.
Proof. apply sp_eqb_eq. auto. Qed.

Section Composition.
Variables (origs : list (list species)) (sls : list sublattice) (init : option (list nat)) (marks : list (list mark)) (n : nat).
Hypothesis LAY : var_layout origs sls.
Hypothesis INIT : initial_ok sls init.
Hypothesis NE : origs <> [].
Hypothesis VARS : get_variables sls init origs = Some (marks, n).

Lemma component_value x occu sl sp : feasible marks n x -> decode sls x marks = Some occu -> In sl sls -> In sp (sl_species sl) ->
  exists p, component sl sp marks origs = Some p /\ (sum_vars x (fst p) + Qc_of_nat (snd p))%Qc = Qc_of_nat (count_of origs occu sl sp).
Proof using LAY INIT VARS.
  intros F D Hsl Hsp. destruct (picked_all LAY INIT VARS F D) as (PL & OL & PK). unfold component, count_of.
  assert (G : forall l, (forall s, In s l -> In s (sl_sites sl)) -> exists ms, opt_map (fun s => let? orig := nth_error origs s in let? k := species_index sp orig in let? m := nth_error marks s in nth_error m k) l = Some ms /\
    (sum_vars x (vars_of ms) + Qc_of_nat (length (filter (fun m => match m with Always => true | _ => false end) ms)) = Qc_of_nat (length (filter (has_species origs occu sp) l)))%Qc).
  { induction l as [|s l IH]; intros Hl; [exists []; split; auto; unfold sum_vars; simpl; ring|]. destruct IH as (ms & E & V); [intros; apply Hl; right; auto|].
    assert (Hs : In s (sl_sites sl)) by (apply Hl; left; auto). assert (HN : s < length origs) by (apply (site_lt LAY Hsl Hs)).
    destruct (nth_error origs s) as [orig|] eqn:Eo; [|apply nth_error_None in Eo; lia]. destruct (nth_error marks s) as [mk|] eqn:Em; [|apply nth_error_None in Em; lia]. destruct (nth_error occu s) as [c|] eqn:Ec; [|apply nth_error_None in Ec; lia].
    destruct (PK s mk c Em Ec) as [P W]. unfold width in W. rewrite (nth_error_nth _ _ [] Eo) in W.
    assert (IO : In sp orig).
    { apply In_nth_error in Hsp as [p Hp]. destruct (GroundStateProps.lay_len LAY Hsl) as [LE _]. destruct (nth_error (sl_encoding sl) p) as [c'|] eqn:Ep; [|apply nth_error_None in Ep; assert (p < length (sl_species sl)) by (apply nth_error_Some; congruence); lia].
      destruct (GroundStateProps.lay_codes LAY Hsl Hs Eo Ep) as (sp' & H1 & H2). assert (sp' = sp) by congruence. subst. eapply nth_error_In; eauto. }
    destruct (species_index_In IO) as (k & Ek & _). pose proof (species_index_spec _ _ Ek) as Hk.
    assert (NDo : NoDup orig) by (apply (lay_nodup LAY); eapply nth_error_In; eauto).
    destruct (nth_error mk k) as [m|] eqn:Emk; [|apply nth_error_None in Emk; assert (k < length orig) by (apply nth_error_Some; congruence); lia].
    exists (m :: ms). cbn [opt_map]. rewrite Eo. cbn [option_bind]. rewrite Ek. cbn [option_bind]. rewrite Em. cbn [option_bind]. rewrite Emk. cbn [option_bind]. rewrite E. cbn [option_bind]. split; auto.
    assert (HV : mark_value x m = if has_species origs occu sp s then 1%Qc else 0%Qc).
    { rewrite (pk_value P Emk). unfold has_species. rewrite Eo, Ec. destruct (Nat.eqb_spec k c) as [->|Hne].
      - rewrite Hk, sp_eqb_refl. auto.
      - destruct (nth_error orig c) as [sp'|] eqn:Eoc; auto. destruct (sp_eqb sp' sp) eqn:Es; auto. apply sp_eqb_eq in Es. subst. exfalso. apply Hne. rewrite NoDup_nth_error in NDo. apply NDo; [apply nth_error_Some; congruence|congruence]. }
    cbn [filter]. assert (T : (mark_value x m + (sum_vars x (vars_of ms) + Qc_of_nat (length (filter (fun m => match m with Always => true | _ => false end) ms))) = Qc_of_nat (length (if has_species origs occu sp s then s :: filter (has_species origs occu sp) l else filter (has_species origs occu sp) l)))%Qc).
    { rewrite V, HV. destruct (has_species origs occu sp s); cbn [length]; rewrite ?Qc_of_nat_S; ring. }
    rewrite <- T. destruct m as [v| |]; cbn [vars_of mark_value length]; unfold sum_vars; cbn [map qsum]; rewrite ?Qc_of_nat_S; ring. }
  destruct (G (sl_sites sl) (fun s H => H)) as (ms & E & V). rewrite E. cbn [option_bind]. eexists. split; [reflexivity|]. cbn [fst snd]. rewrite find_all_length. exact V.
Qed.
Lemma components_value x occu : feasible marks n x -> decode sls x marks = Some occu ->
  exists comps, components sls marks origs = Some comps /\ map (fun p => (sum_vars x (fst p) + Qc_of_nat (snd p))%Qc) comps = map Qc_of_nat (counts origs sls occu).
Proof using LAY INIT VARS.
  intros F D. unfold components, counts.
  assert (G : forall l, (forall sl, In sl l -> In sl sls) -> exists cs, opt_map (fun sl => opt_map (fun sp => component sl sp marks origs) (sl_species sl)) l = Some cs /\
     map (fun p => (sum_vars x (fst p) + Qc_of_nat (snd p))%Qc) (concat cs) = map Qc_of_nat (concat (map (fun sl => map (count_of origs occu sl) (sl_species sl)) l))).
  { induction l as [|sl l IH]; intros Hl; [exists []; auto|]. destruct IH as (cs & E & V); [intros; apply Hl; right; auto|].
    assert (K : forall sps, (forall sp, In sp sps -> In sp (sl_species sl)) -> exists ps, opt_map (fun sp => component sl sp marks origs) sps = Some ps /\ map (fun p => (sum_vars x (fst p) + Qc_of_nat (snd p))%Qc) ps = map Qc_of_nat (map (count_of origs occu sl) sps)).
    { induction sps as [|sp sps IHs]; intros Hs; [exists []; auto|]. destruct IHs as (ps & Ep & Vp); [intros; apply Hs; right; auto|]. destruct (component_value F D (Hl sl (or_introl eq_refl)) (Hs sp (or_introl eq_refl))) as (p & E1 & V1).
      exists (p :: ps). cbn [opt_map]. rewrite E1. cbn [option_bind]. rewrite Ep. cbn [option_bind map]. rewrite V1, Vp. auto. }
    destruct (K _ (fun sp H => H)) as (ps & Ep & Vp). exists (ps :: cs). cbn [opt_map]. rewrite Ep. cbn [option_bind]. rewrite E. cbn [option_bind map concat]. rewrite !map_app, Vp, V. auto. }
  destruct (G sls (fun sl H => H)) as (cs & E & V). rewrite E. cbn [option_bind]. eauto.
Qed.
End Composition.

(** For every feasible assignment, the variables and fixed sites of the components add up to the numbers of the
    species in the decoded occupancy. *)
Theorem C76_components : forall origs sls init marks n, var_layout origs sls -> initial_ok sls init -> origs <> [] -> get_variables sls init origs = Some (marks, n) ->
  exists comps, components sls marks origs = Some comps /\
    forall x occu, feasible marks n x -> decode sls x marks = Some occu -> map (fun p => (sum_vars x (fst p) + Qc_of_nat (snd p))%Qc) comps = map Qc_of_nat (counts origs sls occu).
Proof.
  intros origs sls init marks n LAY INIT NE VARS. destruct (some_feasible LAY INIT NE VARS) as (x0 & occu0 & F0 & D0). destruct (components_value LAY INIT VARS F0 D0) as (cs & E & _).
  exists cs. split; auto. intros x occu F D. destruct (components_value LAY INIT VARS F D) as (cs' & E' & V). congruence.
Qed.
Print Assumptions C76_components.

Definition comp_value (x : list Qc) (p : list nat * nat) : Qc := (sum_vars x (fst p) + Qc_of_nat (snd p))%Qc.
Lemma sum_vars_nonneg x vs : boolean x -> (0 <= sum_vars x vs)%Qc.
Proof. intros B. unfold sum_vars. apply qsum_nonneg. intros q Hq. apply in_map_iff in Hq as (v & <- & _). destruct (nth_in_or_default v x 0%Qc) as [H|H]; [destruct (B _ H) as [-> | ->]|rewrite H]; qclra. Qed.
Lemma Qc_of_nat_inj a b : Qc_of_nat a = Qc_of_nat b -> a = b.
Proof. intros H. apply Qc_of_Z_inj in H. lia. Qed.
Lemma fixed_constraint_ok x p r N : boolean x -> comp_value x p = Qc_of_nat N ->
  match fixed_constraint p r with Some ks => (forall k, In k ks -> comp_holds x k) <-> Z.of_nat N = r | None => Z.of_nat N <> r end.
Proof.
  intros B V. unfold comp_value in V. destruct p as [vs k]. cbn [fst snd] in V. unfold fixed_constraint. cbn [fst snd]. pose proof (sum_vars_nonneg (vs := vs) B) as NN.
  assert (LK : (Z.of_nat k <= Z.of_nat N)%Z). { apply Qc_of_Z_le. change (Qc_of_nat k <= Qc_of_nat N)%Qc. rewrite <- V. qclra. }
  destruct (Z.ltb_spec r (Z.of_nat k)); [lia|]. destruct (Nat.eqb_spec (length vs) 0) as [E|E].
  - destruct vs; [|discriminate]. unfold sum_vars in V. simpl in V. rewrite Qcplus_0_l in V. apply Qc_of_nat_inj in V. subst N. destruct (Z.eqb_spec (Z.of_nat k) r); [split; [auto|intros _ k' []]|auto].
  - unfold comp_holds. split.
    + intros Hk. specialize (Hk _ (or_introl eq_refl)). cbn [k_rel k_groups k_const k_bound rel_holds map qsum fst snd] in Hk. apply Qc_of_Z_inj. change (Qc_of_nat N = Qc_of_Z r). rewrite <- V, <- Hk. ring.
    + intros <- k' [<-|[]]. cbn [k_rel k_groups k_const k_bound rel_holds map qsum fst snd]. change (Qc_of_Z (Z.of_nat N)) with (Qc_of_nat N). rewrite <- V. ring.
Qed.
Lemma fixed_constraints_ok x : boolean x -> forall comps required ns, length required = length comps -> map (comp_value x) comps = map Qc_of_nat ns ->
  match fixed_constraints comps required with Some ks => (forall k, In k ks -> comp_holds x k) <-> map Z.of_nat ns = required | None => map Z.of_nat ns <> required end.
Proof.
  intros B. induction comps as [|p comps IH]; intros [|r required] [|N ns] L V; try discriminate; [simpl; tauto|]. cbn [map] in V. assert (V1 : comp_value x p = Qc_of_nat N) by (apply (f_equal (hd 0%Qc)) in V; exact V). assert (V2 : map (comp_value x) comps = map Qc_of_nat ns) by (apply (f_equal (@tl Qc)) in V; exact V). cbn [fixed_constraints map].
  pose proof (fixed_constraint_ok r B V1) as H1. assert (H2 := IH required ns). destruct (fixed_constraint p r) as [k|]; cbn [option_bind]; [|congruence].
  destruct (fixed_constraints comps required) as [ks|]; cbn [option_bind].
  - specialize (H2 ltac:(simpl in L; lia) V2). split.
    + intros H. f_equal; [apply H1|apply H2]; intros k' Hk; apply H, in_or_app; auto.
    + intros H k' Hk. injection H as E1 E2. apply in_app_or in Hk as [Hk|Hk]; [apply H1|apply H2]; auto.
  - specialize (H2 ltac:(simpl in L; lia) V2). congruence.
Qed.

Lemma tiny_0 : tiny 0%Qc = true.
Proof. reflexivity. Qed.
Lemma groups_ok x a0 : (forall q, In q a0 -> tiny q = true -> q = 0%Qc) -> forall comps a o, (forall j, nth_error a0 (o + j) = nth_error a j) -> length a = length comps ->
  exists gs, opt_map (fun p : nat * (list nat * nat) => let? q := nth_error a0 (fst p) in
      Some (if (length (fst (snd p)) =? 0) || tiny q then [] else [(q, fst (snd p))], (Qc_of_nat (snd (snd p)) * q)%Qc)) (combine (seq o (length comps)) comps) = Some gs /\
    (qsum (map (fun g => fst g * sum_vars x (snd g)) (concat (map fst gs))) + qsum (map snd gs) = qdot a (map (comp_value x) comps))%Qc.
Proof.
  intros SH. induction comps as [|p comps IH]; intros a o HA L; destruct a as [|q a]; try discriminate; [exists []; split; auto|].
  destruct (IH a (S o)) as (gs & E & V); [intros j; specialize (HA (S j)); rewrite Nat.add_succ_r in HA; exact HA|simpl in L; lia|].
  cbn [length seq combine opt_map fst snd]. specialize (HA 0). rewrite Nat.add_0_r in HA. cbn [nth_error] in HA. rewrite HA. cbn [option_bind]. rewrite E. cbn [option_bind]. eexists. split; [reflexivity|].
  cbn [map concat fst snd qsum qdot]. rewrite map_app, qsum_app, <- V. unfold comp_value at 1. destruct p as [vs k]. cbn [fst snd]. destruct (Nat.eqb_spec (length vs) 0) as [Ev|Ev]; cbn [orb].
  - destruct vs; [|discriminate]. change (sum_vars x []) with 0%Qc. cbn [map qsum]. ring.
  - destruct (tiny q) eqn:Et; [|cbn [map qsum fst snd]; ring]. rewrite (SH q (nth_error_In _ _ HA) Et). cbn [map qsum]. ring.
Qed.
Lemma rel_dec_spec r x y : rel_dec r x y = true <-> rel_holds r x y.
Proof. destruct r; simpl; [destruct (Qceqb_spec x y)|destruct (Qcleb_spec x y)]; split; auto; intros H; try discriminate; contradiction. Qed.
Lemma qdot_zeros a : (forall q, In q a -> q = 0%Qc) -> forall v, qdot a v = 0%Qc.
Proof. induction a as [|q a IH]; intros H [|y v]; simpl; auto. rewrite (H q) by (simpl; auto). rewrite IH by (intros; apply H; right; auto). ring. Qed.
Lemma formula_constraint_ok x comps r row ns : sharp row -> length (fst row) = length comps -> map (comp_value x) comps = map Qc_of_nat ns ->
  match formula_constraint r comps row with Some ks => (forall k, In k ks -> comp_holds x k) <-> row_holds r ns row | None => ~ row_holds r ns row end.
Proof.
  destruct row as [a b]. intros [SA SB] L V. cbn [fst snd] in *. unfold formula_constraint, row_holds. cbn [fst snd]. destruct (forallb tiny a) eqn:ET.
  - assert (Z : forall q, In q a -> q = 0%Qc) by (intros q Hq; apply SA; auto; rewrite forallb_forall in ET; auto). rewrite (qdot_zeros Z). destruct r; simpl rel_holds.
    + destruct (tiny b) eqn:Eb; [rewrite (SB eq_refl); split; auto; intros _ k []|]. intros <-. rewrite tiny_0 in Eb. discriminate.
    + destruct (Qcltb_spec b 0%Qc) as [H|H]; [apply Qclt_not_le; auto|]. apply Qcnot_lt_le in H. split; auto; intros _ k [].
  - unfold formula_groups. destruct (@groups_ok x a SA comps a 0) as (gs & E & S); auto. rewrite E. cbn [option_bind fst snd]. rewrite V in S. destruct (Nat.eqb_spec (length (concat (map fst gs))) 0) as [El|El].
    + destruct (concat (map fst gs)); [|discriminate]. cbn [map qsum] in S. rewrite Qcplus_0_l in S. rewrite S. pose proof (rel_dec_spec r (qdot a (map Qc_of_nat ns)) b) as R. destruct (rel_dec r (qdot a (map Qc_of_nat ns)) b); [split; [intros _; apply R; auto|intros _ k []]|]. intros H. apply R in H. discriminate.
    + rewrite <- S. split; [intros H; apply (H _ (or_introl eq_refl))|intros H k [<-|[]]; exact H].
Qed.
Lemma formula_constraints_ok x comps r skip ns : map (comp_value x) comps = map Qc_of_nat ns -> forall rows o,
  (forall i row, nth_error rows i = Some row -> if memb (o + i) skip then row_holds r ns row else sharp row /\ length (fst row) = length comps) ->
  match opt_map (fun p : nat * (list Qc * Qc) => if memb (fst p) skip then Some [] else formula_constraint r comps (snd p)) (combine (seq o (length rows)) rows) with
  | Some ks => (forall k, In k (concat ks) -> comp_holds x k) <-> (forall row, In row rows -> row_holds r ns row)
  | None => ~ (forall row, In row rows -> row_holds r ns row)
  end.
Proof.
  intros V. induction rows as [|row rows IH]; intros o H; [simpl; split; intros ? ? []|]. cbn [length seq combine opt_map fst snd].
  assert (H' : forall i row', nth_error rows i = Some row' -> if memb (S o + i) skip then row_holds r ns row' else sharp row' /\ length (fst row') = length comps) by (intros i row' Hi; specialize (H (S i) row' Hi); rewrite Nat.add_succ_r in H; exact H).
  specialize (IH (S o) H'). specialize (H 0 row eq_refl). rewrite Nat.add_0_r in H.
  assert (H1 : match (if memb o skip then Some [] else formula_constraint r comps row) with Some ks => (forall k, In k ks -> comp_holds x k) <-> row_holds r ns row | None => ~ row_holds r ns row end).
  { destruct (memb o skip); [split; auto; intros _ k []|]. destruct H. apply formula_constraint_ok; auto. }
  destruct (if memb o skip then Some [] else formula_constraint r comps row) as [k|]; cbn [option_bind]; [|intros K; apply H1, K; left; auto].
  destruct (opt_map _ (combine (seq (S o) (length rows)) rows)) as [ks|]; cbn [option_bind]; [|intros K; apply IH; intros; apply K; right; auto].
  cbn [concat]. split.
  - intros K row' [<-|Hr]; [apply H1|apply IH; auto]; intros; apply K, in_or_app; auto.
  - intros K k' Hk. apply in_app_or in Hk as [Hk|Hk]; [apply H1; auto; apply K; left; auto|apply IH; auto; intros; apply K; right; auto].
Qed.

(** Fixed numbers of the species: the constraints hold exactly for the occupancies with these numbers, and the
    refusal means that there is none. *)
Theorem C76_fixed : forall origs sls init marks n comps required, var_layout origs sls -> initial_ok sls init -> origs <> [] -> get_variables sls init origs = Some (marks, n) ->
  components sls marks origs = Some comps -> length required = length comps ->
  match fixed_constraints comps required with
  | Some ks => forall x occu, feasible marks n x -> decode sls x marks = Some occu -> ((forall k, In k ks -> comp_holds x k) <-> map Z.of_nat (counts origs sls occu) = required)
  | None => forall occu, allowed sls init (length origs) occu -> map Z.of_nat (counts origs sls occu) <> required
  end.
Proof.
  intros origs sls init marks n comps required LAY INIT NE VARS EC L. destruct (C76_components LAY INIT NE VARS) as (comps' & EC' & V). assert (comps' = comps) by congruence. subst comps'.
  assert (G : forall x occu, feasible marks n x -> decode sls x marks = Some occu -> match fixed_constraints comps required with Some ks => (forall k, In k ks -> comp_holds x k) <-> map Z.of_nat (counts origs sls occu) = required | None => map Z.of_nat (counts origs sls occu) <> required end).
  { intros x occu F D. apply fixed_constraints_ok; auto; [destruct F as (_ & B & _); exact B|apply (V x occu F D)]. }
  destruct (fixed_constraints comps required); [exact G|]. intros occu A. destruct (problem_marks LAY INIT VARS) as [ids MO]. destruct (encode_ok LAY INIT NE MO A) as (x & Ex & _).
  apply (G x occu); [apply (encode_feasible LAY INIT NE MO A Ex)|apply (decode_encode LAY INIT NE MO A Ex)].
Qed.
Print Assumptions C76_fixed.

Lemma species_total origs sls occu sl init : var_layout origs sls -> allowed sls init (length origs) occu -> In sl sls ->
  list_sum (map (count_of origs occu sl) (sl_species sl)) = length (sl_sites sl).
Proof.
  intros LAY [LO A] Hsl. unfold count_of.
  assert (SW : forall l, list_sum (map (fun sp => length (filter (has_species origs occu sp) l)) (sl_species sl)) = list_sum (map (fun s => length (filter (fun sp => has_species origs occu sp s) (sl_species sl))) l)).
  { induction l as [|s l IH]; simpl.
    - induction (sl_species sl) as [|sp sps IH]; simpl; auto.
    - rewrite <- IH. clear. induction (sl_species sl) as [|sp sps IH]; simpl; auto. destruct (has_species origs occu sp s); simpl; lia. }
  rewrite SW. assert (G : forall l, (forall s, In s l -> In s (sl_sites sl)) -> list_sum (map (fun s => length (filter (fun sp => has_species origs occu sp s) (sl_species sl))) l) = length l).
  { induction l as [|s l IH]; intros Hl; simpl; auto. rewrite IH by (intros; apply Hl; right; auto). assert (Hs : In s (sl_sites sl)) by (apply Hl; left; auto). pose proof (site_lt LAY Hsl Hs) as HN.
    destruct (nth_error origs s) as [orig|] eqn:Eo; [|apply nth_error_None in Eo; lia]. destruct (nth_error occu s) as [c|] eqn:Ec; [|apply nth_error_None in Ec; lia].
    destruct (A sl s c Hsl Hs Ec) as [Hc _]. apply In_nth_error in Hc as [k Hk]. destruct (GroundStateProps.lay_codes LAY Hsl Hs Eo Hk) as (sp & Hsp & Hos). assert (NDo : NoDup orig) by (apply (lay_nodup LAY); eapply nth_error_In; eauto).
    assert (ND : NoDup (sl_species sl)).
    { rewrite NoDup_nth_error. intros i j Hi E. destruct (GroundStateProps.lay_len LAY Hsl) as [LE _]. pose proof (sorted_NoDup (lay_sorted LAY Hsl)) as NDe.
      assert (Hj : j < length (sl_species sl)) by (apply nth_error_Some; rewrite <- E; apply nth_error_Some; auto).
      destruct (nth_error (sl_encoding sl) i) as [ci|] eqn:Ei; [|apply nth_error_None in Ei; lia]. destruct (nth_error (sl_encoding sl) j) as [cj|] eqn:Ej; [|apply nth_error_None in Ej; lia].
      destruct (GroundStateProps.lay_codes LAY Hsl Hs Eo Ei) as (si & S1 & S2). destruct (GroundStateProps.lay_codes LAY Hsl Hs Eo Ej) as (sj & S3 & S4). assert (si = sj) by congruence. subst sj.
      assert (ci = cj) by (rewrite NoDup_nth_error in NDo; apply NDo; [apply nth_error_Some; congruence|congruence]). subst cj. rewrite NoDup_nth_error in NDe. apply NDe; [lia|congruence]. }
    rewrite (filter_ext _ (fun sp' => sp_eqb sp sp')). 2:{ intros sp'. unfold has_species. rewrite Eo, Ec, Hos. auto. }
    cut (length (filter (fun sp' => sp_eqb sp sp') (sl_species sl)) = 1); [lia|]. apply nth_error_In in Hsp. clear - ND Hsp. induction (sl_species sl) as [|a l IH]; [contradiction|]. apply NoDup_cons_iff in ND as [NI ND]. cbn [filter]. destruct (sp_eqb sp a) eqn:E.
    - apply sp_eqb_eq in E. subst a. simpl. f_equal. clear - NI. induction l as [|b l IH]; simpl; auto. destruct (sp_eqb sp b) eqn:E; [apply sp_eqb_eq in E; subst; exfalso; apply NI; left; auto|]. apply IH. intros H. apply NI. right. auto.
    - destruct Hsp as [->|H]; [rewrite sp_eqb_refl in E; discriminate|]. auto. }
  apply G. auto.
Qed.
Lemma qdot_app a : forall v b w, length a = length v -> qdot (a ++ b) (v ++ w) = (qdot a v + qdot b w)%Qc.
Proof. induction a as [|q a IH]; intros [|y v] b w L; try discriminate; simpl; [ring|]. rewrite IH by (simpl in L; lia). ring. Qed.
Lemma qdot_repeat q v : qdot (repeat q (length v)) v = (q * qsum v)%Qc.
Proof. induction v as [|y v IH]; simpl; [ring|]. rewrite IH. ring. Qed.
Lemma Qc_of_nat_add a b : Qc_of_nat (a + b) = (Qc_of_nat a + Qc_of_nat b)%Qc.
Proof. unfold Qc_of_nat. rewrite Nat2Z.inj_add. apply Qc_of_Z_add. Qed.
Lemma qsum_of_nat l : qsum (map Qc_of_nat l) = Qc_of_nat (list_sum l).
Proof. induction l as [|a l IH]; cbn [map qsum list_sum fold_right]; auto. change (fold_right Nat.add 0 l) with (list_sum l). rewrite Qc_of_nat_add, IH. auto. Qed.
Lemma size_row_holds origs sls init occu i : var_layout origs sls -> allowed sls init (length origs) occu -> i < length sls -> row_holds Eq (counts origs sls occu) (size_row sls i).
Proof.
  intros LAY A Hi. unfold row_holds, size_row, counts. cbn [fst snd rel_holds]. destruct (nth_error sls i) as [sl|] eqn:Es; [|apply nth_error_None in Es; lia].
  assert (G : forall l o, (forall sl', In sl' l -> In sl' sls) -> qdot (concat (map (fun p => repeat (if fst p =? i then 1%Qc else 0%Qc) (length (sl_species (snd p)))) (combine (seq o (length l)) l)))
                 (map Qc_of_nat (concat (map (fun sl => map (count_of origs occu sl) (sl_species sl)) l))) =
               if i <? o then 0%Qc else match nth_error l (i - o) with Some sl' => Qc_of_nat (length (sl_sites sl')) | None => 0%Qc end).
  { induction l as [|sl' l IH]; intros o Hl; cbn [length seq combine map concat]; [destruct (i <? o); auto; destruct (i - o); auto|]. rewrite map_app, qdot_app by (rewrite repeat_length, !map_length; auto).
    rewrite (IH (S o)) by (intros; apply Hl; right; auto). cbn [fst snd].
    replace (length (sl_species sl')) with (length (map Qc_of_nat (map (count_of origs occu sl') (sl_species sl')))) by (rewrite !map_length; auto). rewrite qdot_repeat, qsum_of_nat, (species_total LAY A (Hl sl' (or_introl eq_refl))).
    destruct (Nat.eqb_spec o i) as [->|Ne].
    - rewrite (proj2 (Nat.ltb_lt i (S i))), Nat.ltb_irrefl, Nat.sub_diag by lia. cbn [nth_error]. ring.
    - destruct (Nat.ltb_spec i o); [rewrite (proj2 (Nat.ltb_lt i (S o))) by lia; ring|]. destruct (Nat.ltb_spec i (S o)); [lia|]. replace (i - o) with (S (i - S o)) by lia. cbn [nth_error]. ring. }
  rewrite (G sls 0) by auto. simpl. rewrite Nat.sub_0_r, Es. auto.
Qed.

(** The rows of a composition space: charge first when constrained, the sizes of the sublattices, then others.  The
    constraints hold exactly for the occupancies whose numbers satisfy all rows, and the refusal means that there is none. *)
Theorem C76_space : forall origs sls init marks n (charge : bool) crow others leqs, var_layout origs sls -> initial_ok sls init -> origs <> [] -> get_variables sls init origs = Some (marks, n) ->
  (forall row, In row (crow :: others ++ leqs) -> sharp row /\ length (fst row) = list_sum (map (fun sl => length (sl_species sl)) sls)) ->
  let eqs := (if charge then [crow] else []) ++ map (size_row sls) (seq 0 (length sls)) ++ others in
  let meets occu := (forall row, In row eqs -> row_holds Eq (counts origs sls occu) row) /\ (forall row, In row leqs -> row_holds Leq (counts origs sls occu) row) in
  match space_constraints charge sls marks origs eqs leqs with
  | Some ks => forall x occu, feasible marks n x -> decode sls x marks = Some occu -> ((forall k, In k ks -> comp_holds x k) <-> meets occu)
  | None => forall occu, allowed sls init (length origs) occu -> ~ meets occu
  end.
Proof.
  intros origs sls init marks n charge crow others leqs LAY INIT NE VARS ROWS eqs meets. destruct (C76_components LAY INIT NE VARS) as (comps & EC & V). destruct (problem_marks LAY INIT VARS) as [ids MO].
  assert (SL : sls <> []).
  { intros ->. pose proof (GroundStateProps.lay_sites LAY) as P. simpl in P. apply Permutation_nil in P. destruct origs; [contradiction|discriminate]. }
  assert (LC : length comps = list_sum (map (fun sl => length (sl_species sl)) sls)).
  { destruct (some_feasible LAY INIT NE VARS) as (x & occu & F & D). pose proof (f_equal (@length Qc) (V x occu F D)) as LL. rewrite !map_length in LL. rewrite LL. unfold counts. rewrite <- (list_sum_concat (fun sl => map (count_of origs occu sl) (sl_species sl))). f_equal. apply map_ext. intros sl. apply map_length. }
  assert (R0 : exists r0, nth_error eqs 0 = Some r0 /\ (r0 = crow /\ charge = true \/ charge = false /\ r0 = size_row sls 0)).
  { unfold eqs. destruct charge; simpl; [eauto|]. destruct sls; [contradiction|]. simpl. eauto. }
  destruct R0 as (r0 & E0 & R0). unfold space_constraints. rewrite EC. cbn [option_bind]. unfold skip_rows. rewrite E0. cbn [option_bind].
  set (skip := if forallb tiny (fst r0) && tiny (snd r0) then 0 :: seq (if charge then 1 else 0) (length sls) else seq (if charge then 1 else 0) (length sls)).
  assert (G : forall x occu, feasible marks n x -> decode sls x marks = Some occu ->
    match (let? ks := formula_constraints Eq comps skip eqs in let? ks' := formula_constraints Leq comps [] leqs in Some (ks ++ ks')) with Some ks => (forall k, In k ks -> comp_holds x k) <-> meets occu | None => ~ meets occu end).
  { intros x occu F D. pose proof (V x occu F D) as VX. pose proof (decode_allowed LAY INIT MO F D) as AL. unfold formula_constraints.
    assert (H1 : forall i row, nth_error eqs i = Some row -> if memb (0 + i) skip then row_holds Eq (counts origs sls occu) row else sharp row /\ length (fst row) = length comps).
    { intros i row Hi. rewrite LC. cbn [Nat.add]. assert (SZ : In i (seq (if charge then 1 else 0) (length sls)) -> row_holds Eq (counts origs sls occu) row).
      { intros I. apply in_seq in I. assert (E : exists j, j < length sls /\ row = size_row sls j).
        { unfold eqs in Hi. destruct charge.
          - destruct i as [|i]; [lia|]. simpl in Hi. rewrite nth_error_app1 in Hi by (rewrite map_length, seq_length; lia). apply nth_error_In, in_map_iff in Hi as (j & <- & Hj). apply in_seq in Hj. exists j. split; [lia|auto].
          - simpl in Hi. rewrite nth_error_app1 in Hi by (rewrite map_length, seq_length; lia). apply nth_error_In, in_map_iff in Hi as (j & <- & Hj). apply in_seq in Hj. exists j. split; [lia|auto]. }
        destruct E as (j & Hj & ->). eapply size_row_holds; eauto. }
      destruct (memb i skip) eqn:EM.
      - apply memb_In in EM. unfold skip in EM. destruct (forallb tiny (fst r0) && tiny (snd r0)) eqn:ET; [|auto]. destruct EM as [<-|EM]; auto. assert (row = r0) by congruence. subst row.
        destruct R0 as [[-> _]|[-> ->]]; [|apply (size_row_holds LAY AL); destruct sls; [contradiction|simpl; lia]]. apply andb_prop in ET as [T1 T2]. destruct (ROWS crow (or_introl eq_refl)) as [[S1 S2] _].
        unfold row_holds. simpl. rewrite (S2 T2). apply qdot_zeros. intros q Hq. apply S1; auto. rewrite forallb_forall in T1. auto.
      - assert (NI : ~ In i (seq (if charge then 1 else 0) (length sls))) by (intros I; assert (In i skip) by (unfold skip; destruct (_ && _); simpl; auto); apply memb_In in H; congruence).
        apply ROWS. unfold eqs in Hi. destruct charge.
        + destruct i as [|i]; [left; injection Hi; auto|]. simpl in Hi. rewrite nth_error_app2 in Hi by (rewrite map_length, seq_length; rewrite in_seq in NI; lia). right. apply in_or_app. left. eapply nth_error_In; eauto.
        + simpl in Hi. rewrite nth_error_app2 in Hi by (rewrite map_length, seq_length; rewrite in_seq in NI; lia). right. apply in_or_app. left. eapply nth_error_In; eauto. }
    assert (H2 : forall i row, nth_error leqs i = Some row -> if memb (0 + i) [] then row_holds Leq (counts origs sls occu) row else sharp row /\ length (fst row) = length comps).
    { intros i row Hi. cbn [memb]. rewrite LC. apply ROWS. right. apply in_or_app. right. eapply nth_error_In; eauto. }
    pose proof (@formula_constraints_ok x comps Eq skip _ VX eqs 0 H1) as K1. pose proof (@formula_constraints_ok x comps Leq [] _ VX leqs 0 H2) as K2.
    destruct (opt_map _ (combine (seq 0 (length eqs)) eqs)) as [ks|]; cbn [option_bind]; [|unfold meets; tauto].
    destruct (opt_map _ (combine (seq 0 (length leqs)) leqs)) as [ks'|]; cbn [option_bind]; [|unfold meets; tauto]. unfold meets. rewrite <- K1, <- K2. split.
    - intros H. split; intros; apply H, in_or_app; auto.
    - intros [A1 A2] k Hk. apply in_app_or in Hk as [Hk|Hk]; auto. }
  destruct (let? ks := formula_constraints Eq comps skip eqs in let? ks' := formula_constraints Leq comps [] leqs in Some (ks ++ ks')); [exact G|]. intros occu A. destruct (encode_ok LAY INIT NE MO A) as (x & Ex & _).
  apply (G x occu); [apply (encode_feasible LAY INIT NE MO A Ex)|apply (decode_encode LAY INIT NE MO A Ex)].
Qed.
Print Assumptions C76_space.

Lemma concat_blocks {B} (F : sublattice -> nat -> B) sls : forall L, length L = n_dims_of sls ->
  (forall k sl p code, nth_error sls k = Some sl -> nth_error (sl_encoding sl) p = Some code -> nth_error L (dim_offset sls k + p) = Some (F sl code)) ->
  L = concat (map (fun sl => map (F sl) (sl_encoding sl)) sls).
Proof.
  induction sls as [|sl sls IH]; intros L HL H; [destruct L; [auto|discriminate]|]. cbn [map concat]. assert (HL' : length L = length (sl_encoding sl) + n_dims_of sls) by exact HL.
  rewrite <- (firstn_skipn (length (sl_encoding sl)) L). f_equal.
  - apply nth_error_eq. intros p. rewrite nth_error_map. destruct (nth_error (sl_encoding sl) p) as [c|] eqn:Ep; simpl.
    + assert (p < length (sl_encoding sl)) by (apply nth_error_Some; congruence). rewrite nth_error_firstn_lt by auto. apply (H 0 sl p c eq_refl Ep).
    + apply nth_error_None in Ep. apply nth_error_None. rewrite firstn_length. lia.
  - apply IH; [rewrite skipn_length; lia|]. intros k sl' p c Hk Hp. rewrite nth_error_skipn. rewrite Nat.add_assoc. exact (H (S k) sl' p c Hk Hp).
Qed.
(** Without a given composition, the numbers of the initial occupancy are used, counted over all sites; the constraints can be
    built and the initial occupancy satisfies them. *)
Theorem C76_default : forall origs sls marks n o comps, origs <> [] -> var_layout origs sls -> layout sls (length origs) -> initial_ok sls (Some o) -> allowed sls (Some o) (length origs) o ->
  get_variables sls (Some o) origs = Some (marks, n) -> components sls marks origs = Some comps ->
  exists t required ks x, get_dim_ids_table sls false = Some t /\ occu_to_counts o (list_sum (map (fun sl => length (sl_species sl)) sls)) t = Some required /\ required = map Z.of_nat (counts origs sls o) /\
    fixed_constraints comps required = Some ks /\ encode sls o marks = Some x /\ feasible marks n x /\ forall k, In k ks -> comp_holds x k.
Proof.
  intros origs sls marks n o comps NE LAY LAY2 INIT AL VARS EC.
  assert (VO : valid_occu sls (length origs) o).
  { destruct AL as [LO A]. split; auto. intros sl s Hsl Hs. pose proof (site_lt LAY Hsl Hs). destruct (nth_error o s) as [c|] eqn:Ec; [|apply nth_error_None in Ec; lia]. exists c. split; auto. apply (A sl s c Hsl Hs Ec). }
  destruct (C02_species_lists _ _ false _ LAY2 VO) as (t & L & m & Et & _ & Em & LL & Lm & AT & _).
  assert (ND : n_dims_of sls = list_sum (map (fun sl => length (sl_species sl)) sls)).
  { unfold n_dims_of. f_equal. apply map_ext_in. intros sl Hsl. apply (GroundStateProps.lay_len LAY Hsl). }
  assert (EM : m = map Z.of_nat (counts origs sls o)).
  { rewrite <- Lm, (concat_blocks (F := fun sl c => sites_carrying (length origs) (sl_sites sl) o c) LL AT). unfold counts. rewrite !concat_map, !map_map. f_equal. apply map_ext_in. intros sl Hsl. rewrite !map_map.
    destruct (GroundStateProps.lay_len LAY Hsl) as [LE _]. apply nth_error_eq. intros p. rewrite !nth_error_map. destruct (nth_error (sl_encoding sl) p) as [c|] eqn:Ep; [|apply nth_error_None in Ep; rewrite LE in Ep; apply nth_error_None in Ep; rewrite Ep; auto].
    destruct (nth_error (sl_species sl) p) as [sp|] eqn:Es; [|apply nth_error_None in Es; assert (p < length (sl_encoding sl)) by (apply nth_error_Some; congruence); lia]. cbn [option_map]. do 2 f_equal. unfold count_of, sites_carrying.
    apply Permutation_length, NoDup_Permutation.
    - apply NoDup_filter, seq_NoDup.
    - apply NoDup_filter. pose proof (sites_nodup LAY) as NDs. clear - NDs Hsl. induction sls as [|a l IH]; [contradiction|]. cbn [map concat] in NDs. destruct Hsl as [->|H]; [apply NoDup_app_remove_r in NDs; auto|apply NoDup_app_remove_l in NDs; auto].
    - intros s. rewrite !filter_In, in_seq, andb_true_iff, memb_In. split.
      + intros [_ [Hs Hc]]. split; auto. pose proof (site_lt LAY Hsl Hs) as HN. unfold has_species. destruct (nth_error origs s) as [orig|] eqn:Eo; [|apply nth_error_None in Eo; lia]. destruct (nth_error o s) as [c'|]; [|discriminate]. apply Nat.eqb_eq in Hc. subst c'.
        destruct (GroundStateProps.lay_codes LAY Hsl Hs Eo Ep) as (sp' & H1 & H2). rewrite H2. apply sp_eqb_eq. congruence.
      + intros [Hs Hh]. pose proof (site_lt LAY Hsl Hs) as HN. split; [lia|]. split; auto. unfold has_species in Hh. destruct (nth_error origs s) as [orig|] eqn:Eo; [|discriminate]. destruct (nth_error o s) as [c'|]; [|discriminate].
        destruct (GroundStateProps.lay_codes LAY Hsl Hs Eo Ep) as (sp' & H1 & H2). destruct (nth_error orig c') as [sp2|] eqn:E2; [|discriminate]. apply sp_eqb_eq in Hh. subst sp2. assert (sp' = sp) by congruence. subst sp'.
        apply Nat.eqb_eq. assert (NDo : NoDup orig) by (apply (lay_nodup LAY); eapply nth_error_In; eauto). rewrite NoDup_nth_error in NDo. apply NDo; [apply nth_error_Some; congruence|congruence]. }
  rewrite ND in Em. assert (LC : length m = length comps).
  { destruct (C76_components LAY INIT NE VARS) as (comps' & EC' & V). assert (comps' = comps) by congruence. subst comps'. destruct (some_feasible LAY INIT NE VARS) as (x & occu & F & D). pose proof (f_equal (@length Qc) (V x occu F D)) as LLx. rewrite !map_length in LLx. rewrite LLx, EM, map_length.
    unfold counts. rewrite <- !(list_sum_concat (fun sl => map (count_of origs _ sl) (sl_species sl))). f_equal. apply map_ext. intros sl. rewrite !map_length. auto. }
  pose proof (C76_fixed LAY INIT NE VARS EC LC) as FX. destruct (problem_marks LAY INIT VARS) as [ids MO]. destruct (encode_ok LAY INIT NE MO AL) as (x & Ex & _). pose proof (encode_feasible LAY INIT NE MO AL Ex) as F.
  destruct (fixed_constraints comps m) as [ks|] eqn:EF.
  - exists t, m, ks, x. repeat (split; [assumption|]). apply (FX x o F); auto. apply (decode_encode LAY INIT NE MO AL Ex).
  - exfalso. apply (FX o AL). auto.
Qed.
Print Assumptions C76_default.

(** ** The two kinds of problems *)
(** Canonical: optimal solutions are the occupancies of lowest energy among the allowed ones with the fixed composition. *)
Theorem C52_canonical : forall origs sls init marks n ps ts cutoff o comps required ks, var_layout origs sls -> initial_ok sls init -> origs <> [] -> get_variables sls init origs = Some (marks, n) ->
  (forall p, In p ps -> processor_ok origs p) -> problem_terms marks ps None = Some ts -> (cutoff <= 0)%Qc -> linearize ts cutoff = Some o ->
  components sls marks origs = Some comps -> length required = length comps -> fixed_constraints comps required = Some ks ->
  let gs := ground_state sls init (length origs) ps None (fun occu => map Z.of_nat (counts origs sls occu) = required) in
  (forall x aux, optimal marks n o ks x aux -> exists occu, decode sls x marks = Some occu /\ gs occu (obj_value o x aux)) /\
  (forall occu e, gs occu e -> exists x aux, encode sls occu marks = Some x /\ optimal marks n o ks x aux /\ obj_value o x aux = e).
Proof.
  intros origs sls init marks n ps ts cutoff o comps required ks LAY INIT NE VARS OK ET HC EL EC LR EF gs. pose proof (C76_fixed LAY INIT NE VARS EC LR) as FX. rewrite EF in FX.
  exact (@C52_ground_state origs sls init marks n ps None ts cutoff o ks _ LAY INIT NE VARS OK I ET HC EL FX).
Qed.
Print Assumptions C52_canonical.
(** Semigrand: of lowest energy minus chemical work among the allowed ones in the composition space. *)
Theorem C52_semigrand : forall origs sls init marks n ps table ts cutoff o (charge : bool) crow others leqs ks, var_layout origs sls -> initial_ok sls init -> origs <> [] -> get_variables sls init origs = Some (marks, n) ->
  (forall p, In p ps -> processor_ok origs p) -> table_ok origs (Some table) -> problem_terms marks ps (Some table) = Some ts -> (cutoff <= 0)%Qc -> linearize ts cutoff = Some o ->
  (forall row, In row (crow :: others ++ leqs) -> sharp row /\ length (fst row) = list_sum (map (fun sl => length (sl_species sl)) sls)) ->
  let eqs := (if charge then [crow] else []) ++ map (size_row sls) (seq 0 (length sls)) ++ others in
  space_constraints charge sls marks origs eqs leqs = Some ks ->
  let gs := ground_state sls init (length origs) ps (Some table)
    (fun occu => (forall row, In row eqs -> row_holds Eq (counts origs sls occu) row) /\ (forall row, In row leqs -> row_holds Leq (counts origs sls occu) row)) in
  (forall x aux, optimal marks n o ks x aux -> exists occu, decode sls x marks = Some occu /\ gs occu (obj_value o x aux)) /\
  (forall occu e, gs occu e -> exists x aux, encode sls occu marks = Some x /\ optimal marks n o ks x aux /\ obj_value o x aux = e).
Proof.
  intros origs sls init marks n ps table ts cutoff o charge crow others leqs ks LAY INIT NE VARS OK T ET HC EL ROWS eqs EK gs.
  pose proof (@C76_space origs sls init marks n charge crow others leqs LAY INIT NE VARS ROWS) as SP. cbv zeta in SP. fold eqs in SP. rewrite EK in SP.
  exact (@C52_ground_state origs sls init marks n ps (Some table) ts cutoff o ks _ LAY INIT NE VARS OK T ET HC EL SP).
Qed.
Print Assumptions C52_semigrand.

(** The ensemble's table of potentials is wide enough when every sublattice keeps the last species of its sites. *)
Theorem C52_full_table : forall origs e v t, layout (e_sls e) (length origs) -> e_sites e = length origs -> coded (e_sls e) -> (forall sp, In sp (e_species e) -> In sp (map fst v)) ->
  (forall sl s orig, In sl (e_sls e) -> In s (sl_sites sl) -> nth_error origs s = Some orig -> orig <> [] /\ In (length orig - 1) (sl_encoding sl)) ->
  mu_table e v = Some t -> table_ok origs (Some t).
Proof.
  intros origs e v t L HN C Hv FULL Et s orig Ho. destruct (mu_table_spec L HN C Hv) as (t' & Et' & P & Q). assert (t' = t) by congruence. subst t'.
  assert (Hs : In s (concat (map sl_sites (e_sls e)))). { eapply Permutation_in; [apply Permutation_sym, (OccuUtilsSpec.lay_sites L)|]. apply in_seq. split; [lia|]. apply nth_error_Some. congruence. }
  apply in_concat in Hs as (l & Hl & Hs). apply in_map_iff in Hl as (sl & <- & Hsl). destruct (FULL sl s orig Hsl Hs Ho) as [NO Hc].
  assert (G : exists q, get_val t s (length orig - 1) = Some q).
  { destruct (is_active sl) eqn:Ea; [|exists 0%Qc; eapply Q; eauto]. assert (Hact : In sl (e_active e)) by (apply filter_In; auto). apply In_nth_error in Hc as [p Hp].
    destruct (nth_error (sl_species sl) p) as [sp|] eqn:Es; [|apply nth_error_None in Es; rewrite (C sl Hsl) in Es; assert (p < length (sl_encoding sl)) by (apply nth_error_Some; congruence); lia].
    rewrite (P sl s p _ sp Hact Hs Hp Es). apply (@sp_lookup_defined sp v). apply Hv. unfold e_species. apply in_flat_map. exists sl. split; auto. eapply nth_error_In; eauto. }
  destruct G as [q Hq]. unfold get_val in Hq. destruct (nth_error t s) as [row|]; [|discriminate]. cbn [option_bind] in Hq. exists row. split; auto. assert (length orig - 1 < length row) by (apply nth_error_Some; congruence). lia.
Qed.
Print Assumptions C52_full_table.
(** Otherwise the terms of the potentials cannot be built, although all allowed occupancies have an enthalpy. *)
Theorem C52_narrow_table_refuted : exists origs e v t marks n, var_layout origs (e_sls e) /\ layout (e_sls e) (length origs) /\ initial_ok (e_sls e) None /\ get_variables (e_sls e) None origs = Some (marks, n) /\
  mu_table e v = Some t /\ (forall occu, allowed (e_sls e) None (length origs) occu -> exists q, enthalpy [] (Some t) occu = Some q) /\ problem_terms marks [] (Some t) = None.
Proof.
  set (sl := mkSL [(Sp 1, Qc_frac 1 2); (Sp 2, Qc_frac 1 2)] [0] [0] [0; 1]). exists [[Sp 1; Sp 2; Sp 3]], (mkEns [] (fun _ => []) (fun _ _ => []) 1 [sl] [] None), [(Sp 1, 1%Qc); (Sp 2, Qc_of_Z 2)]. do 3 eexists.
  split; [split|].
  - simpl. apply Permutation_refl.
  - intros s' [<-|[]]. repeat constructor.
  - intros s' [<-|[]]. split; [reflexivity|discriminate].
  - intros s' s orig k c [<-|[]] [<-|[]] Ho Hk. injection Ho as <-. destruct k as [|[|[|k]]]; simpl in Hk; try discriminate; injection Hk as <-; simpl; eauto.
  - intros orig [<-|[]]; repeat constructor; simpl; intuition discriminate.
  - split; [split; simpl|].
    + discriminate.
    + apply Permutation_refl.
    + intros s' s [<-|[]]; auto.
    + intros s' [<-|[]]. repeat constructor; simpl; tauto.
    + intros s' [<-|[]]. split; [repeat constructor; simpl; intuition discriminate|discriminate].
    + split; [intros s' s [<-|[]] Hs _ HA; contradiction|]. split; [vm_compute; reflexivity|]. split; [reflexivity|]. split; [|reflexivity].
      intros occu [LO A]. destruct occu as [|c [|]]; try discriminate. destruct (A sl 0 c (or_introl eq_refl) (or_introl eq_refl) eq_refl) as [[<-|[<-|[]]] _]; eexists; reflexivity.
Qed.
Print Assumptions C52_narrow_table_refuted.

(** ** The solver object *)
(** The answer [y] is the solution [x], up to errors upwards of less than one. *)
Definition just_above (y x : list Qc) : Prop := length y = length x /\ forall i, i < length x -> (nth i x 0 <= nth i y 0)%Qc /\ (nth i y 0 < nth i x 0 + 1)%Qc.
Lemma qtrunc_above x y : boolean x -> just_above y x -> map Qc_of_Z (map qtrunc y) = x.
Proof.
  revert y. induction x as [|a x IH]; intros y B [L H]; destruct y as [|b y]; try discriminate; auto. cbn [map]. f_equal.
  - destruct (H 0) as [H1 H2]; [simpl; lia|]. cbn [nth] in H1, H2. assert (Z : exists z, (0 <= z)%Z /\ a = Qc_of_Z z) by (destruct (B a (or_introl eq_refl)) as [-> | ->]; [exists 0%Z|exists 1%Z]; split; try lia; apply Qc_is_canon; reflexivity).
    destruct Z as (z & Hz & ->). unfold qtrunc. destruct (Qcltb_spec b 0%Qc) as [N|N].
    + exfalso. assert (0 <= Qc_of_Z z)%Qc by exact (proj1 (Qc_of_Z_le 0 z) Hz). qclra.
    + f_equal. apply qfloor_unique; auto.
  - apply IH; [intros q Hq; apply B; right; auto|]. split; [simpl in L; lia|]. intros i Hi. apply (H (S i)). simpl; lia.
Qed.
(** An object that has not been read since its creation or its last reset reports the decoded solution, again and
    again, until the next solve; a failed solve reports nothing. *)
Theorem C77_report_partial : forall origs sls init marks n s x y e, var_layout origs sls -> initial_ok sls init -> get_variables sls init origs = Some (marks, n) ->
  so_occu s = None -> feasible marks n x -> just_above y x ->
  exists occu s', decode sls x marks = Some occu /\ allowed sls init (length origs) occu /\ ground_state_occupancy sls marks (solve s (Some (y, e))) = Some (occu, s') /\
    so_energy s' = Some e /\ ground_state_occupancy sls marks s' = Some (occu, s') /\ ground_state_occupancy sls marks (solve s' None) = None /\
    so_occu (reset s') = None.
Proof.
  intros origs sls init marks n s x y e LAY INIT VARS C F J. destruct (problem_marks LAY INIT VARS) as [ids MO]. destruct (decode_ok LAY INIT MO F) as (occu & D & _). exists occu, (mkSolver (Some (map qtrunc y)) (Some e) (Some occu)).
  split; auto. split; [apply (decode_allowed LAY INIT MO F D)|]. unfold solve, ground_state_occupancy. cbn [so_solution so_energy so_occu option_bind]. rewrite C, (qtrunc_above (x := x)), D; auto. apply (proj1 (proj2 F)).
Qed.
Print Assumptions C77_report_partial.
(** A second solve without reset reports the occupancy of the first one. *)
Theorem C77_stale_refuted : exists origs sls init marks n x1 x2 occu1 occu2 e1 e2 s1 s2, var_layout origs sls /\ initial_ok sls init /\ get_variables sls init origs = Some (marks, n) /\
  feasible marks n x1 /\ feasible marks n x2 /\ decode sls x1 marks = Some occu1 /\ decode sls x2 marks = Some occu2 /\ occu1 <> occu2 /\
  ground_state_occupancy sls marks (solve fresh_solver (Some (x1, e1))) = Some (occu1, s1) /\ ground_state_occupancy sls marks (solve s1 (Some (x2, e2))) = Some (occu1, s2) /\ so_energy s2 = Some e2.
Proof.
  destruct C50_case as (L & I & V & _). exists ex_origs, ex_sls, ex_init, [[Var 0; Never; Var 1]; [Never; Never; Always]; [Always]], 2, [1%Qc; 0%Qc], [0%Qc; 1%Qc]. do 2 eexists. exists (Qc_of_Z 3), (Qc_of_Z 2). do 2 eexists.
  repeat (split; [assumption|]). split; [split; [reflexivity|split; [intros q [<-|[<-|[]]]; auto|intros vs [<-|[]]; apply Qc_is_canon; reflexivity]]|]. split; [split; [reflexivity|split; [intros q [<-|[<-|[]]]; auto|intros vs [<-|[]]; apply Qc_is_canon; reflexivity]]|].
  split; [vm_compute; reflexivity|]. split; [vm_compute; reflexivity|]. split; [discriminate|]. split; [vm_compute; reflexivity|]. split; vm_compute; reflexivity.
Qed.
Print Assumptions C77_stale_refuted.
(** Values that are below the solution by less than any tolerance are cut off: decoding would round them, the object raises. *)
Theorem C77_cut_refuted : forall eps, (0 < eps)%Qc -> exists origs sls init marks n x y occu e, var_layout origs sls /\ initial_ok sls init /\ get_variables sls init origs = Some (marks, n) /\
  feasible marks n x /\ length y = length x /\ (forall i, i < length x -> within eps (nth i y 0%Qc) (nth i x 0%Qc)) /\ decode sls x marks = Some occu /\ decode sls y marks = Some occu /\
  ground_state_occupancy sls marks (solve fresh_solver (Some (y, e))) = None.
Proof.
  intros eps HE. set (d := if Qcleb eps (Qc_frac 1 4) then (eps * Qc_frac 1 2)%Qc else Qc_frac 1 4). assert (D : (0 < d /\ d < eps /\ d <= Qc_frac 1 4)%Qc).
  { unfold d. assert (H2 : (Qc_frac 1 2 + Qc_frac 1 2 = 1)%Qc) by (apply Qc_is_canon; reflexivity). assert (P2 : (0 < Qc_frac 1 2)%Qc) by reflexivity. assert (P4 : (0 < Qc_frac 1 4)%Qc) by reflexivity. destruct (Qcleb_spec eps (Qc_frac 1 4)) as [H|H]; [repeat split; qcnra|]. apply Qcnot_le_lt in H. repeat split; auto; qclra. }
  destruct D as (D1 & D2 & D3). assert (P4 : (Qc_frac 1 4 < Qc_frac 1 2)%Qc) by reflexivity. assert (H4 : (Qc_frac 1 4 < 1)%Qc) by reflexivity.
  destruct C50_case as (L & I & V & _). exists ex_origs, ex_sls, ex_init, [[Var 0; Never; Var 1]; [Never; Never; Always]; [Always]], 2, [1%Qc; 0%Qc], [(1 - d)%Qc; 0%Qc]. do 1 eexists. exists (Qc_of_Z 3).
  assert (B : boolean [1%Qc; 0%Qc]) by (intros q [<-|[<-|[]]]; auto).
  repeat (split; [assumption|]). split; [split; [reflexivity|split; [auto|intros vs [<-|[]]; apply Qc_is_canon; reflexivity]]|]. split; [reflexivity|].
  assert (W : forall r, (d < r)%Qc -> forall i, i < length [1%Qc; 0%Qc] -> within r (nth i [(1 - d)%Qc; 0%Qc] 0%Qc) (nth i [1%Qc; 0%Qc] 0%Qc)).
  { intros r Hr i Hi. destruct i as [|[|i]]; simpl in Hi; try lia; cbn [nth]; unfold within; repeat split; qclra. }
  split; [apply W; auto|]. split; [vm_compute; reflexivity|]. split.
  - transitivity (decode ex_sls [1%Qc; 0%Qc] [[Var 0; Never; Var 1]; [Never; Never; Always]; [Always]]); [|vm_compute; reflexivity]. apply C50_rounding; auto. apply W. qclra.
  - unfold solve, ground_state_occupancy. cbn [so_solution so_energy so_occu option_bind fresh_solver map]. assert (T : qtrunc (1 - d)%Qc = 0%Z).
    { unfold qtrunc. destruct (Qcltb_spec (1 - d)%Qc 0%Qc); [qclra|]. apply qfloor_unique; change (Qc_of_Z 0) with 0%Qc; qclra. }
    rewrite T. vm_compute. reflexivity.
Qed.
Print Assumptions C77_cut_refuted.

(** ** A concrete case *)
(** Three sites with one species and vacancies, the last restricted; an expansion, a decomposition, electrostatics and potentials. *)
Definition gs_origs : list (list species) := [[Sp 1; Vac]; [Sp 1; Vac]; [Sp 1; Vac]].
Definition gs_sl : sublattice := mkSL [(Sp 1, Qc_frac 1 2); (Vac, Qc_frac 1 2)] [0; 1; 2] [0; 1] [0; 1].
Definition gs_init : option (list nat) := Some [0; 1; 0].
Definition gs_marks : list (list mark) := [[Var 0; Var 1]; [Var 2; Var 3]; [Always; Never]].
Definition gs_ps : list processor :=
  [Expansion ex_proc (map ex_q [1; 2; -1; 3]%Z); Decomposition ex_proc (map ex_q [1; 1; 2]%Z);
   Electrostatic (fun i j => nth j (nth i [map ex_q [1; -2; 3]%Z; map ex_q [-2; 4; 1]%Z; map ex_q [3; 1; 5]%Z] []) 0%Qc) (map (map is_vac) gs_origs) (ex_q 2)].
Definition gs_table : vtable := [map ex_q [1; 0]; map ex_q [2; 1]; map ex_q [5; 3]]%Z.
Lemma proc_ok_ext sd sd' N P : (forall s, s < N -> sd s = sd' s) -> proc_ok sd N P -> proc_ok sd' N P.
Proof.
  intros H [A B C D E F G I]. constructor; auto. intros n o i rows H1 H2 H3. destruct (A n o i rows H1 H2 H3) as (dims & K1 & K2 & K3 & K4 & K5). exists dims. repeat (split; [assumption|]). intros row Hr. destruct (K5 row Hr) as [M L]. split; auto.
  rewrite <- M. apply map_ext_in. intros s Hs. symmetry. auto.
Qed.
Example gs_layout : var_layout gs_origs [gs_sl] /\ initial_ok [gs_sl] gs_init /\ layout [gs_sl] 3 /\ get_variables [gs_sl] gs_init gs_origs = Some (gs_marks, 4) /\
  (forall p, In p gs_ps -> processor_ok gs_origs p) /\ table_ok gs_origs (Some gs_table) /\ allowed [gs_sl] gs_init 3 [0; 1; 0].
Proof.
  assert (PO : proc_ok (width gs_origs) 3 ex_proc) by (apply (proc_ok_ext (sd := ex_sd)); [intros [|[|[|s]]] Hs; auto; lia|apply ex_proc_ok]).
  split; [split|].
  - simpl. apply Permutation_refl.
  - intros sl [<-|[]]. repeat constructor.
  - intros sl [<-|[]]. split; [reflexivity|discriminate].
  - intros sl s orig k c [<-|[]] Hs Ho Hk. ex_in Hs; injection Ho as <-; destruct k as [|[|k]]; simpl in Hk; try discriminate; try injection Hk as <-; simpl; eauto; destruct k; discriminate.
  - intros orig H. ex_in H; repeat constructor; simpl; intuition discriminate.
  - split; [|split; [split; simpl|split; [reflexivity|split; [|split]]]].
    + intros sl s [<-|[]] Hs _ HA. ex_in Hs; simpl in HA; try tauto. exists [0; 1; 0], 0. simpl. auto.
    + discriminate.
    + apply Permutation_refl.
    + intros sl s [<-|[]]; simpl; tauto.
    + intros sl [<-|[]]. repeat constructor; simpl; intuition lia.
    + intros sl [<-|[]]. split; [repeat constructor; simpl; intuition discriminate|discriminate].
    + intros p H. ex_in H; constructor; auto.
    + intros [|[|[|s]]] orig Ho; simpl in Ho; try (destruct s; discriminate); injection Ho as <-; simpl; eauto.
    + split; auto. intros sl s c [<-|[]] Hs Hc. ex_in Hs; injection Hc as <-; split; simpl; auto; try (left; split; simpl; auto; fail). right. right. exists [0; 1; 0]. auto.
Qed.
Example C52_case : exists ts, problem_terms gs_marks gs_ps (Some gs_table) = Some ts /\ feasible gs_marks 4 [1%Qc; 0%Qc; 0%Qc; 1%Qc] /\ decode [gs_sl] [1%Qc; 0%Qc; 0%Qc; 1%Qc] gs_marks = Some [0; 1; 0] /\
  this (sum_terms ts [1%Qc; 0%Qc; 0%Qc; 1%Qc]) = 61%Q /\ (exists q, enthalpy gs_ps (Some gs_table) [0; 1; 0] = Some q /\ this q = 61%Q) /\ (exists o, linearize ts 0%Qc = Some o) /\
  (exists q, enthalpy gs_ps (Some gs_table) [1; 1; 0] = Some q /\ this q <> 61%Q).
Proof.
  eexists. split; [vm_compute; reflexivity|]. split; [split; [reflexivity|split; [intros q H; ex_in H; auto|intros vs H; ex_in H; apply Qc_is_canon; reflexivity]]|]. split; [vm_compute; reflexivity|].
  split; [vm_compute; reflexivity|]. split; [eexists; split; vm_compute; reflexivity|]. split; [eexists; vm_compute; reflexivity|]. eexists. split; [vm_compute; reflexivity|]. vm_compute. discriminate.
Qed.
(** Two species and one fixed site; the composition of the initial occupancy, one that is impossible, and rows of a space. *)
Example C76_case : exists comps ks, components [gs_sl] gs_marks gs_origs = Some comps /\ comps = [([0; 2], 1); ([1; 3], 0)] /\ counts gs_origs [gs_sl] [0; 1; 0] = [2; 1] /\
  fixed_constraints comps [2; 1]%Z = Some ks /\ length ks = 2 /\ fixed_constraints comps [0; 3]%Z = None /\
  (let crow := (map ex_q [1; 0]%Z, ex_q 2) in let leq := (map ex_q [-1; 1]%Z, ex_q 0) in
   sharp crow /\ sharp leq /\ exists ks', space_constraints true [gs_sl] gs_marks gs_origs [crow; size_row [gs_sl] 0] [leq] = Some ks' /\ length ks' = 2).
Proof.
  do 2 eexists. split; [vm_compute; reflexivity|]. split; [reflexivity|]. split; [reflexivity|]. split; [vm_compute; reflexivity|]. split; [reflexivity|]. split; [reflexivity|]. cbv zeta.
  assert (S : forall z, tiny (ex_q z) = true -> ex_q z = 0%Qc).
  { intros z. unfold tiny. destruct (Qcleb_spec (Cluster.qabs (ex_q z)) (Qc_frac 1 100000000)) as [H|H]; [|discriminate]. intros _. destruct (Z.eq_dec z 0) as [->|Hz]; [apply Qc_is_canon; reflexivity|]. exfalso.
    assert (O : (1 <= Cluster.qabs (ex_q z))%Qc).
    { unfold Cluster.qabs, ex_q. change 1%Qc with (Qc_of_Z 1) at 1. destruct (Qcltb_spec (Qc_of_Z z) 0%Qc) as [N|N].
      - assert (z < 0)%Z. { apply Z.nle_gt. intros K. apply (Qclt_not_le _ _ N). exact (proj1 (Qc_of_Z_le 0 z) K). } assert (K : (Qc_of_Z z <= Qc_of_Z (-1))%Qc) by (apply (proj1 (Qc_of_Z_le z (-1))); lia). assert (E1 : Qc_of_Z 1 = 1%Qc) by reflexivity. assert (E2 : Qc_of_Z (-1) = (- (1))%Qc) by reflexivity. rewrite E1. rewrite E2 in K. qclra.
      - apply Qcnot_lt_le in N. assert (0 <= z)%Z by exact (proj2 (Qc_of_Z_le 0 z) N). apply (proj1 (Qc_of_Z_le 1 z)). lia. }
    assert (T : (Qc_frac 1 100000000 < 1)%Qc) by reflexivity. qclra. }
  split; [split; [intros q [<-|[<-|[]]]; apply S|apply S]|]. split; [split; [intros q [<-|[<-|[]]]; apply S|apply S]|]. eexists. split; [vm_compute; reflexivity|reflexivity].
Qed.
Example C77_case : exists s', ground_state_occupancy [gs_sl] gs_marks (solve fresh_solver (Some ([1%Qc; 0%Qc; 0%Qc; Qc_frac 11 10], ex_q 61))) = Some ([0; 1; 0], s').
Proof. eexists. vm_compute. reflexivity. Qed.
