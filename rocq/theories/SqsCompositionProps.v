(** Property C143: special structures have the composition of the disordered structure. *)
From Verif Require Import SqsComposition LibProofs ProbProofs OccuUtilsSpec OccuUtilsProofs UsherSpec UsherProofs UsherProps EncodingProofs RandomOccuProps MulticellProps.
From Coq Require Import Lia Permutation.
Set Implicit Arguments.
Unset Strict Implicit.
Local Open Scope nat_scope.

(** ** Specification *)
(** A step of the multi-cell kernel whose proposal is a possible swap in the cell that it is made for. *)
Definition swaps_in (M : mcells) (u : usher) : Prop :=
  forall i K o, nth_error (m_kernels M) i = Some K -> k_propose K o = swap_propose u o.
(** States of the search and all occupancies recorded so far: it starts from random occupancies; the kernel makes steps; for a new
    temperature, and for a new search, it goes on from a recorded occupancy, or starts again from random ones. *)
Inductive search (M : mcells) (start : prog (list (list nat))) : mc -> list (list nat) -> Prop :=
| se_start cur count period bs occus s w : outcome start occus -> mc_start M cur count period bs occus = Some s -> walker s = Some w -> search M start s [w]
| se_step s ws i s' tr : search M start s ws -> possible M s i -> mc_step M s i = Some (s', tr) -> search M start s' (s_occu tr :: ws)
| se_resume s ws w s' : search M start s ws -> In w ws -> resume M s w = Some s' -> search M start s' ws
| se_again s ws s' occus : search M start s ws -> outcome start occus -> mc_start M (c_cur s) (c_count s) (c_period s) (c_bias s) occus = Some s' -> search M start s' ws.
(** Sites of a sublattice with a code. *)
Definition carried (o : list nat) (sl : sublattice) (c : nat) : nat :=
  length (filter (fun s => match nth_error o s with Some c' => c' =? c | None => false end) (sl_sites sl)).

(** ** Swaps keep the numbers on every sublattice *)
Definition at_code (o : list nat) (c s : nat) : bool := match nth_error o s with Some c' => c' =? c | None => false end.
Lemma filter_len_perm {A} (f : A -> bool) l l' : Permutation l l' -> length (filter f l) = length (filter f l').
Proof. induction 1; cbn [filter]; auto; repeat match goal with |- context [if f ?a then _ else _] => destruct (f a) end; cbn [length]; lia. Qed.
Lemma two_in (l : list nat) a b : NoDup l -> In a l -> In b l -> a <> b -> exists l', Permutation l (a :: b :: l') /\ ~ In a l' /\ ~ In b l'.
Proof.
  intros N A B H. destruct (in_split _ _ A) as (l1 & l2 & ->). assert (P : Permutation (l1 ++ a :: l2) (a :: l1 ++ l2)) by (symmetry; apply Permutation_middle).
  assert (B' : In b (l1 ++ l2)) by (apply (Permutation_in _ P) in B as [B|B]; [congruence|auto]). destruct (in_split _ _ B') as (m1 & m2 & E).
  exists (m1 ++ m2). assert (P2 : Permutation (l1 ++ a :: l2) (a :: b :: m1 ++ m2)) by (rewrite P, E; constructor; symmetry; apply Permutation_middle).
  split; auto. apply (Permutation_NoDup P2) in N. inversion N as [|x y Na N']. inversion N' as [|x' y' Nb _]. subst. split; auto. intros X. apply Na. right. auto.
Qed.
Lemma swap_carried sls N occu s1 s2 c1 c2 sl c : layout sls N -> valid_occu sls N occu -> legal_swap sls occu s1 s2 c1 c2 -> In sl sls ->
  carried (apply_step occu [(s1, c2); (s2, c1)]) sl c = carried occu sl c.
Proof.
  intros L V (sl0 & [I0 A1] & [_ A2] & E1 & E2 & Ne) I. assert (S1 := @lay_active _ _ L _ _ I0 A1). assert (S2 := @lay_active _ _ L _ _ I0 A2).
  assert (D : s1 <> s2) by (intros ->; congruence).
  assert (L1 : s1 < length occu) by (apply nth_error_Some; congruence). assert (L2 : s2 < length occu) by (apply nth_error_Some; congruence).
  unfold apply_step. cbn [fold_left fst snd]. set (o' := upd (upd occu s1 c2) s2 c1).
  assert (V1 : nth_error o' s1 = Some c2) by (unfold o'; rewrite nth_error_upd_neq by auto; apply nth_error_upd_eq; auto).
  assert (V2 : nth_error o' s2 = Some c1) by (unfold o'; apply nth_error_upd_eq; rewrite length_upd; auto).
  assert (V3 : forall s, s <> s1 -> s <> s2 -> nth_error o' s = nth_error occu s) by (intros s H1 H2; unfold o'; rewrite !nth_error_upd_neq by auto; auto).
  assert (Nd : NoDup (sl_sites sl)).
  { assert (Hc : NoDup (concat (map sl_sites sls))) by (apply (Permutation_NoDup (Permutation_sym (lay_sites L))), seq_NoDup).
    clear - Hc I. induction sls as [|a r IH]; [destruct I|]. cbn [map concat] in Hc. destruct I as [-> |I]; [apply NoDup_app_remove_r in Hc; auto|apply NoDup_app_remove_l in Hc; auto]. }
  change (length (filter (at_code o' c) (sl_sites sl)) = length (filter (at_code occu c) (sl_sites sl))).
  destruct (in_dec Nat.eq_dec s1 (sl_sites sl)) as [H1|H1].
  - assert (sl = sl0) as -> by (eapply site_sublattice_unique; eauto). destruct (two_in Nd S1 S2 D) as (l' & P & N1 & N2).
    rewrite !(filter_len_perm _ P). cbn [filter].
    assert (Q : at_code o' c s1 = (c2 =? c) /\ at_code o' c s2 = (c1 =? c) /\ at_code occu c s1 = (c1 =? c) /\ at_code occu c s2 = (c2 =? c)) by (unfold at_code; rewrite V1, V2, E1, E2; auto).
    destruct Q as (-> & -> & -> & ->).
    assert (F : filter (at_code o' c) l' = filter (at_code occu c) l') by (apply filter_ext_in; intros s Hs; unfold at_code; rewrite V3; auto; intros ->; auto).
    rewrite F. destruct (c2 =? c), (c1 =? c); auto.
  - f_equal. apply filter_ext_in. intros s Hs. unfold at_code. rewrite V3; auto; [intros ->; auto|].
    intros ->. apply H1. assert (sl = sl0) as -> by (eapply site_sublattice_unique; eauto). auto.
Qed.

(** ** The search *)
Lemma outcome_draw_all {A} (ms : list (prog A)) : forall xs, outcome (draw_all ms) xs <-> Forall2 outcome ms xs.
Proof.
  induction ms as [|m ms IH]; intros xs; cbn [draw_all].
  - rewrite outcome_ret. split; [intros ->; constructor|intros H; inversion H; auto].
  - rewrite outcome_bind. split.
    + intros (x & Hx & H). apply outcome_bind in H as (ys & Hy & H). apply outcome_ret in H as ->. constructor; auto. apply IH. auto.
    + intros H. inversion H as [|a x b ys Hx Hy]; subst. exists x. split; auto. apply outcome_bind. exists ys. split; [apply IH; auto|apply outcome_ret; auto].
Qed.
Lemma never_draw_all {A} (ms : list (prog A)) : Forall never_raises ms -> never_raises (draw_all ms).
Proof.
  induction 1 as [|m ms H Hs IH]; cbn [draw_all]; [intros w [E|[]]; discriminate|].
  apply never_raises_bind; auto. intros x _. apply never_raises_bind; auto. intros xs _ w [E|[]]; discriminate.
Qed.
Section Search.
Context (sls : list sublattice) (N : nat) (kss : list (list nat)) (given : option (list Qc)) (u : usher) (M : mcells) (start : prog (list (list nat))).
Hypothesis L : layout sls N.
Hypothesis HU : mk_usher sls given = Some u.
Hypothesis HP : forall p x, given = Some p -> In x p -> (0 <= x)%Qc.
Hypothesis HM : swaps_in M u.
Definition fits (o : list nat) : Prop := valid_occu sls N o /\ numbers sls kss o.
Hypothesis HS : forall occus, outcome start occus -> Forall fits occus.

Lemma step_fits o st : fits o -> outcome (swap_propose u o) st -> fits (apply_step o st).
Proof.
  intros [V F] H. destruct (@C06_swap_legal sls N given u o st L HU HP V H) as [(s1 & s2 & c1 & c2 & -> & _ & Hl)|[-> _]]; [|split; auto].
  split; [eapply swap_valid; eauto|]. unfold numbers in *.
  assert (HI : forall l ks, (forall sl, In sl l -> In sl sls) ->
    Forall2 (fun sl ks => Forall2 (fun c k => carried o sl c = k) (sl_encoding sl) ks) l ks ->
    Forall2 (fun sl ks => Forall2 (fun c k => carried (apply_step o [(s1, c2); (s2, c1)]) sl c = k) (sl_encoding sl) ks) l ks); [|apply HI; auto].
  intros l ks HI G. induction G as [|sl k l ks F1 F2 IH]; constructor.
  - assert (Hin : In sl sls) by (apply HI; left; auto). clear - F1 Hin L V Hl. induction F1 as [|c k cs ks E F IH]; constructor; auto.
    rewrite (swap_carried c L V Hl Hin). exact E.
  - apply IH. intros sl' H'. apply HI. right. auto.
Qed.
Definition all_fit (s : mc) (ws : list (list nat)) : Prop := Forall fits (c_heap s) /\ Forall fits ws.
Lemma start_fit cur count period bs occus s : Forall fits occus -> mc_start M cur count period bs occus = Some s -> Forall fits (c_heap s).
Proof.
  intros F E. unfold mc_start in E. destruct (length occus =? length (m_kernels M)); [|discriminate]. destruct (nth_error occus cur) as [w|] eqn:Ew; [|discriminate].
  cbn [option_bind] in E. injection E as <-. cbn [c_heap]. apply Forall_app. split; auto. constructor; auto. rewrite Forall_forall in F. apply F. eapply nth_error_In; eauto.
Qed.
Lemma heap_fit s p o : Forall fits (c_heap s) -> nth_error (c_heap s) p = Some o -> fits o.
Proof. intros F E. rewrite Forall_forall in F. apply F. eapply nth_error_In; eauto. Qed.
Lemma mc_step_fit s i s' tr : Forall fits (c_heap s) -> possible M s i -> mc_step M s i = Some (s', tr) -> Forall fits (c_heap s') /\ fits (s_occu tr).
Proof.
  intros F (_ & Ht & o & Eo & Ho) E. unfold mc_step in E. destruct (hop_due s).
  - unfold mc_hop in E. destruct (nth_error (m_kernels M) (i_target i)) as [K|] eqn:EK; [|discriminate]. cbn [option_bind] in E.
    unfold stored in Eo. destruct (nth_error (c_ptr s) (i_target i)) as [p|]; [|discriminate]. cbn [option_bind] in E, Eo. rewrite Eo in E. cbn [option_bind] in E.
    assert (Fo : fits o) by (apply (heap_fit F Eo)). assert (Fo' : fits (apply_step o (i_step i))).
    { apply step_fits; auto. rewrite <- (@HM _ _ o EK). unfold cell_kernel in Ho. rewrite (nth_error_nth _ _ _ EK) in Ho. exact Ho. }
    destruct (nth_error (c_feat s) (c_cur s)); [|discriminate]. cbn [option_bind] in E. destruct (nth_error (c_bias s) (i_target i)); [|discriminate]. cbn [option_bind] in E.
    destruct (k_logp _ _ _); [|discriminate]. cbn [option_bind] in E. destruct (accept_test _ _) as [[]|]; [| |discriminate]; cbn [option_bind] in E.
    + injection E as <- <-. cbn [c_heap s_occu]. split; auto. apply Forall_upd; auto. apply Forall_upd; auto.
    + destruct (walker s) as [w|] eqn:Ew; [|discriminate]. cbn [option_bind] in E. injection E as <- <-. cbn [c_heap s_occu]. split; auto. apply (heap_fit F Ew).
  - unfold mc_inside in E. destruct (nth_error (m_kernels M) (c_cur s)) as [K|] eqn:EK; [|discriminate]. cbn [option_bind] in E. rewrite Eo in E. cbn [option_bind] in E.
    assert (Fo : fits o) by (apply (heap_fit F Eo)). assert (Fo' : fits (apply_step o (i_step i))).
    { apply step_fits; auto. rewrite <- (@HM _ _ o EK). unfold cell_kernel in Ho. rewrite (nth_error_nth _ _ _ EK) in Ho. exact Ho. }
    destruct (single_step K (m_cell_rule M (c_cur s)) o (i_step i) (i_u i)) as [t|] eqn:Et; [|discriminate]. cbn [option_bind] in E.
    destruct (nth_error (c_feat s) (c_cur s)); [|discriminate]. cbn [option_bind] in E. injection E as <- <-. cbn [c_heap].
    assert (Ft : fits (s_occu t)). { unfold single_step in Et. destruct (k_logp _ _ _); [|discriminate]. cbn [option_bind] in Et. destruct (accept_test _ _) as [a|]; [|discriminate]. cbn [option_bind] in Et. injection Et as <-. cbn [s_occu]. destruct a; auto. }
    split; auto. apply Forall_upd; auto.
Qed.
Lemma search_fit s ws : search M start s ws -> all_fit s ws.
Proof.
  induction 1 as [cur count period bs occus s w Ho Es Ew|s ws i s' tr H [IH1 IH2] Hp E|s ws w s' H [IH1 IH2] Hw E|s ws s' occus H [IH1 IH2] Ho E].
  - assert (F := start_fit (HS Ho) Es). split; auto. constructor; auto. apply (heap_fit F Ew).
  - destruct (mc_step_fit IH1 Hp E). split; auto.
  - split; auto. assert (Fw : fits w) by (rewrite Forall_forall in IH2; auto). unfold resume in E. destruct (length (m_kernels M) =? 1); [eapply start_fit; [|exact E]; constructor; auto|].
    unfold mc_continue in E. destruct (nth_error (m_kernels M) (c_cur s)); [|discriminate]. cbn [option_bind] in E. injection E as <-. cbn [c_heap]. apply Forall_app. auto.
  - split; auto. apply (start_fit (HS Ho) E).
Qed.
End Search.

(** ** C143 *)
(** A composition of distinct species with positive amounts that add up to one, or to less when vacancies make up the rest. *)
Record proper (c : composition) : Prop := {
  pr_keys : NoDup (map fst c);
  pr_pos : forall sp x, In (sp, x) c -> (0 < x)%Qc;
  pr_total : num_atoms c = 1%Qc \/ (num_atoms c < Qc_frac 99 100)%Qc /\ ~ In Vac (map fst c)
}.
(** Numbers of the species of a site space on [n] sites: at least one of each, all sites, and within [1e-6] of the measure. *)
Definition right_numbers (n : nat) (space : site_space) (ks : list nat) : Prop :=
  list_sum ks = n /\
  Forall2 (fun p k => 1 <= k /\ (- Qc_frac 1 1000000 <= Qc_of_nat n * snd p - Qc_of_nat k <= Qc_frac 1 1000000)%Qc) space ks.
(** The disordered structure: every site of the primitive cell has the species of one of the site spaces, which differ in species. *)
Record disordered leb (comps : list composition) (spaces : list site_space) (prim : list (list species)) : Prop := {
  di_proper : Forall proper comps;
  di_spaces : opt_map (mk_site_space leb) comps = Some spaces;
  di_differ : NoDup (map (map fst) spaces);
  di_prim : prim <> [] /\ forall sps, In sps prim -> In sps (map (map fst) spaces);
  di_none : forall sp, In sp spaces -> sp <> []
}.

Lemma measure_fraction leb c space sp m : proper c -> mk_site_space leb c = Some space -> In (sp, m) space -> fraction c sp = m.
Proof.
  intros [K P T] E H. unfold mk_site_space in E. destruct (Qcltb (num_atoms c) 0 || Qcltb 1 (num_atoms c)); [discriminate|].
  destruct (existsb (fun p => is_vac (fst p)) c && negb (Qceqb (num_atoms c) 1)) eqn:Ev; [discriminate|]. injection E as <-.
  assert (HC : forall q, In q c -> fst q = Vac -> num_atoms c = 1%Qc).
  { intros q Hq Hv. destruct T as [T|[_ T]]; auto. exfalso. apply T. rewrite <- Hv. apply in_map. auto. }
  assert (HI : In (sp, m) c -> fraction c sp = m).
  { intros Hc. unfold fraction. destruct (is_vac sp) eqn:Es.
    - assert (sp = Vac) as -> by (destruct sp; auto; discriminate). rewrite (listed_in K Hc). rewrite (HC _ Hc eq_refl). ring.
    - apply listed_in; auto. }
  assert (HS : forall q, In q (sort_by (fun p q => leb (fst p) (fst q)) c) -> In q c) by (intros q Hq; eapply Permutation_in; [apply Permutation_sym; apply sort_by_perm|exact Hq]).
  destruct (Qcltb_spec (num_atoms c) q099) as [Hl|Hl]; [|auto]. apply in_app_iff in H as [H|[H|[]]]; [auto|].
  injection H as <- <-. unfold fraction. cbn [is_vac]. assert (Hn : ~ In Vac (map fst c)).
  { destruct T as [T|[_ T]]; auto. exfalso. rewrite T in Hl. apply (Qclt_not_le _ _ Hl). vm_compute. discriminate. }
  assert (E0 : listed c Vac = 0%Qc).
  { clear - Hn. unfold listed. induction c as [|[k v] c IH]; [auto|]. cbn [map fst snd qsum] in *. rewrite IH by (intros X; apply Hn; right; auto).
    destruct (sp_eqb k Vac) eqn:E; [|ring]. exfalso. apply Hn. left. destruct k; auto; discriminate. }
  rewrite E0. ring.
Qed.
Lemma space_species leb c space sp x : proper c -> mk_site_space leb c = Some space -> In (sp, x) c -> In sp (map fst space).
Proof.
  intros HP E H. unfold mk_site_space in E. destruct (_ || _); [discriminate|]. destruct (_ && _); [discriminate|]. injection E as <-.
  assert (HS : In (sp, x) (sort_by (fun p q => leb (fst p) (fst q)) c)) by (eapply Permutation_in; [apply sort_by_perm|exact H]).
  assert (Q : In sp (map fst (sort_by (fun p q => leb (fst p) (fst q)) c))) by (change sp with (fst (sp, x)); apply in_map; auto).
  destruct (Qcltb _ _); auto. rewrite map_app. apply in_app_iff. auto.
Qed.

Lemma made_space sp sites : sl_space (mk_sublattice sp sites) = sp.
Proof. unfold mk_sublattice. destruct (_ <=? _); reflexivity. Qed.
Lemma made_encoding sp sites : sl_encoding (mk_sublattice sp sites) = seq 0 (length sp).
Proof. unfold mk_sublattice. destruct (_ <=? _); reflexivity. Qed.

Section Main.
Context (leb : species -> species -> bool) (comps : list composition) (spaces : list site_space) (prim : list (list species)) (size : nat) (kss : list (list nat)).
Let sls := get_sublattices (supercell_allowed prim size) spaces.
Let N := length prim * size.
Hypothesis HD : disordered leb comps spaces prim.
Hypothesis HZ : 0 < size.
Hypothesis HK : Forall2 (fun sl ks => right_numbers (length (sl_sites sl)) (sl_space sl) ks) sls kss.

Lemma supercell_sites : length (supercell_allowed prim size) = N.
Proof. unfold N, supercell_allowed. clear. induction prim as [|p r IH]; [reflexivity|]. cbn [flat_map length]. rewrite app_length, repeat_length, IH. reflexivity. Qed.
Lemma sqs_layout : layout sls N.
Proof.
  rewrite <- supercell_sites. apply default_layout.
  - destruct (di_prim HD) as [Hn _]. destruct prim as [|p r]; [congruence|]. destruct size; [lia|]. discriminate.
  - apply (di_differ HD).
  - intros sps H. unfold supercell_allowed in H. apply in_flat_map in H as (q & Hq & H). apply repeat_spec in H as ->. apply (di_prim HD). auto.
  - apply (di_none HD).
Qed.
Lemma sqs_suits : length comps = length sls /\ stands_for (CompList comps) comps /\
  Forall2 (fun p ks => suits (Qc_frac 1 1000000) (snd p) (fst p) ks) (combine comps sls) kss.
Proof.
  pose proof (di_spaces HD) as ES. assert (Ls : length spaces = length comps) by (eapply opt_map_length; eauto).
  split; [unfold sls, get_sublattices; rewrite map_length; auto|]. split.
  - constructor. pose proof (di_proper HD) as F. clear - F. induction F as [|c cs H F IH]; constructor; auto. left. split; auto.
    destruct (pr_total H) as [-> |[Hl _]]; [apply Qcle_refl|]. apply Qclt_le_weak. eapply Qclt_trans; [exact Hl|reflexivity].
  - pose proof (di_proper HD) as F. revert HK. unfold sls, get_sublattices. generalize (supercell_allowed prim size) as allowed. intros allowed. revert ES F. generalize kss. clear. generalize spaces. 
    induction comps as [|c cs IH]; intros sps kss ES F HK; cbn [opt_map] in ES.
    + injection ES as <-. inversion HK. constructor.
    + destruct (mk_site_space leb c) as [sp|] eqn:Ec; [|discriminate]. cbn [option_bind] in ES. destruct (opt_map (mk_site_space leb) cs) as [sps'|] eqn:Es; [|discriminate]. cbn [option_bind] in ES. injection ES as <-.
      cbn [map] in HK. inversion HK as [|a ks b kss' [H1 H2] HK']; subst. inversion F as [|a b HP F']; subst. cbn [map combine]. constructor; [|apply IH; auto]. cbn [fst snd].
      set (sl := mk_sublattice sp (sites_of_space allowed sp)) in *. assert (Esp : sl_space sl = sp) by apply made_space. rewrite Esp in H2. constructor.
      * apply (pr_keys HP).
      * intros s x Hx. split; [|eapply pr_pos; eauto]. unfold sl_species. rewrite Esp. exact (space_species HP Ec Hx).
      * apply (pr_total HP).
      * unfold sl_species. rewrite Esp. set (n := length (sl_sites sl)) in *. clearbody n.
        assert (G : forall q, In q sp -> fraction c (fst q) = snd q) by (intros [s m] Hq; eapply measure_fraction; eauto).
        revert G. clear - H2. induction H2 as [|q k l ks [E1 E2] F IH]; intros G; cbn [map]; constructor.
        -- rewrite (G q) by (left; auto). split; [exact E1|exact E2].
        -- apply IH. intros q' Hq'. apply G. right. auto.
      * auto.
Qed.
(** The random occupancies at the start: none raises, and the possible ones are exactly those with the right numbers, one for each cell. *)
Theorem C143_start ncells : 0 < ncells ->
  never_raises (initial_occupancies leb comps prim size ncells) /\
  forall occus, outcome (initial_occupancies leb comps prim size ncells) occus <-> length occus = ncells /\ Forall (fun o => valid_occu sls N o /\ numbers sls kss o) occus.
Proof.
  intros HN. destruct sqs_suits as (Lc & St & Su). unfold initial_occupancies, cell_sublattices. rewrite (di_spaces HD). cbn [option_bind]. fold sls.
  destruct (Nat.eqb_spec ncells 0); [lia|].
  assert (HE : forall sl, In sl sls -> length (sl_encoding sl) = length (sl_space sl)).
  { intros sl Hs. unfold sls, get_sublattices in Hs. apply in_map_iff in Hs as (sp & <- & _). rewrite made_space, made_encoding, seq_length. auto. }
  assert (T0 : (0 <= Qc_frac 1 1000000)%Qc) by (vm_compute; discriminate). assert (T1 : (Qc_frac 1 1000000 < Qc_frac 1 2)%Qc) by reflexivity.
  destruct (C87_counts_partial leb sqs_layout HE T0 T1 St Lc Su) as (H1 & H2 & _).
  split.
  - apply never_draw_all. apply Forall_forall. intros m Hm. apply repeat_spec in Hm as ->. exact H1.
  - intros occus. rewrite outcome_draw_all. split.
    + intros F. split; [apply Forall2_length in F; rewrite repeat_length in F; auto|]. clear - F H2. remember (repeat _ ncells) as ms eqn:Em. revert ncells Em. induction F as [|m o ms os Ho F IH]; intros n Em; constructor; destruct n; try discriminate; injection Em as -> Em; [apply H2; auto|eapply IH; eauto].
    + intros [<- F]. clear - F H2. induction F as [|o os Ho F IH]; cbn [length repeat]; constructor; auto. apply H2. auto.
Qed.
(** Every occupancy that is recorded during any search, with swaps in all cells, any numbers of steps, hops, temperatures and new
    searches, has the numbers of the disordered structure on every sublattice. *)
Theorem C143_composition ncells given u M s ws w : 0 < ncells -> mk_usher sls given = Some u -> (forall p x, given = Some p -> In x p -> (0 <= x)%Qc) -> swaps_in M u ->
  search M (initial_occupancies leb comps prim size ncells) s ws -> In w ws -> valid_occu sls N w /\ numbers sls kss w.
Proof.
  intros HN HU HP HM H Hw.
  assert (HS : forall occus, outcome (initial_occupancies leb comps prim size ncells) occus -> Forall (fits sls N kss) occus) by (intros occus Ho; apply (proj2 (C143_start HN)) in Ho; apply Ho).
  destruct (search_fit sqs_layout HU HP HM HS H) as [_ F]. rewrite Forall_forall in F. apply F. auto.
Qed.
End Main.

(** One site with half Li, a quarter Mn and the rest vacant; two supercells of four primitive cells. *)
Definition ex_leb (a b : species) : bool := match a, b with Sp m, Sp n => m <=? n | Sp _, Vac => true | Vac, Sp _ => false | Vac, Vac => true end.
Definition ex_comps : list composition := [[(Sp 1, Qc_frac 1 2); (Sp 2, Qc_frac 1 4)]].
Definition ex_spaces : list site_space := [[(Sp 1, Qc_frac 1 2); (Sp 2, Qc_frac 1 4); (Vac, (1 - (Qc_frac 1 2 + (Qc_frac 1 4 + 0)))%Qc)]].
Definition ex_prim : list (list species) := [[Sp 1; Sp 2; Vac]].
Definition ex_sls : list sublattice := get_sublattices (supercell_allowed ex_prim 4) ex_spaces.
Definition ex_us : usher := mkUsher ex_sls [(1 / Qc_of_nat 1)%Qc].
Definition ex_kernel : mckernel := mkKernel [] (fun _ => []) (fun _ _ => []) None (swap_propose ex_us) (fun _ _ => Some 0%R).
Definition ex_cells : mcells := mkCells [ex_kernel; ex_kernel] (fun _ => random_rule) random_rule.
Lemma ex_disordered : disordered ex_leb ex_comps ex_spaces ex_prim.
Proof.
  constructor.
  - constructor; [|constructor]. constructor.
    + repeat constructor; cbn; intuition discriminate.
    + intros sp x [H|[H|[]]]; injection H as <- <-; reflexivity.
    + right. split; [reflexivity|]. cbn. intuition discriminate.
  - unfold ex_comps. cbn [opt_map]. unfold mk_site_space. destruct (Qcltb_spec (num_atoms [(Sp 1, Qc_frac 1 2); (Sp 2, Qc_frac 1 4)]) 0) as [H|_]; [discriminate H|].
    destruct (Qcltb_spec 1 (num_atoms [(Sp 1, Qc_frac 1 2); (Sp 2, Qc_frac 1 4)])) as [H|_]; [discriminate H|]. cbn [orb existsb fst is_vac andb].
    destruct (Qcltb_spec (num_atoms [(Sp 1, Qc_frac 1 2); (Sp 2, Qc_frac 1 4)]) q099) as [_|H]; [reflexivity|]. exfalso. apply H. reflexivity.
  - repeat constructor; cbn; intuition discriminate.
  - split; [discriminate|]. intros sps [<-|[]]. left. reflexivity.
  - intros sp [<-|[]]. discriminate.
Qed.
Lemma ex_numbers : Forall2 (fun sl ks => right_numbers (length (sl_sites sl)) (sl_space sl) ks) ex_sls [[2; 1; 1]].
Proof.
  constructor; [|constructor]. split; [reflexivity|]. repeat constructor; vm_compute; discriminate.
Qed.
Lemma outcome_test {A} (eqb : A -> A -> bool) (m : prog A) x : (forall a b, eqb a b = true -> a = b) ->
  existsb (fun p => match snd p with Some y => eqb y x | None => false end) m = true -> outcome m x.
Proof. intros E H. apply existsb_exists in H as ([w [y|]] & Hi & H); cbn in H; [|discriminate]. apply E in H as ->. exists w. auto. Qed.
Definition step_eqb (a b : step) : bool := if list_eq_dec (fun x y : nat * nat => ltac:(decide equality; apply Nat.eq_dec)) a b then true else false.
Lemma ex_valid o : length o = 4 -> Forall (fun c => c < 3) o -> valid_occu ex_sls 4 o.
Proof.
  intros L F. split; auto. intros sl s [<-|[]] Hs. assert (B : s < 4) by (cbn in Hs; lia). destruct (nth_error o s) as [c|] eqn:E; [|apply nth_error_None in E; lia].
  exists c. split; auto. assert (C : c < 3) by (rewrite Forall_forall in F; apply F; eapply nth_error_In; eauto). cbn. lia.
Qed.
Example C143_case : mk_usher ex_sls None = Some ex_us /\ swaps_in ex_cells ex_us /\
  (exists s, search ex_cells (initial_occupancies ex_leb ex_comps ex_prim 4 2) s [[1; 0; 0; 2]; [0; 0; 1; 2]]) /\
  forall s ws w, search ex_cells (initial_occupancies ex_leb ex_comps ex_prim 4 2) s ws -> In w ws -> valid_occu ex_sls 4 w /\ numbers ex_sls [[2; 1; 1]] w.
Proof.
  assert (U : mk_usher ex_sls None = Some ex_us) by reflexivity.
  assert (HS : swaps_in ex_cells ex_us) by (intros [|[|[|i]]] K o H; try discriminate; injection H as <-; reflexivity).
  assert (S0 : outcome (initial_occupancies ex_leb ex_comps ex_prim 4 2) [[0; 0; 1; 2]; [1; 2; 0; 0]]).
  { apply (proj2 (@C143_start ex_leb ex_comps ex_spaces ex_prim 4 [[2; 1; 1]] ex_disordered ltac:(lia) ex_numbers 2 ltac:(lia))). split; [reflexivity|].
    constructor; [|constructor; [|constructor]]; (split; [apply ex_valid; [reflexivity|repeat constructor]|repeat constructor]). }
  split; auto. split; auto. split.
  - destruct (mc_start ex_cells 0 1 2 [None; None] [[0; 0; 1; 2]; [1; 2; 0; 0]]) as [s0|] eqn:E0; [|discriminate].
    assert (H0 : search ex_cells (initial_occupancies ex_leb ex_comps ex_prim 4 2) s0 [[0; 0; 1; 2]]).
    { eapply se_start; [exact S0|exact E0|]. cbn in E0. injection E0 as <-. reflexivity. }
    destruct (mc_step ex_cells s0 (mkIn 0 [(0, 1); (2, 0)] (1 / 2)%R 2)) as [[s1 t1]|] eqn:E1.
    2:{ exfalso. cbn in E0. injection E0 as <-. unfold mc_step, mc_inside, single_step in E1. cbn in E1. unfold random_rule in E1. cbn in E1. rewrite accept_0 in E1. discriminate. }
    exists s1. assert (Et : s_occu t1 = [1; 0; 0; 2]).
    { cbn in E0. injection E0 as <-. unfold mc_step, mc_inside, single_step in E1. cbn in E1. unfold random_rule in E1. cbn in E1. rewrite accept_0 in E1. cbn in E1. injection E1 as _ <-. reflexivity. }
    rewrite <- Et. eapply se_step; [exact H0| |exact E1]. cbn in E0. injection E0 as <-. split; [cbn; lra|]. split; [cbn; lia|]. exists [0; 0; 1; 2]. split; [reflexivity|].
    apply (outcome_test (eqb := step_eqb)); [|vm_compute; reflexivity]. intros a b H. unfold step_eqb in H. destruct (list_eq_dec _ a b); [auto|discriminate].
  - intros s ws w H Hw. apply (@C143_composition ex_leb ex_comps ex_spaces ex_prim 4 [[2; 1; 1]] ex_disordered ltac:(lia) ex_numbers 2 None ex_us ex_cells s ws w); auto. discriminate.
Qed.
Print Assumptions C143_start.
Print Assumptions C143_composition.
