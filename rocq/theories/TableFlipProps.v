(** Properties C09, C10 and C44 (vocabulary in TableFlipSpec.v and UsherSpec.v). *)
From Verif Require Import TableFlipLogProofs OccuUtilsProps.
Set Implicit Arguments.
Unset Strict Implicit.
Open Scope nat_scope.

Lemma directions_NoDup table :
  (forall i j u v, nth_error table i = Some u -> nth_error table j = Some v ->
     (u = v -> i = j) /\ u <> vopp v) -> NoDup (flip_directions table).
Proof.
  intros H. apply NoDup_nth_error. intros i j Hil Hij. destruct (nth_error_lt _ Hil) as [u Hi].
  assert (Hj := Hi). rewrite Hij in Hj. clear Hil Hij. rewrite directions_nth in Hi, Hj.
  destruct (nth_error table (i / 2)) as [v|] eqn:Ei; [|discriminate].
  destruct (nth_error table (j / 2)) as [w|] eqn:Ej; [|discriminate].
  assert (Sinj : forall a b : list Z, Some a = Some b -> a = b) by congruence.
  apply Sinj in Hi. apply Sinj in Hj.
  destruct (H _ _ _ _ Ei Ej) as [H1 H2]. destruct (H _ _ _ _ Ej Ei) as [_ H3].
  pose proof (Nat.div_mod i 2). pose proof (Nat.div_mod j 2).
  pose proof (Nat.mod_upper_bound i 2). pose proof (Nat.mod_upper_bound j 2).
  destruct (Nat.eqb_spec (i mod 2) 1) as [E1|E1]; destruct (Nat.eqb_spec (j mod 2) 1) as [E2|E2].
  - assert (w = v). { apply (f_equal vopp) in Hj. apply (f_equal vopp) in Hi. rewrite vopp_invol in Hj, Hi. congruence. }
    assert (i / 2 = j / 2) by auto. lia.
  - congruence.
  - congruence.
  - assert (i / 2 = j / 2) by (apply H1; congruence). lia.
Qed.

Lemma weights_length table given w : table_weights table given = Some w -> length w = 2 * length table.
Proof.
  unfold table_weights. destruct given as [g|].
  - destruct (Nat.eqb_spec (length g) (length table)) as [E|E];
      destruct (Nat.eqb_spec (length g) (2 * length table)) as [E'|E']; simpl; intros H; try discriminate;
      injection H as <-; auto.
    rewrite <- E. clear. induction g; simpl; lia.
  - intros H; injection H as <-. rewrite repeat_length; auto.
Qed.

Lemma built_ok N tf : tf_built N tf -> tf_ok N tf.
Proof.
  intros B. constructor; try apply B.
  - apply (usher_ok_mk (tb_swapper B)). discriminate.
  - apply directions_NoDup. apply (tb_distinct B).
  - destruct (tb_weights B) as [g Hg]. eapply weights_length; eauto.
Qed.

Lemma lists_counts N tf act o L : tf_ok N tf -> has_lists tf act o L -> counts_at tf act o (count_list L).
Proof. intros Ok (t & H1 & _ & H2). exists t. rewrite (tf_d_eq Ok) in H2. auto. Qed.

Lemma counts_at_fun tf act o n n' : counts_at tf act o n -> counts_at tf act o n' -> n = n'.
Proof. intros (t & H1 & H2) (t' & H3 & H4). congruence. Qed.

(** ** C09 *)
Theorem C09_table_flip_legal :
  forall N tf o st n,
    tf_built N tf -> valid_occu (tf_sls tf) N o -> counts_at tf true o n ->
    outcome (table_propose tf o) st ->
    (** a canonical swap, *)
    outcome (swap_propose (tf_swapper tf) o) st \/
    (** or a flip: distinct active sites get allowed codes different from the old ones, *)
    (NoDup (map fst st) /\ (forall s c, In (s, c) st -> legal_flip (tf_sls tf) o s c) /\
     valid_occu (tf_sls tf) N (apply_step o st) /\
     (** the counts change by plus or minus one row of the table within the bounds. *)
     exists u, table_direction tf u /\ within n (tf_max tf) u /\
       counts_at tf true (apply_step o st) (vadd n u) /\ moves_as (tf_sls tf) u o (apply_step o st)).
Proof.
  intros N tf o st n B Hv Hn Hst. pose proof (built_ok B) as Ok.
  destruct (has_lists_ex Ok true Hv) as (L & HL). destruct (has_lists_ex Ok false Hv) as (Lf & HLf).
  assert (n = count_list L) by (eapply counts_at_fun; eauto; eapply lists_counts; eauto). subst n.
  destruct (table_outcome Ok Hv HL HLf Hst) as [Hsw|(Hc & Hq & i & u & x & Hi & Hw & Hx & Hne & Hfl)]; auto.
  right. pose proof (feasible_good Ok HL Hi Hw) as Hg.
  destruct (flip_along_outcome Ok Hv HL Hg Hfl) as (H1 & H2 & H3 & H4). repeat (split; auto).
  exists u. split; [apply nth_error_In, directions_In in Hi; auto|]. split; auto. split; auto.
  destruct (has_lists_ex Ok true H3) as (L' & HL').
  rewrite <- (moves_counts Ok Hv H3 HL HL' (proj1 (dir_conserves Ok Hi)) H4). eapply lists_counts; eauto.
Qed.
Print Assumptions C09_table_flip_legal.

(** Any proposal keeps the linear constraints, when they hold. *)
Theorem C09_constraints_kept :
  forall N tf o st n n',
    tf_built N tf -> valid_occu (tf_sls tf) N o -> outcome (table_propose tf o) st ->
    counts_at tf false o n -> counts_at tf false (apply_step o st) n' ->
    forall k a, nth_error (tf_A tf) k = Some a -> dot a n' = dot a n.
Proof.
  intros N tf o st n n' B Hv Hst Hn Hn' k a Ha. pose proof (built_ok B) as Ok.
  destruct (has_lists_ex Ok true Hv) as (L & HL). destruct (has_lists_ex Ok false Hv) as (Lf & HLf).
  assert (n = count_list Lf) by (eapply counts_at_fun; eauto; eapply lists_counts; eauto). subst n.
  destruct (table_outcome Ok Hv HL HLf Hst) as [Hsw|(Hc & Hq & i & u & x & Hi & Hw & Hx & Hne & Hfl)].
  - destruct (swap_lists Ok Hv HLf Hsw) as [Hv' E]. destruct (has_lists_ex Ok false Hv') as (Lf' & HLf').
    assert (n' = count_list Lf') by (eapply counts_at_fun; eauto; eapply lists_counts; eauto). subst n'.
    rewrite (E _ HLf'). auto.
  - pose proof (feasible_good Ok HL Hi Hw) as Hg.
    destruct (flip_along_outcome Ok Hv HL Hg Hfl) as (H1 & H2 & Hv' & H4).
    destruct (has_lists_ex Ok false Hv') as (Lf' & HLf').
    assert (n' = count_list Lf') by (eapply counts_at_fun; eauto; eapply lists_counts; eauto). subst n'.
    pose proof (dir_conserves Ok Hi) as [Hul _].
    rewrite (moves_full_counts Ok Hv Hv' HLf HLf' Hul H4).
    destruct (dir_kernel Ok Hi (nth_error_In _ _ Ha)) as [_ Hd].
    rewrite dot_vadd; [rewrite Hd; lia|]. rewrite (counts_length Ok Hv HLf). auto.
Qed.
Print Assumptions C09_constraints_kept.

Lemma mass_flip_sublattices u L l : mass (flip_sublattices u L l) = 1%Qc.
Proof.
  induction l as [|[sl dims] l IH]; simpl; [apply mass_ret|].
  rewrite mass_bind; [|intros a _; rewrite mass_bind; [exact IH|intros; apply mass_ret]].
  unfold flip_sublattice. destruct (negb _); [apply mass_ret|].
  rewrite mass_bind; [apply mass_of_opt|]. intros items _.
  assert (P : mass (pick_from items) = 1%Qc).
  { induction items as [|[[z c] ss] items IH']; simpl; [apply mass_ret|].
    destruct (z <? 0)%Z; auto. rewrite mass_bind; [apply mass_uniform|].
    intros a _. rewrite mass_bind; [exact IH'|intros; apply mass_ret]. }
  rewrite mass_bind; [exact P|]. intros ids _. clear P. revert ids.
  induction items as [|[[z c] ss] items IH']; intros ids; simpl.
  - destruct (_ =? _); [apply mass_ret|reflexivity].
  - destruct (0 <? z)%Z; auto. rewrite mass_bind; [apply mass_uniform|].
    intros a _. rewrite mass_bind; [apply IH'|intros; apply mass_ret].
Qed.

Lemma mass_table_propose tf o : mass (table_propose tf o) = 1%Qc.
Proof.
  unfold table_propose. rewrite mass_bind.
  - unfold bernoulli. destruct (Qcleb _ _); [apply mass_ret|]. destruct (Qcleb _ _); [apply mass_ret|].
    unfold mass. simpl. ring.
  - intros b _. destruct b; [apply swap_mass|].
    do 5 (rewrite mass_bind; [apply mass_of_opt|intros ? _]).
    destruct (existsb _ _); [reflexivity|]. destruct (forallb _ _); [apply swap_mass|].
    rewrite mass_bind.
    + unfold choose_section. destruct (existsb _ _); [reflexivity|apply mass_choice_p].
    + intros i _. rewrite mass_bind; [apply mass_of_opt|]. intros v _. apply mass_flip_sublattices.
Qed.

Lemma flip_items_nth u L dims codes items i : flip_items u L dims codes = Some items -> In i items ->
  exists d, nth_error u d = Some (it_z i) /\ nth_error L d = Some (it_l i).
Proof.
  unfold flip_items. destruct (negb _); [discriminate|]. revert items.
  induction (combine dims codes) as [|[d c] l IH]; simpl; intros items H Hin; [injection H as <-; destruct Hin|].
  destruct (nth_error u d) as [z|] eqn:E1; simpl in H; [|discriminate].
  destruct (nth_error L d) as [ss|] eqn:E2; simpl in H; [|discriminate].
  destruct (opt_map _ l) as [rest|]; simpl in H; [|discriminate]. injection H as <-.
  destruct Hin as [<-|Hin]; [exists d; auto|]. eapply IH; eauto.
Qed.

Lemma pos_swap u o : pos_prog (swap_propose u o).
Proof.
  apply pos_bind; [apply pos_choice_p|]. intros sl _. apply pos_bind; [apply pos_uniform|]. intros s _.
  apply pos_bind; [apply pos_of_opt|]. intros c _. apply pos_bind; [apply pos_of_opt|]. intros so _.
  destruct (swap_options _ _ _); [apply pos_ret|]. apply pos_bind; [apply pos_uniform|]. intros s2 _.
  apply pos_bind; [apply pos_of_opt|]. intros; apply pos_ret.
Qed.

Lemma pos_flip_sublattices u L l : pos_prog (flip_sublattices u L l).
Proof.
  induction l as [|[sl dims] l IH]; simpl; [apply pos_ret|].
  apply pos_bind; [|intros a _; apply pos_bind; [exact IH|intros; apply pos_ret]].
  unfold flip_sublattice. destruct (negb _); [apply pos_ret|].
  apply pos_bind; [apply pos_of_opt|]. intros items _. apply pos_bind.
  - induction items as [|[[z c] ss] items IH']; simpl; [apply pos_ret|].
    destruct (z <? 0)%Z; auto. apply pos_bind; [apply pos_uniform|].
    intros a _. apply pos_bind; [exact IH'|intros; apply pos_ret].
  - intros ids _. revert ids.
    induction items as [|[[z c] ss] items IH']; intros ids; simpl.
    + destruct (_ =? _); [apply pos_ret|apply pos_fail].
    + destruct (0 <? z)%Z; auto. apply pos_bind; [apply pos_uniform|].
      intros a _. apply pos_bind; [apply IH'|intros; apply pos_ret].
Qed.

Lemma pos_table_propose tf o : pos_prog (table_propose tf o).
Proof.
  unfold table_propose. apply pos_bind.
  - unfold bernoulli. destruct (Qcleb_spec (tf_swap_weight tf) 0) as [|H0]; [apply pos_ret|].
    destruct (Qcleb_spec 1 (tf_swap_weight tf)) as [|H1]; [apply pos_ret|].
    apply Qcnot_le_lt in H0. apply Qcnot_le_lt in H1.
    intros w x [E|[E|[]]]; injection E as <- _; [auto|qclra].
  - intros b _. destruct b; [apply pos_swap|].
    do 5 (apply pos_bind; [apply pos_of_opt|intros ? _]).
    destruct (existsb _ _); [apply pos_fail|]. destruct (forallb _ _); [apply pos_swap|].
    apply pos_bind.
    + unfold choose_section. destruct (existsb _ _); [apply pos_fail|apply pos_choice_p].
    + intros i _. apply pos_bind; [apply pos_of_opt|]. intros v _. apply pos_flip_sublattices.
Qed.

Lemma table_safe N tf o : tf_ok N tf -> valid_occu (tf_sls tf) N o -> never_raises (table_propose tf o).
Proof.
  intros Ok Hv.
  destruct (has_lists_ex Ok true Hv) as (L & HL). destruct (has_lists_ex Ok false Hv) as (Lf & HLf).
  pose proof HL as HL0. pose proof HLf as HLf0.
  destruct HL as (t & Ht & HL & _). destruct HLf as (t' & Ht' & HLf & _).
  unfold table_propose. apply never_raises_bind.
  { unfold bernoulli, never_raises. destruct (Qcleb _ _); [|destruct (Qcleb _ _)]; simpl; intros w; intuition congruence. }
  intros b _. assert (Hsw : never_raises (swap_propose (tf_swapper tf) o)).
  { apply (swap_safe (tk_layout Ok) (tk_swapper Ok) Hv). }
  destruct b; auto.
  rewrite Ht, Ht'. apply never_raises_bind; [apply never_raises_ret|]. intros t1 E1.
  apply outcome_of_opt in E1. injection E1 as <-.
  apply never_raises_bind; [apply never_raises_ret|]. intros t1 E1. apply outcome_of_opt in E1. injection E1 as <-.
  rewrite HL, HLf. 
  apply never_raises_bind; [apply never_raises_ret|]. intros t1 E1. apply outcome_of_opt in E1. injection E1 as <-.
  apply never_raises_bind; [apply never_raises_ret|]. intros t1 E1. apply outcome_of_opt in E1. injection E1 as <-.
  destruct (mask_some Ok Hv HL0) as (m & Hm). rewrite Hm.
  apply never_raises_bind; [destruct (constraints_hold _ _); apply never_raises_ret|].
  intros mask E1. apply outcome_of_opt in E1.
  assert (Emw : mw_of tf (count_list L) (count_list Lf) = masked (tf_weights tf) mask).
  { unfold mw_of. rewrite Hm in *. destruct (constraints_hold tf (count_list Lf)); congruence. }
  rewrite <- Emw.
  assert (Hneg : existsb (fun x => Qcltb x 0) (mw_of tf (count_list L) (count_list Lf)) = false).
  { apply not_true_is_false. intros E. apply existsb_exists in E as (x & Hx & E).
    destruct (Qcltb_spec x 0) as [Hlt|Hlt]; [|discriminate]. apply (mw_nonneg Ok) in Hx. qclra. }
  rewrite Hneg. destruct (forallb _ _) eqn:Ez; auto.
  apply never_raises_bind.
  - unfold choose_section. rewrite Ez, Hneg. apply never_raises_choice_p.
    + rewrite seq_length, map_length; auto.
    + destruct (mw_of _ _ _); discriminate.
    + intros x Hx. apply in_map_iff in Hx as (y & <- & Hy).
      apply Qcdiv_ge_iff; [apply qsum_pos_ex; auto; intros; eapply (mw_nonneg Ok); eauto|].
      rewrite Qcmult_0_l. eapply (mw_nonneg Ok); eauto.
    + assert (Hs : (0 < qsum (mw_of tf (count_list L) (count_list Lf)))%Qc).
      { apply qsum_pos_ex; auto. intros; eapply (mw_nonneg Ok); eauto. }
      rewrite qsum_div. field. intros E. rewrite E in Hs. qclra.
  - intros i Hi. apply choose_section_outcome in Hi as (x & Hx & Hne); auto.
    assert (Hil : i < length (flip_directions (tf_table tf))).
    { rewrite <- (mw_length Ok (count_list Lf) Hv HL0). eapply nth_error_Some_lt; eauto. }
    destruct (nth_error_lt _ Hil) as [u Hu].
    destruct (proj1 (proj1 (mw_nth Ok Hv HL0 Hu Hx)) Hne) as [Hc Hw].
    pose proof (feasible_good Ok HL0 Hu Hw) as Hg. pose proof Hu as Hu0.
    rewrite directions_nth in Hu. destruct (nth_error (tf_table tf) (i / 2)) as [v|]; [|discriminate].
    assert (Sinj : forall a b : list Z, Some a = Some b -> a = b) by congruence.
    apply Sinj in Hu. apply never_raises_bind; [apply never_raises_ret|].
    intros v' E. apply outcome_of_opt in E. injection E as <-. cbv zeta. rewrite Hu.
    apply (flip_sublattices_safe (u := u) (o := o)).
    + intros q Hq. apply (good_pair_ok Ok Hv HL0 Hg Hq).
    + intros q items it Hq Hit Hin.
      destruct (flip_items_nth Hit Hin) as (d & Hz & Hl).
      assert (Hn : nth_error (count_list L) d = Some (Z.of_nat (length (it_l it)))).
      { unfold count_list. rewrite (map_nth_error _ _ _ Hl). auto. }
      assert (Hdm : d < length (tf_max tf)).
      { rewrite (tf_max_length Ok), <- (lists_length Ok Hv HL0). eapply nth_error_Some_lt; eauto. }
      destruct (nth_error_lt _ Hdm) as [mx Hmx].
      pose proof (proj2 Hw d _ _ (nth_error_vadd _ _ _ Hz Hn) Hmx). lia.
Qed.

Theorem C09_table_flip_total :
  forall N tf o, tf_built N tf -> valid_occu (tf_sls tf) N o ->
    never_raises (table_propose tf o) /\ prob (table_propose tf o) (fun _ => true) = 1%Qc.
Proof.
  intros N tf o B Hv. pose proof (table_safe (built_ok B) Hv) as S. split; auto.
  rewrite prob_all by auto. apply mass_table_propose.
Qed.
Print Assumptions C09_table_flip_total.

(** ** C10 *)
Theorem C10_priori_factor :
  forall N tf o st,
    tf_built N tf -> valid_occu (tf_sls tf) N o -> outcome (table_propose tf o) st ->
    exists r, log_priori tf o st = Some r /\
      (0 < Qc2R (transition (table_propose tf) o (apply_step o st)))%R /\
      (0 < Qc2R (transition (table_propose tf) (apply_step o st) o))%R /\
      r = ln (Qc2R (transition (table_propose tf) (apply_step o st) o) /
              Qc2R (transition (table_propose tf) o (apply_step o st))).
Proof.
  intros N tf o st B Hv Hst. destruct (log_priori_exact (built_ok B) Hv Hst) as (r & Hr & E).
  exists r. split; auto.
  assert (P : (0 < Qc2R (transition (table_propose tf) o (apply_step o st)))%R).
  { apply Qc2R_pos. apply prob_pos_outcome with st; auto; [apply pos_table_propose|].
    unfold occu_eqb. destruct (list_eq_dec _ _ _); congruence. }
  split; auto. rewrite <- E. split; [apply Rmult_lt_0_compat; auto; apply exp_pos|].
  unfold Rdiv. rewrite Rmult_assoc, Rinv_r, Rmult_1_r, ln_exp; auto. lra.
Qed.
Print Assumptions C10_priori_factor.

(** ** C44 *)
Theorem C44_mask_exact :
  forall table n max_n mask,
    flip_weights_mask table n max_n = Some mask ->
    length mask = 2 * length table /\
    forall i u, nth_error table i = Some u ->
      (nth_error mask (2 * i) = Some true <-> within n max_n u) /\
      (nth_error mask (2 * i + 1) = Some true <-> within n max_n (vopp u)).
Proof.
  intros table n max_n mask H. destruct (mask_spec H) as [Hl Hs]. split; auto.
  intros i u Hu. assert (Hil : i < length table) by (eapply nth_error_Some_lt; eauto).
  assert (D : forall r, r < 2 -> nth_error (flip_directions table) (2 * i + r) = Some (if r =? 1 then vopp u else u)).
  { intros r Hr. rewrite directions_nth. 
    rewrite <- (Nat.div_unique (2 * i + r) 2 i r), <- (Nat.mod_unique (2 * i + r) 2 i r), Hu by lia. auto. }
  assert (Hd0 := D 0). rewrite Nat.add_0_r in Hd0. assert (Hd1 := D 1).
  assert (Hm0 : 2 * i < length mask) by lia. assert (Hm1 : 2 * i + 1 < length mask) by lia.
  destruct (nth_error_lt mask Hm0) as [b0 Hb0]. destruct (nth_error_lt mask Hm1) as [b1 Hb1].
  split; [rewrite Hb0, <- (Hs _ _ _ (Hd0 ltac:(lia)) Hb0)|rewrite Hb1, <- (Hs _ _ _ (Hd1 ltac:(lia)) Hb1)];
    split; intros E; congruence.
Qed.
Print Assumptions C44_mask_exact.

(** The mask is defined exactly for a non-empty table of rows of the right length. *)
Theorem C44_mask_defined :
  forall table n max_n,
    (exists mask, flip_weights_mask table n max_n = Some mask) <->
    table <> [] /\ (forall u, In u table -> length u = length n) /\ length max_n = length n.
Proof.
  intros table n max_n. unfold flip_weights_mask. split.
  - intros [mask H]. destruct (_ || _) eqn:E; [discriminate|].
    apply orb_false_iff in E as [E E3]. apply orb_false_iff in E as [E1 E2].
    apply negb_false_iff, Nat.eqb_eq in E3. apply negb_false_iff in E2. rewrite forallb_forall in E2.
    split; [intros ->; discriminate|]. split; auto. intros u Hu. apply Nat.eqb_eq. auto.
  - intros (H1 & H2 & H3). destruct (Nat.eqb_spec (length table) 0) as [E|E]; [destruct table; simpl in E; congruence|].
    assert (F : forallb (fun u => length u =? length n) table = true).
    { apply forallb_forall. intros u Hu. apply Nat.eqb_eq. auto. }
    rewrite F, H3, Nat.eqb_refl. simpl. eauto.
Qed.
Print Assumptions C44_mask_defined.

(** Non-vacuity: three sites of one sublattice (one restricted), two of another, exchange of
    a species between them allowed by a constraint, unequal weights. *)
Definition ex_tf : tableflip :=
  mkTF ex_layout (mkUsher ex_layout [Qc_frac 1 2; Qc_frac 1 2]) [[1; -1; -1; 1]; [0; 0; 1; -1]]%Z
    [1%Qc; 1%Qc; Qc_frac 2 1; Qc_frac 2 1] (Qc_frac 1 10) [[1; 1; 0; 0]]%Z [3]%Z 1%Z.
Example ex_tf_built : tf_built 5 ex_tf.
Proof.
  constructor; simpl.
  - exact ex_layout_ok.
  - intros sl [<-|[<-|[]]]; reflexivity.
  - reflexivity.
  - discriminate.
  - intros u [<-|[<-|[]]]; (split; [reflexivity|]); intros [|[|k]] sl E; simpl in E;
      try (injection E as <-; reflexivity); destruct k; discriminate.
  - intros [|[|i]] [|[|j]] u v E1 E2; simpl in *; try (destruct i; discriminate); try (destruct j; discriminate);
      injection E1 as <-; injection E2 as <-; split; intros; try lia; discriminate.
  - exists (Some [1%Qc; Qc_frac 2 1]). reflexivity.
  - intros w [<-|[<-|[<-|[<-|[]]]]]; reflexivity.
  - intros u a [<-|[<-|[]]] [<-|[]]; split; reflexivity.
Qed.
(** Some outcomes at [ex_occu]: a swap, and flips along the rows. *)
Example ex_tf_outcomes :
  let outs := map snd (table_propose ex_tf ex_occu) in
  In (Some [(0, 0); (3, 1)]) outs /\ In (Some [(0, 0); (4, 2)]) outs /\ In (Some [(1, 0)]) outs /\ In (Some [(4,2)]) outs.
Proof. vm_compute. intuition congruence. Qed.
