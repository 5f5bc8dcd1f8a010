From Verif Require Export TableFlipLog TableFlipKernel.
Set Implicit Arguments.
Unset Strict Implicit.
Open Scope nat_scope.

Fixpoint nfact (n : list Z) : Qc :=
  match n with [] => 1%Qc | x :: r => (qfact (Z.to_nat x) * nfact r)%Qc end.

Lemma pfact_nfact L : pfact L = nfact (count_list L).
Proof. induction L as [|l L IH]; simpl; auto. rewrite IH, Nat2Z.id. auto. Qed.

Lemma nfact_pos n : (0 < nfact n)%Qc.
Proof.
  induction n as [|x n IH]; simpl; [reflexivity|]. pose proof (qfact_pos (Z.to_nat x)). 
  apply Qc2R_lt. rewrite Qc2R_mult, Qc2R_0. apply Rmult_lt_0_compat; apply Qc2R_pos; auto.
Qed.

Lemma facln_eq x : facln x = ln (Qc2R (qfact (Z.to_nat x))).
Proof. unfold facln, qfact. rewrite Qc2R_of_nat. auto. Qed.

Lemma comb_factor_eq u : forall n, length n = length u ->
  comb_factor u n (vadd n u) = (ln (Qc2R (nfact n)) - ln (Qc2R (nfact (vadd n u))))%R.
Proof.
  unfold comb_factor. induction u as [|z u IH]; intros [|x n] H; simpl in *; try lia.
  - rewrite Qc2R_1. lra.
  - assert (H1 := Qc2R_pos (qfact_pos (Z.to_nat x))). assert (H2 := Qc2R_pos (qfact_pos (Z.to_nat (x + z)))).
    assert (H3 := Qc2R_pos (nfact_pos n)). assert (H4 := Qc2R_pos (nfact_pos (vadd n u))).
    rewrite !Qc2R_mult, !ln_mult by auto. specialize (IH n). 
    destruct (Z.eqb_spec z 0) as [->|Hz]; simpl.
    + rewrite Z.add_0_r, IH by lia. lra.
    + rewrite IH, !facln_eq by lia. lra.
Qed.

Lemma find_flip_sound table dn : forall fid f d, find_flip fid table dn = Some (f, d) ->
  fid <= f /\ (d = 0 \/ d = 1) /\
  nth_error (flip_directions table) (2 * (f - fid) + d) = Some dn.
Proof.
  induction table as [|v table IH]; intros fid f d H; simpl in H; [discriminate|].
  unfold z_eqb in H. destruct (list_eq_dec Z.eq_dec v dn) as [->|].
  - injection H as <- <-. rewrite Nat.sub_diag. simpl. auto.
  - destruct (list_eq_dec Z.eq_dec (vopp v) dn) as [<-|].
    + injection H as <- <-. rewrite Nat.sub_diag. simpl. auto.
    + apply IH in H as (H1 & H2 & H3). split; [lia|]. split; auto.
      replace (2 * (f - fid) + d) with (S (S (2 * (f - S fid) + d))) by lia. auto.
Qed.

Lemma find_flip_complete table dn : forall fid i, nth_error (flip_directions table) i = Some dn ->
  exists p, find_flip fid table dn = Some p.
Proof.
  induction table as [|v table IH]; intros fid i H; simpl in H; [destruct i; discriminate|].
  simpl. unfold z_eqb. destruct (list_eq_dec Z.eq_dec v dn); [eauto|].
  destruct (list_eq_dec Z.eq_dec (vopp v) dn); [eauto|].
  destruct i as [|[|i]]; simpl in H; try congruence. eapply IH; eauto.
Qed.

Lemma vopp_zero u : forallb (fun x => (x =? 0)%Z) u = true -> vopp u = u.
Proof.
  unfold vopp. induction u as [|x u IH]; simpl; auto. rewrite andb_true_iff, Z.eqb_eq.
  intros [-> H]. rewrite IH; auto.
Qed.

Section LogK.
Variables (N : nat) (tf : tableflip).
Hypothesis Ok : tf_ok N tf.
Let sls := tf_sls tf.
Let Lay : layout sls N := tk_layout Ok.
Let dirs := flip_directions (tf_table tf).
Local Notation lists := (has_lists tf).

Lemma delta_of_counts act o L L' st t dn : lists act o L -> lists act (apply_step o st) L' ->
  get_dim_ids_table sls act = Some t -> delta_counts_from_step o st (tf_d tf) t = Some dn ->
  count_list L' = vadd (count_list L) dn.
Proof.
  intros (t1 & H1 & _ & Hn) (t2 & H2 & _ & Hn') Ht Hd. unfold sls in Ht.
  assert (t1 = t) by congruence. assert (t2 = t) by congruence. subst t1 t2.
  rewrite (@counts_delta _ _ _ _ _ _ Hn Hd) in Hn'. congruence.
Qed.

(** Weighted selection. *)
Lemma select_prob_eq o L i u x : valid_occu sls N o -> lists true o L ->
  nth_error dirs i = Some u -> forall nf, constraints_hold tf nf = true ->
  nth_error (mw_of tf (count_list L) nf) i = Some x ->
  select_prob tf (count_list L) i = Some ((1 - tf_swap_weight tf) * x / qsum (mw_of tf (count_list L) nf))%Qc.
Proof.
  intros Hv HL Hi nf Hc Hx. unfold select_prob, mw_of in *. rewrite Hc in *.
  destruct (mask_some Ok Hv HL) as (m & Hm). rewrite Hm in *. simpl. rewrite Hx. auto.
Qed.

Lemma delta_legal o st : valid_occu sls N o ->
  (forall s c, In (s, c) st -> exists sl, In sl sls /\ In s (sl_active sl) /\ In c (sl_encoding sl)) ->
  exists t dn, get_dim_ids_table sls true = Some t /\ delta_counts_from_step o st (tf_d tf) t = Some dn
    /\ length dn = n_dims_of sls.
Proof.
  intros Hv Hl. destruct (@species_lists sls N true o Lay Hv) as (t & L & n & Ht & HL & Hn & _).
  exists t. destruct (@delta_defined sls N true t o st Lay Ht Hv Hl) as (dn & Hd).
  exists dn. rewrite (tf_d_eq Ok). fold sls. repeat split; auto.
  unfold delta_counts_from_step in Hd.
  assert (E : forall s o dn dn', delta_loop o s t dn = Some dn' -> length dn' = length dn).
  { clear. induction s as [|[a b] s IH]; intros o dn dn' H; simpl in H; [congruence|].
    destruct (nth_error o a); simpl in H; [|discriminate].
    destruct (get_cell t a n); simpl in H; [|discriminate].
    destruct (get_cell t a b); simpl in H; [|discriminate].
    destruct (_ || _); [discriminate|].
    destruct (add_at dn _ _) as [d1|] eqn:E1; simpl in H; [|discriminate].
    destruct (add_at d1 _ _) as [d2|] eqn:E2; simpl in H; [|discriminate].
    apply IH in H. apply add_at_Some in E1, E2. lia. }
  rewrite (E _ _ _ _ Hd), repeat_length. auto.
Qed.

Theorem log_priori_exact o st : valid_occu sls N o -> outcome (table_propose tf o) st ->
  exists r, log_priori tf o st = Some r /\
    (exp r * Qc2R (transition (table_propose tf) o (apply_step o st)) =
     Qc2R (transition (table_propose tf) (apply_step o st) o))%R.
Proof.
  intros Hv Hst.
  destruct (has_lists_ex Ok true Hv) as (L & HL). destruct (has_lists_ex Ok false Hv) as (Lf & HLf).
  destruct (table_outcome Ok Hv HL HLf Hst) as [Hsw|(Hc & Hq & i & u & x & Hi & Hw & Hx & Hne & Hfl)].
  - destruct (swap_lists Ok Hv HL Hsw) as [Hv' E1]. destruct (swap_lists Ok Hv HLf Hsw) as [_ E2].
    destruct (has_lists_ex Ok true Hv') as (L' & HL'). destruct (has_lists_ex Ok false Hv') as (Lf' & HLf').
    assert (Hl : forall s c, In (s, c) st -> exists sl, In sl sls /\ In s (sl_active sl) /\ In c (sl_encoding sl)).
    { destruct (swap_outcome Lay (tk_swapper Ok) Hv Hsw) as [(s1 & s2 & c1 & c2 & -> & Hs)|[-> _]]; [|intros s c []].
      destruct Hs as (sl & [Hin Hs1] & [_ Hs2] & Hc1 & Hc2 & _).
      destruct (active_site_occu Lay Hv Hin Hs1) as (_ & y1 & Hy1 & Hy1').
      destruct (active_site_occu Lay Hv Hin Hs2) as (_ & y2 & Hy2 & Hy2').
      intros s c [E|[E|[]]]; injection E as <- <-; exists sl; split; auto; split; auto; congruence. }
    destruct (delta_legal Hv Hl) as (t & dn & Ht & Hd & Hdl).
    assert (E : count_list L' = vadd (count_list L) dn) by (eapply delta_of_counts; eauto).
    assert (Hz : forallb (fun x => (x =? 0)%Z) dn = true).
    { rewrite (E1 _ HL') in E. symmetry in E. apply vadd_zero in E.
      - clear - E. unfold vopp in E. induction dn as [|y dn IH]; simpl in *; auto.
        injection E as Ey E. rewrite IH by auto. assert (y = 0%Z) by lia. subst. auto.
      - rewrite (counts_length Ok Hv HL). auto. }
    exists 0%R. unfold log_priori. fold sls. rewrite Ht. simpl. rewrite Hd. simpl. unfold get_flip_id. rewrite Hz.
    split; auto. rewrite exp_0, Rmult_1_l. f_equal.
    apply (transition_same Ok Hv Hv' HL HLf HL' HLf'); [apply E1|apply E2]; auto.
  - pose proof (feasible_good Ok HL Hi Hw) as Hg.
    destruct (flip_along_outcome Ok Hv HL Hg Hfl) as (Hn & Hleg & Hv' & Hm).
    set (o' := apply_step o st) in *.
    destruct (has_lists_ex Ok true Hv') as (L' & HL'). destruct (has_lists_ex Ok false Hv') as (Lf' & HLf').
    pose proof (dir_conserves Ok Hi) as Hcons. pose proof (proj1 Hcons) as Hul.
    assert (Hcnt : count_list L' = vadd (count_list L) u) by (apply (moves_counts Ok Hv Hv' HL HL' Hul Hm)).
    assert (Hl : forall s c, In (s, c) st -> exists sl, In sl sls /\ In s (sl_active sl) /\ In c (sl_encoding sl)).
    { intros s c Hsc. destruct (Hleg _ _ Hsc) as (sl & [Hin Hs] & Hc' & _). eauto. }
    destruct (delta_legal Hv Hl) as (t & dn & Ht & Hd & Hdl).
    assert (Edn : dn = u).
    { assert (E : count_list L' = vadd (count_list L) dn) by (eapply delta_of_counts; eauto).
      rewrite Hcnt in E. symmetry in E. apply vadd_inj in E; auto; rewrite (counts_length Ok Hv HL); auto. }
    subst dn.
    assert (Hnz : forallb (fun x => (x =? 0)%Z) u = false).
    { apply not_true_is_false. intros E. apply (dir_nonzero Ok Hi). apply vopp_zero; auto. }
    destruct (find_flip_complete 0 Hi) as ([fid dir] & Hff).
    destruct (find_flip_sound Hff) as (_ & Hdir & Hff'). rewrite Nat.sub_0_r in Hff'.
    assert (Ei : 2 * fid + dir = i) by (eapply (dir_inj Ok); eauto).
    assert (Hfid : i / 2 = fid /\ i mod 2 = dir).
    { split; [symmetry; apply (Nat.div_unique i 2 fid dir); lia|symmetry; apply (Nat.mod_unique i 2 fid dir); lia]. }
    destruct Hfid as [Hfid Hmod].
    assert (Hv0 : exists v, nth_error (tf_table tf) fid = Some v /\ (if dir =? 0 then v else vopp v) = u).
    { pose proof Hi as Hi'. rewrite directions_nth, Hfid, Hmod in Hi'.
      destruct (nth_error (tf_table tf) fid) as [v|]; [|discriminate]. exists v. split; auto.
      injection Hi' as <-. destruct Hdir as [->| ->]; auto. }
    destruct Hv0 as (v & Hvt & Hvu).
    assert (Hopp : opposite i = 2 * fid + (1 - dir)).
    { unfold opposite. rewrite Hmod. destruct Hdir as [->| ->]; simpl; lia. }
    pose proof (opposite_nth Hi) as Hi'. fold dirs in Hi'.
    assert (Hc' : constraints_hold tf (count_list Lf') = true).
    { rewrite (constraints_moves Ok Hv Hv' HLf HLf' Hi Hm). auto. }
    assert (Hw' : within (count_list L') (tf_max tf) (vopp u)) by (apply (reverse_within Ok Hv HL Hul Hcnt)).
    assert (Hil' : opposite i < length (mw_of tf (count_list L') (count_list Lf'))).
    { rewrite (mw_length Ok _ Hv' HL'). eapply nth_error_Some_lt; eauto. }
    destruct (nth_error_lt (mw_of tf (count_list L') (count_list Lf')) Hil') as [x' Hx'].
    assert (Hne' : x' <> 0%Qc) by (apply (mw_nth Ok Hv' HL' Hi' Hx'); auto).
    assert (Hm' : moves_as sls (vopp u) o' o).
    { destruct Hm as (A & B & C). split; [auto|]. split; [intros s Hs; symmetry; apply B; auto|].
      intros k sl Hk. rewrite part_vopp. apply site_moves_sym. apply C; auto. }
    pose proof (select_prob_eq Hv HL Hi Hc Hx) as Hp1.
    pose proof (select_prob_eq Hv' HL' Hi' Hc' Hx') as Hp2.
    assert (Hcounts : occu_to_counts o (tf_d tf) t = Some (count_list L)).
    { destruct HL as (t1 & H1 & _ & H2). unfold sls in Ht. congruence. }
    unfold log_priori. fold sls. rewrite Ht. simpl. rewrite Hd. simpl. unfold get_flip_id. rewrite Hnz.
    rewrite Hff. simpl. rewrite Hvt. simpl. rewrite Hvu, Hcounts. simpl.
    replace (fid + (fid + 0) + dir) with i by lia.
    replace (fid + (fid + 0) + match dir with 0 => 1 | S _ => 0 end) with (opposite i)
      by (destruct Hdir; subst dir; lia).
    rewrite Hp1. simpl. rewrite <- Hcnt, Hp2. simpl.
    eexists. split; [reflexivity|].
    rewrite (transition_flip Ok Hv Hv' HL HLf HL' Hi Hx Hne Hm).
    rewrite (transition_flip Ok Hv' Hv HL' HLf' HL Hi' Hx' Hne' Hm').
    pose proof (flip_reverse Ok Hv Hv' HL HL' Hcons Hm) as Hrev.
    rewrite !pfact_nfact, Hcnt in Hrev. rewrite Hcnt.
    set (S := qsum (mw_of tf (count_list L) (count_list Lf))) in *.
    assert (HS : (0 < S)%Qc).
    { apply qsum_pos_ex; [intros; eapply (mw_nonneg Ok); eauto|].
      apply not_true_is_false. intros E. rewrite forallb_forall in E. apply Hne.
      specialize (E x (nth_error_In _ _ Hx)). destruct (Qceqb_spec x 0); [auto|discriminate]. }
    assert (HS' : (0 < qsum (mw_of tf (count_list L') (count_list Lf')))%Qc).
    { apply qsum_pos_ex; [intros; eapply (mw_nonneg Ok); eauto|].
      apply not_true_is_false. intros E. rewrite forallb_forall in E. apply Hne'.
      specialize (E x' (nth_error_In _ _ Hx')). destruct (Qceqb_spec x' 0); [auto|discriminate]. }
    rewrite Hcnt in HS'. set (S' := qsum (mw_of tf (vadd (count_list L) u) (count_list Lf'))) in *.
    assert (Hxp : (0 < x)%Qc).
    { pose proof (mw_nonneg Ok (nth_error_In _ _ Hx)) as H0. apply Qcle_lt_or_eq in H0 as [H0|H0]; auto. congruence. }
    assert (Hxp' : (0 < x')%Qc).
    { pose proof (mw_nonneg Ok (nth_error_In _ _ Hx')) as H0. apply Qcle_lt_or_eq in H0 as [H0|H0]; auto. congruence. }
    assert (Hsw1 : (0 < 1 - tf_swap_weight tf)%Qc).
    { clear - Hq. unfold bernoulli in Hq. destruct (Qcleb_spec (tf_swap_weight tf) 0) as [H0|H0]; [qclra|].
      destruct (Qcleb_spec 1 (tf_swap_weight tf)) as [H1|H1].
      - rewrite prob_ret in Hq. simpl in Hq. congruence.
      - apply Qcnot_le_lt in H1. qclra. }
    set (k := (1 - tf_swap_weight tf)%Qc) in *.
    rewrite comb_factor_eq by (rewrite (counts_length Ok Hv HL); auto).
    assert (A1 := nfact_pos (count_list L)). assert (A2 := nfact_pos (vadd (count_list L) u)).
    set (F := nfact (count_list L)) in *. set (F' := nfact (vadd (count_list L) u)) in *.
    assert (Hsn : forall a, (0 < a)%Qc -> a <> 0%Qc) by (intros a Ha ->; discriminate).
    rewrite !exp_plus. unfold Rminus. rewrite exp_plus, exp_Ropp.
    apply (f_equal Qc2R) in Hrev. rewrite !Qc2R_mult in Hrev.
    rewrite !Qc2R_mult, !Qc2R_div, !Qc2R_mult by auto.
    assert (B1 := Qc2R_pos Hxp). assert (B2 := Qc2R_pos Hxp'). assert (B3 := Qc2R_pos HS).
    assert (B4 := Qc2R_pos HS'). assert (B5 := Qc2R_pos A1). assert (B6 := Qc2R_pos A2). assert (B7 := Qc2R_pos Hsw1).
    rewrite exp_ln. 2: { apply Rdiv_lt_0_compat; apply Rdiv_lt_0_compat; auto; apply Rmult_lt_0_compat; auto. }
    rewrite !exp_ln by auto.
    set (P := Qc2R (pairs_prob u L (pairs tf))) in *. set (P' := Qc2R (pairs_prob (vopp u) L' (pairs tf))) in *.
    set (X := Qc2R x) in *. set (X' := Qc2R x') in *. set (Y := Qc2R S) in *. set (Y' := Qc2R S') in *.
    set (G := Qc2R F) in *. set (G' := Qc2R F') in *. set (K := Qc2R k) in *.
    assert (EP : (P' = P * G / G')%R) by (rewrite <- Hrev; field; lra).
    rewrite EP. field. lra.
Qed.
End LogK.
