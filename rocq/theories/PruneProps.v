(** Property C56: pruning an expansion. *)
From Verif Require Import Prune LibProofs EvaluatorProofs EvaluatorProps SubspaceSpec SubspaceProofs SubspaceProps TensorProofs ExpansionProps.
From Coq Require Import Lia.
Set Implicit Arguments.
Unset Strict Implicit.
Open Scope nat_scope.

(** ** Specification *)
(** A correlation function: base cluster, site functions and symmetric bit combinations; [tab] gives the clusters of
    a base cluster in the supercell. *)
Notation cfun := (nat * list (list (list Qc)) * list (list nat))%type.
Definition cfuns (st : subspace) : list cfun := flat_map (fun o => map (fun c => (s_key o, s_basis o, c)) (s_combos o)) (sub_orbits st).
(** Its value: the mean over clusters and combinations of products of site functions. *)
Definition cvalue (tab : nat -> ctable) (occu : list nat) (f : cfun) : Qc :=
  let rows := tab (fst (fst f)) in
  (qsum (map (fun row => qsum (map (fun bits => bprod (snd (fst f)) bits (map (fun s => nth s occu 0%nat) row)) (snd f)) / Qc_of_nat (length (snd f))) rows) / Qc_of_nat (length rows))%Qc.
Definition tables_of (tab : nat -> ctable) (st : subspace) : list ctable := map (fun o => tab (s_key o)) (sub_orbits st).
(** Positions that pruning keeps: those whose value is not below the threshold, or that have no value to compare. *)
Definition kept (thr : Qc) (sel : list Qc) (n : nat) : list nat :=
  filter (fun j => match nth_error sel j with Some x => negb (Qcltb (qabs x) thr) | None => true end) (seq 0 n).

(** ** Features of a subspace *)
Lemma nth_error_ext_len {A} (a b : list A) n : length a = n -> length b = n -> (forall j, j < n -> nth_error a j = nth_error b j) -> a = b.
Proof.
  revert b n. induction a as [|x a IH]; intros [|y b] [|n] La Lb H; simpl in *; try discriminate; auto.
  f_equal; [assert (Some x = Some y) by (apply (H 0); lia); congruence|]. apply (IH b n); try lia. intros j Hj. apply (H (S j)). lia.
Qed.
Lemma flat_map_pos {A B} (f : A -> list B) (os : list A) j : j < length (flat_map f os) ->
  exists n o k, nth_error os n = Some o /\ k < length (f o) /\ j = list_sum (map (fun x => length (f x)) (firstn n os)) + k.
Proof.
  revert j. induction os as [|o os IH]; intros j Hj; simpl in *; [lia|]. rewrite app_length in Hj.
  destruct (Nat.ltb_spec j (length (f o))) as [H|H]; [exists 0, o, j; simpl; auto|].
  destruct (IH (j - length (f o))) as (n & o' & k & H1 & H2 & H3); [lia|]. exists (S n), o', k. simpl. split; auto. split; auto.
  change (list_sum (length (f o) :: map (fun x => length (f x)) (firstn n os))) with (length (f o) + list_sum (map (fun x => length (f x)) (firstn n os))). lia.
Qed.
Lemma cfuns_len st : consistent st -> S (length (cfuns st)) = sub_ncorr st.
Proof.
  intros HC. rewrite (c_ncorr HC). simpl. f_equal. unfold cfuns. clear. induction (sub_orbits st) as [|o os IH]; simpl; auto.
  rewrite app_length, map_length. unfold s_len at 1. f_equal. apply IH.
Qed.
Lemma features_values sd N tab st coefs next size occu P : expansion_ok sd N st (tables_of tab st) -> length coefs = sub_ncorr st + next -> codes_ok sd N occu ->
  expansion_proc size st (tables_of tab st) coefs next = Some P ->
  ce_features P occu = Some (map (fun x => x * Qc_of_nat size)%Qc (1%Qc :: map (cvalue tab occu) (cfuns st))).
Proof.
  intros HE HL HO EP. pose proof (ex_cons HE) as HC. pose proof (exp_proc_ok HE HL EP) as HP.
  destruct (exp_proc size HE HL) as (P' & e & EP' & Ee & EqP & Hn). rewrite EP in EP'. injection EP' as <-.
  destruct (correlations_total HP HO) as (v & Ev & Lv & _).
  assert (Ef : ce_features P occu = Some (scale P v)) by (unfold ce_features; rewrite Ev; auto).
  rewrite Ef. f_equal.
  assert (Ls : length (scale P v) = sub_ncorr st) by (unfold scale; rewrite map_length, Lv, EqP; auto).
  assert (Es : p_size P = size) by (rewrite EqP; auto).
  assert (H0 : nth_error (scale P v) 0 = Some (Qc_of_nat size)).
  { assert (H0 : 0 < length v) by (rewrite Lv, EqP; cbn [p_eval e_num_corr]; rewrite (c_ncorr HC); lia).
    assert (Hcase : sub_orbits st = [] \/ exists o, nth_error (sub_orbits st) 0 = Some o) by (destruct (sub_orbits st) as [|o os]; [left; auto|right; exists o; auto]).
    destruct Hcase as [Eo|(o & Hno)].
    - unfold ce_features in Ef. assert (Ec : correlations (p_eval P) occu (p_tables P) = Some [1%Qc]).
      { rewrite EqP. cbn [p_eval p_tables]. unfold correlations, corr_work, tables_of. cbn [e_num_corr e_orbits]. rewrite Eo, (c_ncorr HC), Eo. reflexivity. }
      rewrite Ec in Ef. cbn [option_bind] in Ef. injection Ef as <-. unfold scale. cbn [map nth_error]. rewrite Es. f_equal. ring.
    - assert (Hrt : nth_error (tables_of tab st) 0 = Some (tab (s_key o))) by (unfold tables_of; rewrite nth_error_map, Hno; auto).
      destruct (Hn 0 o _ Hno Hrt) as (dims & ts & Hd & HOo & Hne & HR & Ed & Et & Lt & Hl & _).
      assert (Hlt : 0 < length ts). { rewrite Lt. unfold s_len. pose proof (c_funs HC _ (nth_error_In _ _ Hno)). destruct (s_combos o); [congruence|simpl; lia]. }
      destruct (@nth_error_lt _ ts 0 Hlt) as [t Ht].
      destruct (@C26_value sd N P occu 0 (odata_of o) (tab (s_key o)) 0 t dims HP HO) as (f & xs & E1 & _ & E2 & _).
      + rewrite EqP. cbn [p_eval e_orbits]. rewrite nth_error_map, Hno. auto.
      + rewrite EqP. auto.
      + unfold odata_of. cbn [o_tensors]. rewrite Et. auto.
      + intros row Hrow. apply HR. auto.
      + rewrite Ef in E1. injection E1 as <-. rewrite E2, Es. auto. }
  assert (HS : forall n o k c, nth_error (sub_orbits st) n = Some o -> nth_error (s_combos o) k = Some c ->
     nth_error (scale P v) (s_bit o + k) = Some (cvalue tab occu (s_key o, s_basis o, c) * Qc_of_nat size)%Qc).
  { intros n o k c Hno Hk. assert (Hrt : nth_error (tables_of tab st) n = Some (tab (s_key o))) by (unfold tables_of; rewrite nth_error_map, Hno; auto).
    destruct (Hn n o _ Hno Hrt) as (dims & ts & Hd & HOo & Hne & HR & Ed & Et & Lt & Hl & _).
    assert (Hlt : k < length ts) by (rewrite Lt; apply nth_error_Some; congruence).
    destruct (@nth_error_lt _ ts k Hlt) as [t Ht].
    destruct (@C26_value sd N P occu n (odata_of o) (tab (s_key o)) k t dims HP HO) as (f & xs & E1 & _ & _ & E3 & E4).
    + rewrite EqP. cbn [p_eval e_orbits]. rewrite nth_error_map, Hno. auto.
    + rewrite EqP. auto.
    + unfold odata_of. cbn [o_tensors]. rewrite Et. auto.
    + intros row Hrow. apply HR. auto.
    + rewrite Ef in E1. injection E1 as <-. cbn [odata_of o_bit] in E4. rewrite E4, Es. do 2 f_equal. unfold cvalue. cbn [fst snd]. f_equal. f_equal.
      destruct (tensors_ok HOo) as (ts' & Et' & _ & _ & Hl' & Hv). rewrite Et in Et'. injection Et' as <-.
      rewrite opt_map_map with (g := fun row => (qsum (map (fun bits => bprod (s_basis o) bits (map (fun s => nth s occu 0%nat) row)) c) / Qc_of_nat (length c))%Qc) in E3.
      * injection E3 as <-. auto.
      * intros row Hrow. destruct (HR row Hrow) as [E HN].
        assert (Hcb : codes_below dims (map (fun s => nth s occu 0) row)).
        { rewrite <- E. clear - HO HN. unfold codes_below. induction row as [|s row IH]; simpl; constructor.
          - destruct HO as [L H]. destruct (@nth_error_lt _ occu s) as [x Hx]; [rewrite L; apply HN; simpl; auto|].
            rewrite (nth_error_nth _ _ _ Hx). apply H; auto.
          - apply IH. intros; apply HN; simpl; auto. }
        pose proof (Hl t (nth_error_In _ _ Ht)) as Hlt'.
        rewrite entry_index by auto. rewrite (nth_error_nth' t 0%Qc) by (rewrite Hlt'; apply index_lt; auto). f_equal.
        apply (Hv k c t); auto. }
  apply nth_error_ext_len with (n := sub_ncorr st); auto.
  - cbn [map length]. rewrite map_length, map_length. apply cfuns_len; auto.
  - intros [|j] Hj; [rewrite H0; cbn; f_equal; ring|].
    assert (Hjl : j < length (cfuns st)) by (pose proof (cfuns_len HC); lia).
    destruct (@flat_map_pos _ _ (fun o => map (fun c => (s_key o, s_basis o, c)) (s_combos o)) (sub_orbits st) j Hjl) as (n & o & k & Hno & Hk & Ej).
    rewrite map_length in Hk. destruct (@nth_error_lt _ (s_combos o) k Hk) as [c Hc].
    assert (Eb : S j = s_bit o + k).
    { rewrite (c_bits HC n Hno), Ej. rewrite (map_ext _ s_len); [lia|]. intros x. rewrite map_length. auto. }
    transitivity (nth_error (scale P v) (s_bit o + k)); [rewrite Eb; auto|]. rewrite (HS n o k c Hno Hc). cbn [map nth_error]. rewrite !nth_error_map. unfold cfuns.
    rewrite Ej. rewrite (@flat_map_nth _ _ (fun o => map (fun c => (s_key o, s_basis o, c)) (s_combos o)) (sub_orbits st) n o k Hno); [|rewrite map_length; auto].
    rewrite nth_error_map, Hc. auto.
Qed.

(** ** Selections *)
Lemma small_ids_in thr cs j : In j (small_ids thr cs) <-> exists x, nth_error cs j = Some x /\ Qcltb (qabs x) thr = true.
Proof.
  unfold small_ids. rewrite in_map_iff. split.
  - intros ([i x] & <- & H). apply filter_In in H as [H1 H2]. exists x. split; auto. cbn [fst].
    destruct (In_nth_error _ _ H1) as (m & Hm).
    assert (Hc : forall A B (l : list A) (l' : list B) m x y, nth_error (combine l l') m = Some (x, y) -> nth_error l m = Some x /\ nth_error l' m = Some y).
    { clear. intros A B l. induction l as [|a l IH]; intros [|b l'] [|m] x y E; simpl in *; try discriminate.
      - injection E as -> ->. auto.
      - apply IH; auto. }
    apply Hc in Hm as [H3 H4]. rewrite nth_error_seq in H3. destruct (m <? length cs); [|discriminate]. injection H3 as <-. auto.
  - intros (x & Hx & E). exists (j, x). split; auto. apply filter_In. split; auto.
    assert (Hc : forall (l : list nat) (l' : list Qc) i x y, nth_error l i = Some x -> nth_error l' i = Some y -> nth_error (combine l l') i = Some (x, y)).
    { clear. intros l. induction l as [|a l IH]; intros [|b l'] [|m] x y E E'; simpl in *; try discriminate; [congruence|]. apply IH; auto. }
    apply nth_error_In with (n := j). apply Hc; auto. rewrite nth_error_seq. assert (j < length cs) by (apply nth_error_Some; congruence).
    destruct (Nat.ltb_spec j (length cs)); [auto|lia].
Qed.
Lemma drop_none {A} ids n (l : list A) : (forall j, j < length l -> ~ In (n + j) ids) -> drop_at ids n l = l.
Proof.
  revert n. induction l as [|x l IH]; intros n H; simpl; auto. destruct (existsb (Nat.eqb n) ids) eqn:E.
  - apply existsb_in_iff in E. exfalso. apply (H 0); simpl; [lia|]. rewrite Nat.add_0_r. auto.
  - f_equal. apply IH. intros j Hj. rewrite Nat.add_succ_comm. apply H. simpl; lia.
Qed.
Lemma drop_at_nth {A} (d : A) ids n l : drop_at ids n l = map (fun j => nth (j - n) l d) (filter (fun j => negb (existsb (Nat.eqb j) ids)) (seq n (length l))).
Proof.
  revert n. induction l as [|x l IH]; intros n; simpl; auto.
  assert (E : map (fun j => nth (j - S n) l d) (filter (fun j => negb (existsb (Nat.eqb j) ids)) (seq (S n) (length l))) =
              map (fun j => match j - n with 0 => x | S m => nth m l d end) (filter (fun j => negb (existsb (Nat.eqb j) ids)) (seq (S n) (length l)))).
  { apply map_ext_in. intros j Hj. apply filter_In in Hj as [Hj _]. apply in_seq in Hj. replace (j - n) with (S (j - S n)) by lia. auto. }
  destruct (existsb (Nat.eqb n) ids); simpl; rewrite IH, E; auto. rewrite Nat.sub_diag. auto.
Qed.
Lemma kept_filter thr sel n : kept thr sel n = filter (fun j => negb (existsb (Nat.eqb j) (small_ids thr sel))) (seq 0 n).
Proof.
  unfold kept. apply filter_ext. intros j. destruct (existsb (Nat.eqb j) (small_ids thr sel)) eqn:E.
  - apply existsb_in_iff, small_ids_in in E as (x & -> & ->). auto.
  - destruct (nth_error sel j) as [x|] eqn:Ex; auto. destruct (Qcltb (qabs x) thr) eqn:Et; auto.
    exfalso. assert (existsb (Nat.eqb j) (small_ids thr sel) = true); [|congruence]. apply existsb_in_iff, small_ids_in. eauto.
Qed.
Lemma drop_at_kept thr sel (l : list Qc) : drop_at (small_ids thr sel) 0 l = map (fun j => nth j l 0%Qc) (kept thr sel (length l)).
Proof. rewrite (@drop_at_nth _ 0%Qc), kept_filter. apply map_ext. intros j. rewrite Nat.sub_0_r. auto. Qed.
Lemma qdot_maps {A} (f g : A -> Qc) l : qdot (map f l) (map g l) = qsum (map (fun x => f x * g x)%Qc l).
Proof. unfold qdot, qmap2. f_equal. induction l as [|x l IH]; simpl; auto. rewrite IH. auto. Qed.
Lemma length_drop_le {A} ids n (l : list A) : length (drop_at ids n l) <= length l.
Proof. revert n. induction l as [|x l IH]; intros n; simpl; auto. destruct (existsb _ ids); simpl; specialize (IH (S n)); lia. Qed.
Lemma length_drop_in {A} ids n (l : list A) j : j < length l -> In (n + j) ids -> length (drop_at ids n l) < length l.
Proof.
  revert n j. induction l as [|x l IH]; intros n j Hj H; simpl in *; [lia|]. destruct (existsb (Nat.eqb n) ids) eqn:E.
  - pose proof (length_drop_le ids (S n) l). lia.
  - destruct j as [|j]; [rewrite Nat.add_0_r in H; apply existsb_in_iff in H; congruence|].
    simpl. specialize (IH (S n) j). rewrite Nat.add_succ_comm in IH. specialize (IH ltac:(lia) H). lia.
Qed.

(** ** Functions that stay *)
Lemma cfuns_core st os : map core (sub_orbits st) = map core os -> cfuns st = flat_map (fun o => map (fun c => (s_key o, s_basis o, c)) (s_combos o)) os.
Proof.
  unfold cfuns. generalize (sub_orbits st) as a. revert os. 
  induction os as [|o' b IH]; intros [|o a] H; try discriminate; auto. cbn [flat_map map] in *. injection H as Hk Hm Hb Hc H. rewrite (IH _ H). rewrite Hk, Hb, Hc. auto.
Qed.
Lemma strip_cfuns ids os b : (forall n o, nth_error os n = Some o -> s_bit o = b + list_sum (map s_len (firstn n os))) ->
  flat_map (fun o => map (fun c => (s_key o, s_basis o, c)) (s_combos (fst (stripped ids o)))) os =
  drop_at ids b (flat_map (fun o => map (fun c => (s_key o, s_basis o, c)) (s_combos o)) os).
Proof.
  revert b. induction os as [|o os IH]; intros b H; cbn [flat_map]; auto. rewrite drop_at_app, map_length, drop_at_map.
  rewrite (IH (b + s_len o)).
  - unfold stripped. cbn [fst with_combos s_combos]. rewrite (H 0 o eq_refl). simpl. rewrite Nat.add_0_r. auto.
  - intros n o' Hn. rewrite (H (S n) o' Hn). simpl. lia.
Qed.
Lemma remove_cfuns ids st st' : consistent st -> remove_corr ids st = Some st' -> consistent st' /\ cfuns st' = drop_at ids 1 (cfuns st) /\
  forall o', In o' (sub_orbits st') -> exists o, In o (sub_orbits st) /\ s_key o' = s_key o /\ s_mult o' = s_mult o /\ s_basis o' = s_basis o /\ forall c, In c (s_combos o') -> In c (s_combos o).
Proof.
  intros HC E. destruct (remove_corr_spec ids HC) as (st2 & E2 & HC' & _ & Hcore & _). rewrite E in E2. injection E2 as <-. split; auto. split.
  - rewrite (cfuns_core Hcore). unfold cfuns. rewrite <- (strip_cfuns ids (c_bits HC)). unfold stripped. cbn [fst snd with_combos s_combos]. clear. induction (sub_orbits st) as [|o os IH]; simpl; auto.
    destruct (Nat.eqb_spec (length (drop_at ids (s_bit o) (s_combos o))) 0) as [E|E]; simpl; rewrite IH; auto.
    apply length_zero_iff_nil in E. rewrite E. auto.
  - intros o' Ho'. assert (Hc : In (core o') (map core (sub_orbits st'))) by (apply in_map; auto). rewrite Hcore in Hc.
    apply in_map_iff in Hc as (o2 & Ec & Ho2). apply in_map_iff in Ho2 as (o & <- & Ho). apply filter_In in Ho as [Ho _].
    apply core_fields in Ec as (E1 & E2 & E3 & E4 & _). unfold stripped in *. cbn [fst with_combos s_key s_mult s_basis s_combos] in *.
    exists o. split; auto. split; auto. split; auto. split; auto. intros c Hc. rewrite <- E4 in Hc.
    rewrite drop_at_without in Hc. apply in_map_iff in Hc as ([i c'] & <- & Hc). apply filter_In in Hc as [Hc _]. eapply in_combine_r; eauto.
Qed.
Lemma remove_ok sd N tab ids st st' : expansion_ok sd N st (tables_of tab st) -> remove_corr ids st = Some st' -> expansion_ok sd N st' (tables_of tab st').
Proof.
  intros HE E. destruct (remove_cfuns (ex_cons HE) E) as (HC' & _ & Ho). constructor; auto.
  - unfold tables_of. apply map_length.
  - intros o' Ho'. destruct (Ho o' Ho') as (o & H1 & _ & -> & _). apply (ex_mult HE). auto.
  - intros n o' rows Hn Hr. unfold tables_of in Hr. rewrite nth_error_map, Hn in Hr. injection Hr as <-.
    destruct (Ho o' (nth_error_In _ _ Hn)) as (o & H1 & -> & _ & Eb & Hc). destruct (In_nth_error _ _ H1) as (m & Hm).
    assert (Hrm : nth_error (tables_of tab st) m = Some (tab (s_key o))) by (unfold tables_of; rewrite nth_error_map, Hm; auto).
    destruct (ex_orbit HE Hm Hrm) as (dims & Hd & HO & Hne & HR). exists dims. split; auto. split; [|auto].
    constructor; rewrite ?Eb.
    + apply (so_shape HO).
    + apply (so_ne HO).
    + intros cs bits Hcs. apply (so_bits HO). auto.
    + intros cs Hcs. apply (so_combos HO). auto.
Qed.

(** ** The property *)
(** What pruning compares with the threshold. *)
Definition compared (with_mult : bool) (coefs : list Qc) (next : nat) (st : subspace) (sel : list Qc) : Prop :=
  if with_mult then eci (sub_orbits st) coefs next = Some sel else sel = coefs.
(** Neither the constant nor the coefficient of an external term is dropped. *)
Definition keeps_fixed (thr : Qc) (sel : list Qc) (ncorr n : nat) : Prop :=
  In 0 (kept thr sel n) /\ forall j, ncorr <= j < n -> In j (kept thr sel n).

Theorem C56_prune_partial sd N tab st coefs next thr wm sel : expansion_ok sd N st (tables_of tab st) -> length coefs = sub_ncorr st + next ->
  compared wm coefs next st sel -> keeps_fixed thr sel (sub_ncorr st) (length coefs) ->
  exists coefs' st', prune thr wm coefs next st = Some (coefs', st') /\ expansion_ok sd N st' (tables_of tab st') /\
    coefs' = map (fun j => nth j coefs 0%Qc) (kept thr sel (length coefs)) /\ length coefs' = sub_ncorr st' + next /\
    forall size occu ext, codes_ok sd N occu -> length ext = next ->
      exists P P' f f', expansion_proc size st (tables_of tab st) coefs next = Some P /\ ce_features P occu = Some f /\
        expansion_proc size st' (tables_of tab st') coefs' next = Some P' /\ ce_features P' occu = Some f' /\
        f' ++ ext = map (fun j => nth j (f ++ ext) 0%Qc) (kept thr sel (length coefs)) /\
        predict coefs' (f' ++ ext) = Some (qsum (map (fun j => nth j coefs 0 * nth j (f ++ ext) 0)%Qc (kept thr sel (length coefs)))).
Proof.
  intros HE HL Hsel [H0 Hx]. pose proof (ex_cons HE) as HC. set (ids := small_ids thr sel).
  assert (Hki : forall j, In j (kept thr sel (length coefs)) -> ~ In j ids).
  { intros j Hj Hi. rewrite kept_filter in Hj. apply filter_In in Hj as [_ Hj]. apply existsb_in_iff in Hi. fold ids in Hj. rewrite Hi in Hj. discriminate. }
  destruct (remove_corr_spec ids HC) as (st' & Er & _). destruct (remove_cfuns HC Er) as (HC' & Ecf & _). pose proof (remove_ok HE Er) as HE'.
  assert (Hd : forall x (l ext : list Qc), length l = length (cfuns st) -> length ext = next -> drop_at ids 0 (x :: l ++ ext) = x :: drop_at ids 1 l ++ ext).
  { intros x l ext L Le. cbn [drop_at]. destruct (existsb (Nat.eqb 0) ids) eqn:E0; [apply existsb_in_iff in E0; destruct (Hki 0 H0 E0)|].
    f_equal. rewrite drop_at_app. f_equal. apply drop_none. intros j Hj. apply Hki. apply Hx. pose proof (cfuns_len HC). lia. }
  pose proof (cfuns_len HC) as Lc. pose proof (cfuns_len HC') as Lc'.
  set (coefs' := drop_at ids 0 coefs).
  assert (Lco : length coefs' = sub_ncorr st' + next).
  { destruct coefs as [|c0 cs]; [simpl in HL; lia|]. unfold coefs'. simpl in HL.
    rewrite <- (firstn_skipn (length (cfuns st)) cs). rewrite Hd; [|rewrite firstn_length; lia|rewrite skipn_length; lia].
    simpl. rewrite app_length, skipn_length.
    assert (E : length (drop_at ids 1 (firstn (length (cfuns st)) cs)) = length (cfuns st')).
    { rewrite Ecf. rewrite !drop_at_without, !map_length. assert (Lf : length (firstn (length (cfuns st)) cs) = length (cfuns st)) by (rewrite firstn_length; lia).
      rewrite Lf. revert Lf. generalize (firstn (length (cfuns st)) cs) as a. generalize (cfuns st) as b. clear. generalize 1 as n. intros n b. revert n.
      induction b as [|y b IH]; intros n [|x a] L; simpl in *; try discriminate; auto.
      destruct (existsb (Nat.eqb n) ids); simpl; rewrite IH; auto. }
    rewrite E. lia. }
  assert (Ep : prune thr wm coefs next st = Some (coefs', st')).
  { unfold prune. assert (Es : (if wm then eci (sub_orbits st) coefs next else Some coefs) = Some sel) by (unfold compared in Hsel; destruct wm; [auto|subst; auto]).
    rewrite Es. cbn [option_bind]. fold ids. rewrite Er. cbn [option_bind]. fold coefs'.
    destruct (exp_proc 1 HE' Lco) as (P' & e & EP' & _). unfold expansion_proc in EP'. destruct (interaction_tensors (sub_orbits st') coefs' next); [auto|discriminate]. }
  exists coefs', st'. split; auto. split; auto.
  assert (Ecoef : coefs' = map (fun j => nth j coefs 0%Qc) (kept thr sel (length coefs))) by apply drop_at_kept.
  split; auto. split; auto. intros size occu ext HO Le.
  destruct (exp_proc size HE HL) as (P & e & EP & _). destruct (exp_proc size HE' Lco) as (P' & e' & EP' & _).
  pose proof (features_values HE HL HO EP) as Ef. pose proof (features_values HE' Lco HO EP') as Ef'.
  eexists P, P', _, _. split; [exact EP|]. split; [exact Ef|]. split; [exact EP'|]. split; [exact Ef'|].
  assert (Eff : map (fun x => x * Qc_of_nat size)%Qc (1%Qc :: map (cvalue tab occu) (cfuns st')) ++ ext =
    map (fun j => nth j (map (fun x => x * Qc_of_nat size)%Qc (1%Qc :: map (cvalue tab occu) (cfuns st)) ++ ext) 0%Qc) (kept thr sel (length coefs))).
  { set (g := map (fun x => x * Qc_of_nat size)%Qc (1%Qc :: map (cvalue tab occu) (cfuns st)) ++ ext).
    assert (Lg : length g = length coefs) by (unfold g; rewrite app_length; cbn [map length]; rewrite !map_length; lia).
    rewrite <- Lg, <- drop_at_kept. fold ids. unfold g. cbn [map app]. rewrite Hd; auto; [|rewrite !map_length; auto].
    rewrite Ecf. rewrite !drop_at_map. auto. }
  split; auto. rewrite Eff. unfold predict. rewrite Ecoef at 1. rewrite !map_length, Nat.eqb_refl. f_equal. rewrite Ecoef. apply qdot_maps.
Qed.

(** With [with_multiplicity] external terms are never compared with the threshold, and the constant has multiplicity 1. *)
Theorem C56_multiplicity_partial sd N st tables coefs next thr sel c0 : expansion_ok sd N st tables -> length coefs = sub_ncorr st + next ->
  eci (sub_orbits st) coefs next = Some sel -> nth_error coefs 0 = Some c0 -> (thr <= qabs c0)%Qc ->
  compared true coefs next st sel /\ keeps_fixed thr sel (sub_ncorr st) (length coefs).
Proof.
  intros HE HL Es E0 Ht. pose proof (ex_cons HE) as HC. destruct (eci_ok HC (ex_mult HE) HL) as (e & Ee & Le & _). rewrite Es in Ee. injection Ee as <-.
  split; [exact Es|]. pose proof (cfuns_len HC) as Lc. unfold keeps_fixed, kept. split.
  - apply filter_In. split; [apply in_seq; lia|].
    unfold eci in Es. rewrite (total_mults HC) in Es. cbn [option_bind] in Es. rewrite total_mults_len in Es by auto.
    assert (Lf : length (firstn (length coefs - next) coefs) = sub_ncorr st) by (rewrite firstn_length; lia). rewrite Lf, Nat.eqb_refl in Es. injection Es as <-.
    rewrite nth_error_qmap2 with (x := c0) (y := Qc_of_nat 1); [|rewrite nth_error_firstn_lt by lia; auto|reflexivity].
    assert (Ec : (c0 / Qc_of_nat 1)%Qc = c0) by (change (Qc_of_nat 1) with 1%Qc; field; discriminate). rewrite Ec.
    destruct (Qcltb_spec (qabs c0) thr) as [E|E]; auto. exfalso. eapply Qcle_not_lt; eauto.
  - intros j Hj. apply filter_In. split; [apply in_seq; lia|].
    assert (En : nth_error sel j = None) by (apply nth_error_None; lia). rewrite En. auto.
Qed.
(** If the constant or an external term is dropped, pruning raises, or no prediction is possible afterwards. *)
Theorem C56_fixed_dropped_refuted sd N tab st coefs next thr wm sel : expansion_ok sd N st (tables_of tab st) -> length coefs = sub_ncorr st + next ->
  compared wm coefs next st sel -> ~ keeps_fixed thr sel (sub_ncorr st) (length coefs) ->
  match prune thr wm coefs next st with
  | None => True
  | Some (coefs', st') => length coefs' < sub_ncorr st' + next /\ forall corrs, length corrs = sub_ncorr st' + next -> predict coefs' corrs = None
  end.
Proof.
  intros HE HL Hsel Hk. pose proof (ex_cons HE) as HC. set (ids := small_ids thr sel).
  unfold prune. assert (Es : (if wm then eci (sub_orbits st) coefs next else Some coefs) = Some sel) by (unfold compared in Hsel; destruct wm; [auto|subst; auto]).
  rewrite Es. cbn [option_bind]. fold ids. destruct (remove_corr_spec ids HC) as (st' & Er & _). rewrite Er. cbn [option_bind].
  destruct (interaction_tensors (sub_orbits st') (drop_at ids 0 coefs) next); cbn [option_bind]; auto.
  destruct (remove_cfuns HC Er) as (HC' & Ecf & _). pose proof (cfuns_len HC) as Lc. pose proof (cfuns_len HC') as Lc'.
  assert (Hlt : length (drop_at ids 0 coefs) < sub_ncorr st' + next).
  { destruct coefs as [|c0 cs]; [simpl in HL; lia|]. simpl in HL.
    assert (E : drop_at ids 0 (c0 :: cs) = drop_at ids 0 [c0] ++ drop_at ids 1 (firstn (length (cfuns st)) cs) ++ drop_at ids (sub_ncorr st) (skipn (length (cfuns st)) cs)).
    { rewrite <- (firstn_skipn (length (cfuns st)) cs) at 1. change (c0 :: firstn (length (cfuns st)) cs ++ skipn (length (cfuns st)) cs) with ([c0] ++ firstn (length (cfuns st)) cs ++ skipn (length (cfuns st)) cs). rewrite !drop_at_app. cbn [length Nat.add].
      assert (Lf : length (firstn (length (cfuns st)) cs) = length (cfuns st)) by (rewrite firstn_length; lia). rewrite Lf, Lc. auto. }
    rewrite E, !app_length.
    assert (E1 : length (drop_at ids 1 (firstn (length (cfuns st)) cs)) = length (cfuns st')).
    { rewrite Ecf. rewrite !drop_at_without, !map_length. assert (Lf : length (firstn (length (cfuns st)) cs) = length (cfuns st)) by (rewrite firstn_length; lia).
      rewrite Lf. revert Lf. generalize (firstn (length (cfuns st)) cs) as a. generalize (cfuns st) as b. clear. generalize 1 as n. intros n b. revert n.
      induction b as [|y b IH]; intros n [|x a] L; simpl in *; try discriminate; auto.
      destruct (existsb (Nat.eqb n) ids); simpl; rewrite IH; auto. }
    pose proof (length_drop_le ids 0 [c0]) as L0. pose proof (length_drop_le ids (sub_ncorr st) (skipn (length (cfuns st)) cs)) as L2. rewrite skipn_length in L2. cbn [length] in L0.
    destruct (existsb (Nat.eqb 0) ids) eqn:E0.
    - assert (length (drop_at ids 0 [c0]) = 0) by (cbn [drop_at]; rewrite E0; auto). lia.
    - destruct (existsb (fun j => existsb (Nat.eqb j) ids) (seq (sub_ncorr st) next)) eqn:Ex.
      + apply existsb_exists in Ex as (j & Hj & Hi). apply in_seq in Hj. apply existsb_in_iff in Hi.
        assert (Hs : length (drop_at ids (sub_ncorr st) (skipn (length (cfuns st)) cs)) < length (skipn (length (cfuns st)) cs)).
        { apply length_drop_in with (j := j - sub_ncorr st); [rewrite skipn_length; lia|]. replace (sub_ncorr st + (j - sub_ncorr st)) with j by lia. auto. }
        rewrite skipn_length in Hs. lia.
      + exfalso. apply Hk. unfold keeps_fixed. rewrite kept_filter. fold ids. split; [apply filter_In; split; [apply in_seq; simpl; lia|rewrite E0; auto]|].
        intros j Hj. apply filter_In. split; [apply in_seq; simpl in *; lia|]. destruct (existsb (Nat.eqb j) ids) eqn:Ej; auto. exfalso.
        assert (existsb (fun j => existsb (Nat.eqb j) ids) (seq (sub_ncorr st) next) = true); [|congruence]. apply existsb_exists. exists j. split; auto. apply in_seq. simpl in Hj. lia. }
  split; auto. intros corrs Lco. unfold predict. destruct (Nat.eqb_spec (length (drop_at ids 0 coefs)) (length corrs)); auto. lia.
Qed.

(** ** Concrete cases: a point and a pair orbit on ternary sites, one external term *)
Definition ex_tab (k : nat) : ctable := nth k ex_tables [].
Lemma ex_tab_ok : expansion_ok (fun _ => 3) 2 ex_st (tables_of ex_tab ex_st).
Proof. exact ex_expansion_ok. Qed.
Definition ex_pcoefs : list Qc := [Qc_of_Z 2; Qc_of_Z 3; Q2Qc (1 # 10); Q2Qc (1 # 20); Qc_of_Z 1; Qc_of_Z (-4); Qc_of_Z 7].
(** Two functions are dropped; every hypothesis of the theorem holds. *)
Example C56_case : length ex_pcoefs = sub_ncorr ex_st + 1 /\ compared false ex_pcoefs 1 ex_st ex_pcoefs /\
  keeps_fixed (Q2Qc (1 # 2)) ex_pcoefs (sub_ncorr ex_st) (length ex_pcoefs) /\ kept (Q2Qc (1 # 2)) ex_pcoefs 7 = [0; 1; 4; 5; 6] /\
  exists st', prune (Q2Qc (1 # 2)) false ex_pcoefs 1 ex_st = Some ([Qc_of_Z 2; Qc_of_Z 3; Qc_of_Z 1; Qc_of_Z (-4); Qc_of_Z 7], st') /\ sub_ncorr st' = 4.
Proof.
  split; [reflexivity|]. split; [reflexivity|].
  assert (Ek : kept (Q2Qc (1 # 2)) ex_pcoefs 7 = [0; 1; 4; 5; 6]) by (vm_compute; reflexivity).
  split; [|split; [exact Ek|eexists; split; [vm_compute; reflexivity|reflexivity]]].
  split; [change (length ex_pcoefs) with 7; rewrite Ek; simpl; auto|]. intros j Hj. change (length ex_pcoefs) with 7 in *. change (sub_ncorr ex_st) with 6 in Hj. rewrite Ek. simpl. lia.
Qed.
(** A constant of 0 is dropped at any positive threshold: pruning raises. *)
Example C56_constant_raises : prune (Q2Qc (1 # 2)) false (0%Qc :: tl ex_pcoefs) 1 ex_st = None.
Proof. vm_compute. reflexivity. Qed.
(** With a single function left the quotient is broadcast: pruning succeeds and the expansion cannot predict. *)
Definition ex_one : subspace := new_sub [(1, [mkS 0 1 [[[Qc_of_Z (-1); Qc_of_Z 1]]] [[[0]]] 0 0])].
Example C56_constant_broadcast : exists st', prune (Q2Qc (1 # 2)) false [0%Qc; Qc_of_Z 5] 0 ex_one = Some ([Qc_of_Z 5], st') /\ sub_ncorr st' = 2 /\
  predict [Qc_of_Z 5] [1%Qc; 1%Qc] = None.
Proof. eexists. split; [vm_compute; reflexivity|]. split; reflexivity. Qed.

Print Assumptions C56_prune_partial.
Print Assumptions C56_multiplicity_partial.
Print Assumptions C56_fixed_dropped_refuted.
