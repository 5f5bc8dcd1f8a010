(** Property C29: the two processors of a cluster expansion compute the same property. *)
From Verif Require Import LibProofs EvaluatorProofs EvaluatorProps SubspaceSpec SubspaceProofs SubspaceProps TensorProofs KernelProofs WangLandauProofs ArrangeProofs.
From Coq Require Import Lia.
Set Implicit Arguments.
Unset Strict Implicit.
Open Scope nat_scope.

(** A subspace on a supercell: consistent ids, orbits with functions, clusters on sites with the right numbers of species. *)
Record expansion_ok (sd : nat -> nat) (N : nat) (st : subspace) (tables : list ctable) : Prop := {
  ex_cons : consistent st;
  ex_len : length tables = length (sub_orbits st);
  ex_mult : forall o, In o (sub_orbits st) -> 0 < s_mult o;
  ex_orbit : forall n o rows, nth_error (sub_orbits st) n = Some o -> nth_error tables n = Some rows ->
    exists dims, dims <> [] /\ sorbit_ok dims o /\ rows <> [] /\ rows_ok sd N dims rows
}.

(** ** Sums *)
Lemma qdot_seq (a b : list Qc) n : length a = n -> length b = n -> qdot a b = qsum (map (fun j => nth j a 0 * nth j b 0)%Qc (seq 0 n)).
Proof.
  revert b n. induction a as [|x a IH]; intros [|y b] [|n] La Lb; simpl in *; try discriminate; auto.
  rewrite <- seq_shift, map_map. unfold qdot, qmap2 in *. cbn [combine map]. unfold qsum in *. cbn [fold_right fst snd]. f_equal. apply IH; lia.
Qed.
Lemma dot_contrib (c : nat -> Qc) ws n : (forall w, In w ws -> fst w < n) ->
  qsum (map (fun j => c j * contrib ws j)%Qc (seq 0 n)) = qsum (map (fun w => c (fst w) * snd w)%Qc ws).
Proof.
  intros H. unfold contrib. rewrite (map_ext _ (fun j => qsum (map (fun w => c j * (if fst w =? j then snd w else 0))%Qc ws))) by (intros j; symmetry; apply qsum_map_scale).
  rewrite qsum_swap. f_equal. apply map_ext_in. intros w Hw. specialize (H w Hw).
  rewrite (@qsum_single _ (seq 0 n) (fun j => c j * (if fst w =? j then snd w else 0))%Qc (fst w) (fst w)).
  - rewrite Nat.eqb_refl. auto.
  - rewrite nth_error_seq. destruct (Nat.ltb_spec (fst w) n); [auto|lia].
  - intros m y Hm Hne. rewrite nth_error_seq in Hm. destruct (m <? n); [|discriminate]. injection Hm as <-.
    simpl. destruct (Nat.eqb_spec (fst w) m) as [Em|]; [congruence|]. ring.
Qed.
Lemma dot_total {Q} (c : nat -> Qc) (c0 : Qc) (f : Q -> list (nat * Qc)) (qs : list Q) n : 0 < n -> (forall q w, In q qs -> In w (f q) -> fst w < n) ->
  qsum (map (fun j => c j * ((if j =? 0 then c0 else 0) + qsum (map (fun q => contrib (f q) j) qs)))%Qc (seq 0 n)) =
  (c 0%nat * c0 + qsum (map (fun q => qsum (map (fun w => c (fst w) * snd w)%Qc (f q))) qs))%Qc.
Proof.
  intros Hn H. rewrite (map_ext _ (fun j => c j * (if j =? 0 then c0 else 0) + qsum (map (fun q => c j * contrib (f q) j) qs))%Qc).
  2:{ intros j. rewrite qsum_map_scale. ring. }
  rewrite qsum_map_add. f_equal.
  - rewrite (@qsum_single _ (seq 0 n) (fun j => c j * (if j =? 0 then c0 else 0))%Qc 0 0); auto.
    + rewrite nth_error_seq. destruct (Nat.ltb_spec 0 n); [auto|lia].
    + intros m y Hm Hne. rewrite nth_error_seq in Hm. destruct (m <? n); [|discriminate]. injection Hm as <-. destruct m; [congruence|]. simpl. ring.
  - rewrite qsum_swap. f_equal. apply map_ext_in. intros q Hq. apply dot_contrib. intros w Hw. eauto.
Qed.
Lemma qdot_scale P a v : qdot a (scale P v) = (qdot a v * Qc_of_nat (p_size P))%Qc.
Proof.
  unfold qdot, qmap2, scale. revert v. induction a as [|x a IH]; intros [|y v]; simpl; try (unfold qsum; simpl; ring).
  unfold qsum in *. cbn [fold_right]. rewrite IH. ring.
Qed.
Lemma qdot_qvsub a x y : length x = length y -> qdot a (qvsub x y) = (qdot a x - qdot a y)%Qc.
Proof.
  unfold qdot, qvsub, qmap2. revert x y. induction a as [|c a IH]; intros [|u x] [|v y] L; simpl in *; try discriminate; try (unfold qsum; simpl; ring).
  unfold qsum in *. cbn [fold_right]. rewrite IH by lia. ring.
Qed.

(** ** Blocks of functions *)
Lemma flat_map_nth {A B} (f : A -> list B) (os : list A) n o k : nth_error os n = Some o -> k < length (f o) ->
  nth_error (flat_map f os) (list_sum (map (fun x => length (f x)) (firstn n os)) + k) = nth_error (f o) k.
Proof.
  revert n. induction os as [|x os IH]; intros [|n] Hn Hk; simpl in *; try discriminate.
  - injection Hn as ->. apply nth_error_app1. auto.
  - rewrite nth_error_app2 by lia. rewrite <- (IH n Hn Hk). f_equal. lia.
Qed.
Lemma total_mults st : consistent st ->
  total_multiplicities (sub_orbits st) = Some (1 :: flat_map (fun o => map (Nat.mul (s_mult o)) (combo_mults o)) (sub_orbits st)).
Proof.
  intros HC. unfold total_multiplicities, function_orbit_ids, orbit_multiplicities. cbn [opt_map nth_error].
  pose proof (c_ids HC) as Hid. revert Hid. generalize (sub_orbits st) as os. clear.
  assert (H : forall os pre, map s_id os = seq (S (length pre)) (length os) ->
    opt_map (nth_error (1 :: pre ++ map s_mult os)) (flat_map (fun o => repeat (s_id o) (s_len o)) os) = Some (flat_map (fun o => repeat (s_mult o) (s_len o)) os)).
  { induction os as [|o os IH]; intros pre H; auto. cbn [flat_map map] in *. injection H as H0 H.
    specialize (IH (pre ++ [s_mult o])). rewrite <- app_assoc in IH. cbn [app] in IH. rewrite app_length in IH. cbn [length] in IH. rewrite Nat.add_1_r in IH. specialize (IH H).
    assert (Ho : nth_error (1 :: pre ++ s_mult o :: map s_mult os) (s_id o) = Some (s_mult o)).
    { rewrite H0. cbn [nth_error]. rewrite nth_error_app2, Nat.sub_diag by lia. auto. }
    induction (s_len o) as [|l IHl]; [exact IH|]. cbn [repeat app opt_map]. rewrite Ho, IHl. auto. }
  intros os Hid. pose proof (H os [] Hid) as E. cbn [app] in E. rewrite E. cbn [option_bind]. f_equal. unfold ordering_multiplicities. cbn [combine map fst snd]. f_equal.
  clear. induction os as [|o os IH]; auto. cbn [flat_map].
  assert (Hc : forall A B (a1 a2 : list A) (b1 b2 : list B), length a1 = length b1 -> combine (a1 ++ a2) (b1 ++ b2) = combine a1 b1 ++ combine a2 b2).
  { clear. induction a1 as [|a a1 IH]; intros a2 [|b b1] b2 L; simpl in *; try discriminate; auto. rewrite IH; auto. }
  rewrite Hc by (unfold combo_mults, s_len; rewrite repeat_length, map_length; auto). rewrite map_app, IH. f_equal. clear.
  unfold combo_mults, s_len. induction (s_combos o) as [|c cs IH]; simpl; auto. rewrite IH. auto.
Qed.
Lemma total_mults_len st : consistent st ->
  length (1 :: flat_map (fun o => map (Nat.mul (s_mult o)) (combo_mults o)) (sub_orbits st)) = sub_ncorr st.
Proof.
  intros HC. rewrite (c_ncorr HC). simpl. f_equal. clear. induction (sub_orbits st) as [|o os IH]; simpl; auto.
  rewrite app_length, IH. unfold combo_mults, s_len. rewrite !map_length. auto.
Qed.
Lemma total_mults_nth st n o k m : consistent st -> nth_error (sub_orbits st) n = Some o -> nth_error (combo_mults o) k = Some m ->
  nth_error (1 :: flat_map (fun o => map (Nat.mul (s_mult o)) (combo_mults o)) (sub_orbits st)) (s_bit o + k) = Some (s_mult o * m).
Proof.
  intros HC Hn Hm. rewrite (c_bits HC n Hn). cbn [Nat.add nth_error].
  assert (Hk : k < length (map (Nat.mul (s_mult o)) (combo_mults o))) by (rewrite map_length; apply nth_error_Some; congruence).
  pose proof (flat_map_nth (f := fun o => map (Nat.mul (s_mult o)) (combo_mults o)) Hn Hk) as E. cbn beta in E.
  rewrite (map_ext _ s_len) in E by (intros x; unfold combo_mults, s_len; rewrite !map_length; auto).
  rewrite E, nth_error_map, Hm. auto.
Qed.
Lemma nth_error_qmap2 (f : Qc -> Qc -> Qc) a b j x y : nth_error a j = Some x -> nth_error b j = Some y -> nth_error (qmap2 f a b) j = Some (f x y).
Proof.
  unfold qmap2. revert b j. induction a as [|u a IH]; intros [|v b] [|j] Hx Hy; simpl in *; try discriminate; [congruence|]. apply IH; auto.
Qed.
Lemma eci_ok st coefs next : consistent st -> (forall o, In o (sub_orbits st) -> 0 < s_mult o) -> length coefs = sub_ncorr st + next ->
  exists e, eci (sub_orbits st) coefs next = Some e /\ length e = sub_ncorr st /\
    forall n o k m, nth_error (sub_orbits st) n = Some o -> nth_error (combo_mults o) k = Some m ->
      nth_error e (s_bit o + k) = Some (nth (s_bit o + k) coefs 0 / (Qc_of_nat (s_mult o) * Qc_of_nat m))%Qc.
Proof.
  intros HC HM HL. unfold eci. rewrite (total_mults HC). cbn [option_bind]. rewrite total_mults_len by auto.
  replace (length coefs - next) with (sub_ncorr st) by lia. assert (Lf : length (firstn (sub_ncorr st) coefs) = sub_ncorr st) by (rewrite firstn_length; lia).
  rewrite Lf, Nat.eqb_refl. eexists. split; [reflexivity|]. split.
  - unfold qmap2. rewrite map_length, combine_length, Lf, map_length, total_mults_len by auto. apply Nat.min_id.
  - intros n o k m Hn Hk. pose proof (total_mults_nth HC Hn Hk) as Em.
    assert (Hj : s_bit o + k < sub_ncorr st).
    { rewrite <- (total_mults_len HC). apply nth_error_Some. rewrite Em. discriminate. }
    rewrite nth_error_qmap2 with (x := nth (s_bit o + k) coefs 0%Qc) (y := Qc_of_nat (s_mult o * m)).
    + rewrite Qc_of_nat_mul. auto.
    + rewrite nth_error_firstn_lt by auto. apply nth_error_nth'. lia.
    + rewrite nth_error_map, Em. auto.
Qed.

(** ** Interaction tensors *)
Lemma nth_qvscale k v j : nth j (qvscale k v) 0%Qc = (k * nth j v 0)%Qc.
Proof. unfold qvscale. revert j. induction v as [|x v IH]; intros [|j]; simpl; auto; try ring. Qed.
Lemma inter_ok dims o e (c : nat -> Qc) ts : sorbit_ok dims o -> 0 < s_mult o -> s_combos o <> [] -> correlation_tensors o = Some ts -> length ts = s_len o ->
  (forall t, In t ts -> length t = nprod dims) ->
  (forall k m, nth_error (combo_mults o) k = Some m -> nth_error e (s_bit o + k) = Some (c k / (Qc_of_nat (s_mult o) * Qc_of_nat m))%Qc) ->
  exists i, interaction_tensor e o = Some i /\ length i = nprod dims /\
    forall j, (Qc_of_nat (s_mult o) * nth j i 0 = qsum (map (fun k => c k * nth j (nth k ts []) 0) (seq 0 (s_len o))))%Qc.
Proof.
  intros HO HM Hne Et Lt Hl He. unfold interaction_tensor. rewrite Et. cbn [option_bind].
  assert (Lm : length (combo_mults o) = s_len o) by (unfold combo_mults, s_len; rewrite map_length; auto).
  set (g := fun p : nat * (nat * list Qc) => qvscale (c (fst p) / Qc_of_nat (s_mult o)) (snd (snd p))).
  assert (Hin : forall p, In p (combine (seq 0 (length ts)) (combine (combo_mults o) ts)) ->
            nth_error (combo_mults o) (fst p) = Some (fst (snd p)) /\ nth_error ts (fst p) = Some (snd (snd p))).
  { intros p Hp. destruct (In_nth_error _ _ Hp) as (j & Hj).
    assert (Hc : forall A B (l : list A) (l' : list B) m x y, nth_error (combine l l') m = Some (x, y) -> nth_error l m = Some x /\ nth_error l' m = Some y).
    { clear. intros A B l. induction l as [|a l IH]; intros [|b l'] [|m] x y E; simpl in *; try discriminate.
      - injection E as -> ->. auto.
      - apply IH; auto. }
    destruct p as [k [m t]]. apply Hc in Hj as [H1 H2]. apply Hc in H2 as [H2 H3]. cbn [fst snd].
    rewrite nth_error_seq in H1. destruct (j <? length ts); [|discriminate]. injection H1 as <-. auto. }
  rewrite opt_map_map with (g := g).
  2:{ intros p Hp. destruct (Hin p Hp) as [H1 H2]. rewrite (He _ _ H1). cbn [option_bind]. unfold g. f_equal. f_equal.
      assert (Hm : fst (snd p) <> 0).
      { apply nth_error_In in H1. unfold combo_mults in H1. apply in_map_iff in H1 as (cs & <- & Hcs). intros E0. apply length_zero_iff_nil in E0. apply (so_combos HO Hcs E0). }
      assert (Hm' : s_mult o <> 0) by lia. pose proof (Qc_of_nat_nz Hm). pose proof (Qc_of_nat_nz Hm'). field. auto. }
  cbn [option_bind]. set (ps := combine (seq 0 (length ts)) (combine (combo_mults o) ts)) in *.
  assert (Lp : length ps = s_len o) by (unfold ps; rewrite !combine_length, seq_length; lia).
  assert (Hgl : forall t, In t (map g ps) -> length t = nprod dims).
  { intros t Ht. apply in_map_iff in Ht as (p & <- & Hp). destruct (Hin p Hp) as [_ H2]. unfold g, qvscale. rewrite map_length. apply Hl. eapply nth_error_In; eauto. }
  assert (Hps : ps <> []) by (intros E0; rewrite E0 in Lp; unfold s_len in Lp; simpl in Lp; symmetry in Lp; apply length_zero_iff_nil in Lp; auto).
  destruct (map g ps) as [|r0 rs] eqn:Eg; [destruct ps; [congruence|discriminate]|]. rewrite <- Eg in *.
  eexists. split; [rewrite Eg; reflexivity|]. rewrite <- Eg.
  assert (Lh : length (hd [] (map g ps)) = nprod dims) by (apply Hgl; rewrite Eg; simpl; auto). rewrite Lh.
  destruct (@qvadd_fold (map g ps) (nprod dims) (repeat (Q2Qc 0) (nprod dims)) (repeat_length _ _) Hgl) as [L V]. split; auto.
  intros j. rewrite V, nth_zeros, Qcplus_0_l, map_map, <- qsum_map_scale. f_equal.
  apply (nth_ext _ _ 0%Qc 0%Qc); [rewrite !map_length, seq_length; auto|].
  intros k Hk. rewrite map_length, Lp in Hk.
  assert (Hkt : k < length ts) by lia. destruct (@nth_error_lt _ ts k Hkt) as [t Ht]. assert (Hkm : k < length (combo_mults o)) by lia. destruct (@nth_error_lt _ (combo_mults o) k Hkm) as [m Hm].
  assert (Hp : nth_error ps k = Some (k, (m, t))).
  { unfold ps. assert (Hc : forall A B (l : list A) (l' : list B) i x y, nth_error l i = Some x -> nth_error l' i = Some y -> nth_error (combine l l') i = Some (x, y)).
    { clear. intros A B l. induction l as [|a l IH]; intros [|b l'] [|m] x y E E'; simpl in *; try discriminate; [congruence|]. apply IH; auto. }
    apply Hc; [|apply Hc; auto]. rewrite nth_error_seq. destruct (Nat.ltb_spec k (length ts)); [auto|lia]. }
  erewrite nth_error_nth by (rewrite nth_error_map, Hp; reflexivity).
  erewrite (nth_error_nth (map _ (seq 0 (s_len o)))) by (rewrite nth_error_map, nth_error_seq; destruct (Nat.ltb_spec k (s_len o)); [reflexivity|lia]).
  cbn [fst snd]. unfold g. cbn [fst snd Nat.add]. rewrite nth_qvscale, (nth_error_nth _ _ _ Ht).
  assert (Hm' : s_mult o <> 0) by lia. pose proof (Qc_of_nat_nz Hm'). unfold Qcdiv.
  transitivity (Qc_of_nat (s_mult o) * / Qc_of_nat (s_mult o) * (c k * nth j t 0))%Qc; [ring|]. rewrite Qcmult_inv_r by auto. ring.
Qed.

(** ** The processor of an expansion *)
Section Exp.
Variables (sd : nat -> nat) (N : nat) (st : subspace) (tables : list ctable) (coefs : list Qc) (next size : nat).
Hypothesis HE : expansion_ok sd N st tables.
Hypothesis HL : length coefs = sub_ncorr st + next.

Definition odata_of (o : sorbit) : orbit := mkOrbit (s_id o) (s_bit o) (match correlation_tensors o with Some ts => ts | None => [] end) (strides_of (s_dims o)).
Definition einter (e : list Qc) (o : sorbit) : list Qc := match interaction_tensor e o with Some i => i | None => [] end.
Lemma exp_orbit o : In o (sub_orbits st) -> exists n dims rows, nth_error (sub_orbits st) n = Some o /\ nth_error tables n = Some rows /\
  dims <> [] /\ sorbit_ok dims o /\ rows <> [] /\ rows_ok sd N dims rows.
Proof.
  intros Ho. destruct (In_nth_error _ _ Ho) as (n & Hn). assert (Hlt : n < length tables) by (rewrite (ex_len HE); apply nth_error_Some; congruence).
  destruct (@nth_error_lt _ tables n Hlt) as [rows Hr]. destruct (ex_orbit HE Hn Hr) as (dims & H). exists n, dims, rows. tauto.
Qed.
Lemma exp_proc : exists P e, expansion_proc size st tables coefs next = Some P /\ eci (sub_orbits st) coefs next = Some e /\
  P = mkProc size (mkEval (map odata_of (sub_orbits st)) (sub_norb st) (sub_ncorr st) (nth 0 coefs 0%Qc) (map (einter e) (sub_orbits st))) tables /\
  forall n o rows, nth_error (sub_orbits st) n = Some o -> nth_error tables n = Some rows ->
    exists dims ts, dims <> [] /\ sorbit_ok dims o /\ rows <> [] /\ rows_ok sd N dims rows /\ s_dims o = dims /\ correlation_tensors o = Some ts /\ length ts = s_len o /\
      (forall t, In t ts -> length t = nprod dims) /\ length (einter e o) = nprod dims /\
      forall j, (Qc_of_nat (s_mult o) * nth j (einter e o) 0 = qsum (map (fun k => nth (s_bit o + k) coefs 0 * nth j (nth k ts []) 0) (seq 0 (s_len o))))%Qc.
Proof.
  pose proof (ex_cons HE) as HC. destruct (eci_ok HC (ex_mult HE) HL) as (e & Ee & Le & Ve).
  assert (Hall : forall n o, nth_error (sub_orbits st) n = Some o -> forall dims, sorbit_ok dims o ->
     exists ts i, s_dims o = dims /\ correlation_tensors o = Some ts /\ length ts = s_len o /\ (forall t, In t ts -> length t = nprod dims) /\ interaction_tensor e o = Some i /\ length i = nprod dims /\
       forall j, (Qc_of_nat (s_mult o) * nth j i 0 = qsum (map (fun k => nth (s_bit o + k) coefs 0 * nth j (nth k ts []) 0) (seq 0 (s_len o))))%Qc).
  { intros n o Hn dims HO. destruct (tensors_ok HO) as (ts & Et & Lt & Ed & Hl & _).
    destruct (@inter_ok dims o e (fun k => nth (s_bit o + k) coefs 0%Qc) ts HO) as (i & Ei & Li & Vi); auto.
    - apply (ex_mult HE). eapply nth_error_In; eauto.
    - apply (c_funs HC). eapply nth_error_In; eauto.
    - intros k m Hm. apply (Ve n); auto.
    - exists ts, i. auto 10. }
  unfold expansion_proc, interaction_tensors. rewrite Ee.
  assert (Hc0 : 0 < length coefs) by (rewrite HL, (c_ncorr HC); lia). rewrite (nth_error_nth' coefs 0%Qc Hc0). cbn [option_bind].
  rewrite opt_map_map with (g := einter e).
  2:{ intros o Ho. destruct (exp_orbit Ho) as (n & dims & rows & Hn & _ & _ & HO & _). destruct (Hall n o Hn dims HO) as (ts & i & _ & _ & _ & _ & Ei & _). unfold einter. rewrite Ei. auto. }
  cbn [option_bind]. rewrite opt_map_map with (g := odata_of).
  2:{ intros o Ho. destruct (exp_orbit Ho) as (n & dims & rows & Hn & _ & Hd & HO & _). destruct (Hall n o Hn dims HO) as (ts & i & Ed & Et & _). unfold orbit_data, odata_of. rewrite Et, Ed. cbn [option_bind].
      rewrite flat_tensor_indices_eq by auto. auto. }
  cbn [option_bind fst snd]. eexists _, e. split; [reflexivity|]. split; auto. split; auto.
  intros n o rows Hn Hr. destruct (ex_orbit HE Hn Hr) as (dims & Hd & HO & Hne & HR). destruct (Hall n o Hn dims HO) as (ts & i & Ed & Et & Lt & Hl & Ei & Li & Vi).
  exists dims, ts. unfold einter. rewrite Ei. auto 15.
Qed.
End Exp.

Lemma bits_seq os b : (forall n o, nth_error os n = Some o -> s_bit o = b + list_sum (map s_len (firstn n os))) ->
  flat_map (fun o => seq (s_bit o) (s_len o)) os = seq b (list_sum (map s_len os)).
Proof.
  revert b. induction os as [|o os IH]; intros b H; auto. cbn [flat_map map]. rewrite (IH (b + s_len o)).
  - pose proof (H 0 o eq_refl) as H0. simpl in H0. rewrite Nat.add_0_r in H0. rewrite H0. change (list_sum (s_len o :: map s_len os)) with (s_len o + list_sum (map s_len os)). rewrite seq_app. auto.
  - intros n o' Hn. rewrite (H (S n) o' Hn). simpl. lia.
Qed.
Lemma exp_proc_ok sd N st tables coefs next size P : expansion_ok sd N st tables -> length coefs = sub_ncorr st + next ->
  expansion_proc size st tables coefs next = Some P -> proc_ok sd N P.
Proof.
  intros HE HL EP. pose proof (ex_cons HE) as HC. destruct (exp_proc size HE HL) as (P' & e & EP' & Ee & -> & Hn).
  rewrite EP in EP'. injection EP' as ->.
  assert (Hrows : forall o, In o (sub_orbits st) -> o_rows (odata_of o) = s_len o).
  { intros o Ho. destruct (exp_orbit HE Ho) as (n & _ & rows & Hno & Hr & _). destruct (Hn n o rows Hno Hr) as (dims & ts & _ & _ & _ & _ & _ & Et & Lt & _).
    unfold o_rows, odata_of. cbn [o_tensors]. rewrite Et. auto. }
  constructor; cbn [p_eval p_tables e_orbits e_inter e_num_corr e_num_orbits].
  - intros n o i rows Ho Hi Hr. rewrite nth_error_map in Ho, Hi. destruct (nth_error (sub_orbits st) n) as [so|] eqn:Es; [|discriminate]. injection Ho as <-. injection Hi as <-.
    destruct (Hn n so rows Es Hr) as (dims & ts & Hd & HO & Hne & HR & Ed & Et & Lt & Hl & Li & _). exists dims. unfold odata_of. cbn [o_strides o_tensors]. rewrite Et, Ed. auto.
  - rewrite !map_length. auto.
  - rewrite map_length. apply (ex_len HE).
  - rewrite flat_map_concat_map, map_map, <- flat_map_concat_map.
    replace (flat_map _ (sub_orbits st)) with (flat_map (fun o => seq (s_bit o) (s_len o)) (sub_orbits st)); [rewrite (@bits_seq _ 1 (c_bits HC)); apply seq_NoDup|].
    rewrite !flat_map_concat_map. f_equal. apply map_ext_in. intros o Ho. rewrite Hrows by auto. auto.
  - intros o k Ho Hk. apply in_map_iff in Ho as (so & <- & Hso). rewrite (Hrows so Hso) in Hk. cbn [odata_of o_bit].
    assert (Hin : In (s_bit so + k) (flat_map (fun o => seq (s_bit o) (s_len o)) (sub_orbits st))) by (apply in_flat_map; exists so; split; auto; apply in_seq; lia).
    rewrite (@bits_seq _ 1 (c_bits HC)) in Hin. apply in_seq in Hin. rewrite (c_ncorr HC). lia.
  - rewrite map_map. cbn [odata_of o_id]. change (fun o => s_id o) with s_id. rewrite (c_ids HC). apply seq_NoDup.
  - intros o Ho. apply in_map_iff in Ho as (so & <- & Hso). cbn [odata_of o_id].
    assert (Hin : In (s_id so) (map s_id (sub_orbits st))) by (apply in_map; auto). rewrite (c_ids HC) in Hin. apply in_seq in Hin. rewrite (c_norb HC). lia.
  - rewrite (c_ncorr HC), (c_norb HC). lia.
Qed.
(** The property from correlations and from interactions. *)
Definition ce_property (coefs f : list Qc) : Qc := qdot coefs f.
Definition cd_property (st : subspace) (f : list Qc) : Qc := qdot (map Qc_of_nat (orbit_multiplicities (sub_orbits st))) f.

Lemma mult_nth st o : consistent st -> In o (sub_orbits st) -> nth (s_id o) (map Qc_of_nat (orbit_multiplicities (sub_orbits st))) 0%Qc = Qc_of_nat (s_mult o).
Proof.
  intros HC Ho. destruct (In_nth_error _ _ Ho) as (n & Hn).
  assert (Ei : s_id o = S n).
  { assert (E : nth_error (map s_id (sub_orbits st)) n = Some (s_id o)) by (rewrite nth_error_map, Hn; auto). rewrite (c_ids HC), nth_error_seq in E.
    destruct (n <? length (sub_orbits st)); [|discriminate]. injection E as <-. auto. }
  rewrite Ei. apply nth_error_nth. unfold orbit_multiplicities. cbn [map nth_error]. rewrite !nth_error_map, Hn. auto.
Qed.
Theorem C29_property sd N st tables coefs next size occu : expansion_ok sd N st tables -> length coefs = sub_ncorr st + next -> codes_ok sd N occu ->
  exists P f g, expansion_proc size st tables coefs next = Some P /\ proc_ok sd N P /\ p_size P = size /\ p_tables P = tables /\
    ce_features P occu = Some f /\ cd_features P occu = Some g /\ length f = sub_ncorr st /\ length g = sub_norb st /\
    ce_property (firstn (sub_ncorr st) coefs) f = cd_property st g.
Proof.
  intros HE HL HO. pose proof (ex_cons HE) as HC. destruct (exp_proc size HE HL) as (P & e & EP & Ee & EqP & Hn). pose proof (exp_proc_ok HE HL EP) as HP.
  destruct (correlations_total HP HO) as (v & Ev & Lv & Vv). destruct (interactions_total HP HO) as (w & Ew & Lw & Vw).
  assert (En : e_num_corr (p_eval P) = sub_ncorr st /\ e_num_orbits (p_eval P) = sub_norb st /\ p_size P = size /\ p_tables P = tables) by (rewrite EqP; auto).
  destruct En as (En1 & En2 & En3 & En4).
  exists P, (scale P v), (scale P w). unfold ce_features, cd_features. rewrite Ev, Ew. cbn [option_bind].
  assert (Ls : length (scale P v) = sub_ncorr st /\ length (scale P w) = sub_norb st) by (unfold scale; rewrite !map_length; split; congruence).
  destruct Ls as [Ls1 Ls2]. do 8 (split; auto). unfold ce_property, cd_property. rewrite !qdot_scale. f_equal.
  rewrite (qdot_seq (n := sub_ncorr st)) by (rewrite ?firstn_length; lia).
  rewrite (qdot_seq (n := sub_norb st)) by (rewrite ?map_length; unfold orbit_multiplicities; simpl; rewrite ?map_length; rewrite ?(c_norb HC); try lia; rewrite Lw, En2, (c_norb HC); auto).
  assert (Hcn : forall j, j < sub_ncorr st -> nth j (firstn (sub_ncorr st) coefs) 0%Qc = nth j coefs 0%Qc).
  { intros j Hj. assert (Hj' : j < length coefs) by lia. destruct (@nth_error_lt _ coefs j Hj') as [x Hx]. rewrite (nth_error_nth coefs j 0%Qc Hx). apply nth_error_nth. rewrite nth_error_firstn_lt; auto. }
  rewrite (map_ext_in _ (fun j => nth j coefs 0 * ((if j =? 0 then 1 else 0) + qsum (map (fun q => contrib (cw occu q) j) (odata P))))%Qc).
  2:{ intros j Hj. apply in_seq in Hj. rewrite Hcn by lia. rewrite Vv. auto. }
  rewrite (map_ext_in _ (fun j => nth j (map Qc_of_nat (orbit_multiplicities (sub_orbits st))) 0 * ((if j =? 0 then e_offset (p_eval P) else 0) + qsum (map (fun q => contrib (iw occu q) j) (odata P))))%Qc (seq 0 (sub_norb st))).
  2:{ intros j Hj. rewrite Vw. auto. }
  assert (Hq : forall q, In q (odata P) -> exists n so rows, nth_error (sub_orbits st) n = Some so /\ nth_error tables n = Some rows /\ q = (odata_of so, einter e so, rows)).
  { intros q Hq. destruct (In_nth_error _ _ Hq) as (n & Hqn). unfold odata in Hqn. rewrite EqP in Hqn. cbn [p_eval p_tables e_orbits e_inter] in Hqn.
    assert (Hc : forall A B (l : list A) (l' : list B) m x y, nth_error (combine l l') m = Some (x, y) -> nth_error l m = Some x /\ nth_error l' m = Some y).
    { clear. intros A B l. induction l as [|a l IH]; intros [|b l'] [|m] x y E; simpl in *; try discriminate.
      - injection E as -> ->. auto.
      - apply IH; auto. }
    destruct q as [[o i] rows]. apply Hc in Hqn as [H1 H2]. apply Hc in H1 as [H0 H1]. rewrite nth_error_map in H0, H1. destruct (nth_error (sub_orbits st) n) as [so|] eqn:Es; [|discriminate].
    injection H0 as <-. injection H1 as <-. exists n, so, rows. auto. }
  rewrite (@dot_total _ (fun j => nth j coefs 0%Qc) 1%Qc (cw occu) (odata P)).
  2:{ rewrite (c_ncorr HC). lia. }
  2:{ intros q x Hqi Hx. unfold cw in Hx. apply in_map_iff in Hx as (k & <- & Hk). apply in_seq in Hk. cbn [fst].
      rewrite <- En1. apply (ok_bits_in HP); [|lia]. rewrite <- (odata_orbits HP). apply (in_map (fun q => fst (fst q))). auto. }
  rewrite (@dot_total _ (fun j => nth j (map Qc_of_nat (orbit_multiplicities (sub_orbits st))) 0%Qc) (e_offset (p_eval P)) (iw occu) (odata P)).
  2:{ rewrite (c_norb HC). lia. }
  2:{ intros q x Hqi [<-|[]]. cbn [fst]. rewrite <- En2. apply (ok_ids_in HP). rewrite <- (odata_orbits HP). apply (in_map (fun q => fst (fst q))). auto. }
  f_equal.
  - rewrite EqP. cbn [p_eval e_offset]. unfold orbit_multiplicities. cbn [map nth]. rewrite Qcmult_comm. f_equal.
  - f_equal. apply map_ext_in. intros q Hqi. destruct (Hq q Hqi) as (n & so & rows & Hs & Hr & ->).
    destruct (Hn n so rows Hs Hr) as (dims & ts & Hd & HOs & Hne & HR & Ed & Et & Lt & Hl & Li & Vi).
    assert (Hrow : o_rows (odata_of so) = s_len so) by (unfold o_rows, odata_of; cbn [o_tensors]; rewrite Et; auto).
    unfold cw, iw. cbn [fst snd map]. rewrite map_map. cbn [fst snd odata_of o_bit o_id]. change (o_rows _) with (o_rows (odata_of so)). rewrite Hrow.
    rewrite mult_nth by (auto; eapply nth_error_In; eauto). unfold imean, csum. change (o_strides (odata_of so)) with (strides_of (s_dims so)).
    assert (Es : qsum [(Qc_of_nat (s_mult so) * (qsum (map (fun row => nth (0 + fidx (strides_of (s_dims so)) occu row) (einter e so) 0%Qc) rows) / Qc_of_nat (length rows)))%Qc] =
      (qsum (map (fun row => Qc_of_nat (s_mult so) * nth (fidx (strides_of (s_dims so)) occu row) (einter e so) 0)%Qc rows) / Qc_of_nat (length rows))%Qc).
    { rewrite qsum_map_scale. unfold qsum at 1. cbn [fold_right Nat.add]. unfold Qcdiv. ring. }
    rewrite Es. rewrite (map_ext _ (fun row => qsum (map (fun k => nth (s_bit so + k) coefs 0 * nth (fidx (strides_of (s_dims so)) occu row) (nth k ts []) 0) (seq 0 (s_len so))))%Qc) by (intros; apply Vi).
    rewrite qsum_swap. unfold Qcdiv. rewrite <- qsum_map_scale_r. f_equal. apply map_ext_in. intros k Hk. apply in_seq in Hk.
    rewrite qsum_map_scale. unfold tmean, csum. cbn [odata_of o_tensors o_strides]. rewrite Et, Ed.
    rewrite (map_ext_in _ (fun row => nth (fidx (strides_of dims) occu row) (nth k ts []) 0%Qc)).
    + unfold Qcdiv. ring.
    + intros row Hrowi. destruct (HR row Hrowi) as [E1 E2]. destruct (flat_index_total HO E1 E2) as [_ B].
      rewrite (@cols_eq (odata_of so) (nprod dims)); [|unfold odata_of; cbn [o_tensors]; rewrite Et; auto|lia].
      apply nth_concat_block; auto; lia.
Qed.
Theorem C29_change sd N st tables coefs next size occu flips P : expansion_ok sd N st tables -> length coefs = sub_ncorr st + next -> codes_ok sd N occu ->
  expansion_proc size st tables coefs next = Some P -> flips_ok sd N P flips ->
  exists df dg, ce_change P occu flips = Some df /\ cd_change P occu flips = Some dg /\
    ce_property (firstn (sub_ncorr st) coefs) df = cd_property st dg.
Proof.
  intros HE HL HO EP HF.
  destruct (C29_property size HE HL HO) as (P0 & f & g & EP0 & HP & _ & _ & Ef & Eg & Lf & Lg & E). rewrite EP in EP0. injection EP0 as <-.
  destruct (ce_loop HP HO HF (repeat_length (Q2Qc 0) (e_num_corr (p_eval P)))) as (HO' & _).
  destruct (C29_property size HE HL HO') as (P0 & f' & g' & EP0 & _ & _ & _ & Ef' & Eg' & Lf' & Lg' & E'). rewrite EP in EP0. injection EP0 as <-.
  destruct (C26_change HP HO HF) as (b & a & Eb & Ea & Ec). destruct (C27_change HP HO HF) as (b2 & a2 & Eb2 & Ea2 & Ec2).
  rewrite Ef in Eb. injection Eb as <-. rewrite Ef' in Ea. injection Ea as <-. rewrite Eg in Eb2. injection Eb2 as <-. rewrite Eg' in Ea2. injection Ea2 as <-.
  exists (qvsub f' f), (qvsub g' g). split; auto. split; auto. unfold ce_property, cd_property in *. rewrite !qdot_qvsub by congruence. rewrite E, E'. auto.
Qed.

(** ** A concrete case: a point and a pair orbit on ternary sites *)
Definition ex_funs : list (list Qc) := [[Qc_of_Z (-1); Qc_of_Z 0; Qc_of_Z 1]; [Qc_of_Z 1; Qc_of_Z (-2); Qc_of_Z 1]].
Definition ex_st : subspace :=
  new_sub [(1, [mkS 0 1 [ex_funs] [[[0]]; [[1]]] 0 0]); (2, [mkS 1 3 [ex_funs; ex_funs] [[[0; 0]]; [[0; 1]; [1; 0]]; [[1; 1]]] 0 0])].
Definition ex_tables : list ctable := [[[0]; [1]]; [[0; 1]; [1; 0]]].
Definition ex_coefs : list Qc := map Qc_of_Z [5; 2; -3; 4; 7; 1; 11]%Z.
Example ex_expansion_ok : expansion_ok (fun _ => 3) 2 ex_st ex_tables.
Proof.
  constructor; [|reflexivity| |].
  - apply (reset_consistent [] (items := [(1, [mkS 0 1 [ex_funs] [[[0]]; [[1]]] 0 0]); (2, [mkS 1 3 [ex_funs; ex_funs] [[[0; 0]]; [[0; 1]; [1; 0]]; [[1; 1]]] 0 0])])).
    intros kv o H1 H2. ex_in H1; ex_in H2; discriminate.
  - intros o H. ex_in H; simpl; lia.
  - intros [|[|[|n]]] o rows; simpl; try discriminate; intros [= <-] [= <-].
    + exists [3]. split; [discriminate|]. split; [|split; [discriminate|]].
      * constructor; simpl.
        { repeat constructor. intros r H; ex_in H; reflexivity. }
        { intros B H; ex_in H; discriminate. }
        { intros cs bits H1 H2; ex_in H1; ex_in H2; repeat constructor. }
        { intros cs H1; ex_in H1; discriminate. }
      * intros row H; ex_in H; (split; [reflexivity|]); intros s H'; ex_in H'; lia.
    + exists [3; 3]. split; [discriminate|]. split; [|split; [discriminate|]].
      * constructor; simpl.
        { repeat constructor; intros r H; ex_in H; reflexivity. }
        { intros B H; ex_in H; discriminate. }
        { intros cs bits H1 H2; ex_in H1; ex_in H2; repeat constructor. }
        { intros cs H1; ex_in H1; discriminate. }
      * intros row H; ex_in H; (split; [reflexivity|]); intros s H'; ex_in H'; lia.
Qed.
Example ex_exp_codes : length ex_coefs = sub_ncorr ex_st + 1 /\ codes_ok (fun _ => 3) 2 [0; 2].
Proof. split; [reflexivity|]. split; auto. intros [|[|[|s]]] c E; simpl in E; try discriminate; injection E as <-; lia. Qed.
Example C29_case : exists P f g df dg, expansion_proc 2 ex_st ex_tables ex_coefs 1 = Some P /\ ce_features P [0; 2] = Some f /\ cd_features P [0; 2] = Some g /\
  this (ce_property (firstn 6 ex_coefs) f) = (-2)%Q /\ this (cd_property ex_st g) = (-2)%Q /\
  flips_ok (fun _ => 3) 2 P [(1, 1)] /\ ce_change P [0; 2] [(1, 1)] = Some df /\ cd_change P [0; 2] [(1, 1)] = Some dg /\
  this (ce_property (firstn 6 ex_coefs) df) = 23%Q /\ this (cd_property ex_st dg) = 23%Q.
Proof.
  eexists _, _, _, _, _. split; [vm_compute; reflexivity|]. split; [vm_compute; reflexivity|]. split; [vm_compute; reflexivity|]. split; [vm_compute; reflexivity|]. split; [vm_compute; reflexivity|].
  split; [|split; [vm_compute; reflexivity|]; split; [vm_compute; reflexivity|]; split; vm_compute; reflexivity].
  intros s c [[= <- <-]|[]]. split; [lia|]. split; [lia|]. exists [[0]; [1]], [1]. simpl; auto.
Qed.

Print Assumptions C29_property.
Print Assumptions C29_change.
