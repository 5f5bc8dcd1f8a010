(** Proofs about the Wang-Landau kernel. *)
From Verif Require Import WangLandauSpec KernelProofs LibProofs ProbProofs.
From Coq Require Import Qround Qcanon Lia Lqa.
Set Implicit Arguments.
Unset Strict Implicit.
Open Scope nat_scope.

Lemma nth_upd_if {A} (l : list A) i j x d : i < length l -> nth j (upd l i x) d = if j =? i then x else nth j l d.
Proof.
  intros H. destruct (Nat.eqb_spec j i) as [->|Hne].
  - apply nth_error_nth. apply nth_error_upd_eq; auto.
  - destruct (nth_error l j) as [y|] eqn:E.
    + rewrite (nth_error_nth _ _ _ E). apply nth_error_nth. rewrite nth_error_upd_neq; auto.
    + apply nth_error_None in E. rewrite !nth_overflow; auto. rewrite length_upd; auto.
Qed.
Lemma list_sum_upd (l : list nat) i x : nth_error l i = Some x -> list_sum (upd l i (S x)) = S (list_sum l).
Proof.
  revert i. induction l as [|y l IH]; intros [|i] H; simpl in *; try discriminate.
  - injection H as ->. auto.
  - rewrite IH by auto. lia.
Qed.
Lemma list_sum_repeat0 n : list_sum (repeat 0 n) = 0.
Proof. induction n; auto. Qed.

Lemma nth_qvscale k v j : nth j (qvscale k v) 0%Qc = (k * nth j v 0)%Qc.
Proof. unfold qvscale. rewrite <- (map_nth (Qcmult k)). f_equal. ring. Qed.
Lemma nth_qvadd a b j : length a = length b -> nth j (qvadd a b) 0%Qc = (nth j a 0 + nth j b 0)%Qc.
Proof.
  unfold qvadd, qmap2. revert b j. induction a as [|x a IH]; intros [|y b] j H; simpl in *; try discriminate.
  - destruct j; simpl; ring.
  - destruct j; simpl; auto.
Qed.
Lemma length_qvadd a b : length (qvadd a b) = Nat.min (length a) (length b).
Proof. unfold qvadd, qmap2. rewrite map_length, combine_length. auto. Qed.
Lemma length_qvscale k a : length (qvscale k a) = length a.
Proof. apply map_length. Qed.
Lemma qdot_comm a b : qdot a b = qdot b a.
Proof.
  revert b. induction a as [|x a IH]; intros [|y b]; auto. specialize (IH b). unfold qdot, qmap2 in *. simpl. rewrite IH. ring.
Qed.

(** ** Windows and bins *)
Lemma wl_ok_spec C : wl_ok C = true -> (0 < c_bin C)%Qc /\ (c_min C <= c_max C)%Qc /\ (c_bin C < c_max C - c_min C)%Qc /\ (0 < c_mod0 C)%Qc.
Proof.
  unfold wl_ok. rewrite !andb_true_iff, !negb_true_iff. intros [[[H1 H2] H3] H4].
  destruct (Qceqb_spec (c_bin C) 0) as [|N1]; [discriminate|].
  destruct (Qcltb_spec (c_max C) (c_min C)) as [|N2]; [discriminate|].
  destruct (Qcleb_spec ((c_max C - c_min C) / c_bin C) 1) as [|N3]; [discriminate|].
  destruct (Qcleb_spec (c_mod0 C) 0) as [|N4]; [discriminate|].
  apply Qcnot_lt_le in N2. apply Qcnot_le_lt in N3, N4.
  assert (Hb : (0 < c_bin C)%Qc).
  { destruct (Qclt_le_dec 0 (c_bin C)) as [|Hle]; auto. exfalso.
    assert (Hn : (0 < - c_bin C)%Qc).
    { apply Qcle_lt_or_eq in Hle as [Hle|Hle]; [|congruence]. qclra. }
    assert (E : ((c_max C - c_min C) / c_bin C)%Qc = ((- (c_max C - c_min C)) / (- c_bin C))%Qc).
    { field. split; auto. intros E. apply N1. qclra. }
    rewrite E in N3. apply Qcdiv_gt_iff in N3; auto. qclra. }
  split; auto. split; auto. split; auto. apply Qcdiv_gt_iff in N3; auto. qclra.
Qed.

Lemma Qc_of_Z_le' a b : (a <= b)%Z -> (Qc_of_Z a <= Qc_of_Z b)%Qc.
Proof. intros. apply (proj1 (Qc_of_Z_le a b)); auto. Qed.
Lemma this_of_Z z : (this (Qc_of_Z z) == inject_Z z)%Q.
Proof. unfold Qc_of_Z, Q2Qc, this. apply Qred_correct. Qed.
Lemma Qfloor_Qc q z : Qfloor (this q) = z <-> (Qc_of_Z z <= q)%Qc /\ (q < Qc_of_Z (z + 1))%Qc.
Proof.
  unfold Qcle, Qclt. rewrite !this_of_Z. split.
  - intros <-. split; [apply Qfloor_le|apply Qlt_floor].
  - intros [H1 H2].
    assert (z <= Qfloor (this q))%Z.
    { apply Qfloor_resp_le in H1. rewrite Qfloor_Z in H1. auto. }
    assert (Qfloor (this q) < z + 1)%Z.
    { rewrite Zlt_Qlt. eapply Qle_lt_trans; [apply Qfloor_le|auto]. }
    lia.
Qed.

Lemma in_window_spec C e : in_window C e = true <-> (c_min C <= e)%Qc /\ (e < c_max C)%Qc.
Proof.
  unfold in_window. rewrite andb_true_iff. destruct (Qcleb_spec (c_min C) e), (Qcltb_spec e (c_max C)); split; intros []; auto; discriminate.
Qed.
Lemma Qc_of_nat_Z n : Qc_of_nat n = Qc_of_Z (Z.of_nat n).
Proof. reflexivity. Qed.
Lemma bin_spec C e b : (0 < c_bin C)%Qc -> bin_id C e = Z.of_nat b <-> in_bin C b e.
Proof.
  intros Hb. unfold bin_id, in_bin. rewrite Qfloor_Qc. rewrite Qcdiv_ge_iff, Qcdiv_lt_iff by auto.
  replace (Z.of_nat b + 1)%Z with (Z.of_nat (b + 1)) by lia. rewrite <- !Qc_of_nat_Z. split; intros [H1 H2]; split; qclra.
Qed.
Lemma bin_window C e : wl_ok C = true -> in_window C e = true ->
  exists b, bin_id C e = Z.of_nat b /\ b < n_levels C /\ in_bin C b e.
Proof.
  intros Hok Hw. destruct (wl_ok_spec Hok) as (Hb & _ & _ & _). apply in_window_spec in Hw as [H1 H2].
  assert (H0 : (0 <= bin_id C e)%Z).
  { unfold bin_id. assert (Qfloor 0 <= Qfloor (this ((e - c_min C) / c_bin C)%Qc))%Z; [|auto].
    apply Qfloor_resp_le. change 0%Q with (this 0%Qc). apply (proj2 (Qcdiv_ge_iff (e - c_min C) 0 Hb)). qclra. }
  assert (E : bin_id C e = Z.of_nat (Z.to_nat (bin_id C e))) by lia.
  exists (Z.to_nat (bin_id C e)). split; auto. split; [|apply bin_spec; auto].
  unfold n_levels. apply Z2Nat.inj_lt; auto.
  - assert (Hc : (Qceiling (this 0%Qc) <= Qceiling (this ((c_max C - c_min C) / c_bin C)%Qc))%Z); [|exact Hc].
    apply Qceiling_resp_le. apply (proj2 (Qcdiv_ge_iff (c_max C - c_min C) 0 Hb)). assert (c_min C < c_max C)%Qc by (eapply Qcle_lt_trans; eauto). qclra.
  - unfold bin_id. rewrite Zlt_Qlt. eapply Qle_lt_trans; [apply Qfloor_le|]. eapply Qlt_le_trans; [|apply Qle_ceiling].
    apply (proj2 (Qcdiv_lt_iff (e - c_min C) ((c_max C - c_min C) / c_bin C) Hb)).
    replace ((c_max C - c_min C) / c_bin C * c_bin C)%Qc with (c_max C - c_min C)%Qc; [qclra|]. field. intros E0. rewrite E0 in Hb. discriminate.
Qed.
Lemma n_levels_ge2 C : wl_ok C = true -> 2 <= n_levels C.
Proof.
  intros Hok. destruct (wl_ok_spec Hok) as (Hb & Hm & Hw & _).
  destruct (@bin_window C (c_min C + c_bin C)) as (b & E & Hlt & _); auto.
  - apply in_window_spec. split; qclra.
  - assert (b = 1); [|lia]. assert (bin_id C (c_min C + c_bin C) = Z.of_nat 1); [|lia]. apply bin_spec; auto. unfold in_bin.
    assert (E1 : Qc_of_nat 1 = 1%Qc) by reflexivity. assert (E2 : Qc_of_nat (1 + 1) = (1 + 1)%Qc) by (apply Qc_is_canon; reflexivity). rewrite E1, E2. split; qclra.
Qed.

(** ** One step *)
Section Run.
Variables (C : wl_config) (K : mckernel) (Good : list nat -> Prop).
Hypothesis Hok : wl_ok C = true.
Hypothesis Hcheck : 0 < c_check C.
Hypothesis Hupdate : 0 < c_update C.
Hypothesis HK : good_kernel K Good.

Definition tracked (w : wl) := Good (wl_occu w) /\ wl_feat w = k_feat K (wl_occu w) /\ wl_enth w = enthalpy K (wl_occu w).
Definition shaped (w : wl) :=
  length (wl_S w) = n_levels C /\ length (wl_H w) = n_levels C /\ length (wl_O w) = n_levels C /\ length (wl_M w) = n_levels C /\
  (forall b, b < n_levels C -> length (nth b (wl_M w) []) = length (k_params K)).
Definition here (w : wl) := tracked w /\ in_window C (wl_enth w) = true /\ shaped w.

(** The counting part of a step, for the bin [b] of the state after it. *)
Definition hits (w : wl) := S (wl_n w) mod c_update C = 0.
Definition counted_in (w : wl) (b : nat) (w2 : wl) :=
  wl_n w2 = S (wl_n w) /\
  wl_M w2 = upd (wl_M w) b (qvscale (1 / Qc_of_nat (nth b (wl_O w) 0 + 1)) (qvadd (wl_feat w2) (qvscale (Qc_of_nat (nth b (wl_O w) 0)) (nth b (wl_M w) [])))) /\
  (hits w -> wl_S w2 = upd (wl_S w) b (nth b (wl_S w) 0 + wl_m w)%Qc /\ wl_O w2 = upd (wl_O w) b (S (nth b (wl_O w) 0))) /\
  (~ hits w -> wl_S w2 = wl_S w /\ wl_O w2 = wl_O w).
Definition hist_after (w : wl) (b : nat) : list nat :=
  if S (wl_n w) mod c_update C =? 0 then upd (wl_H w) b (S (nth b (wl_H w) 0)) else wl_H w.

Lemma accept_defined w st u : here w -> outcome (k_propose K (wl_occu w)) st -> (0 < u < 1)%R ->
  exists acc, wl_accept C K w st u = Some acc /\
    (acc = true -> in_window C (wl_enth w + d_enth (compute_step_trace K (wl_occu w) st))%Qc = true).
Proof.
  intros (T & W & (Ls & _)) Ho Hu. unfold wl_accept.
  set (e' := (wl_enth w + _)%Qc). destruct HK as (_ & _ & H). destruct T as (TG & _).
  destruct (H _ _ TG Ho) as (_ & _ & r & Hr).
  destruct (Qcltb_spec e' (c_min C)) as [|N1]; simpl; [exists false; split; auto; discriminate|].
  destruct (Qcleb_spec (c_max C) e') as [|N2]; simpl; [exists false; split; auto; discriminate|].
  assert (W' : in_window C e' = true).
  { apply in_window_spec. split; [apply Qcnot_lt_le; auto|apply Qcnot_le_lt; auto]. }
  destruct (bin_window Hok W) as (b & Eb & Hb & _). destruct (bin_window Hok W') as (b' & Eb' & Hb' & _).
  unfold wl_exponent, py_get, py_index. rewrite Eb, Eb', Ls, Hr.
  assert (F : forall k, k < n_levels C -> (0 <=? Z.of_nat k)%Z = true /\ (Z.of_nat k <? Z.of_nat (n_levels C))%Z = true) by (intros k Hk; lia).
  destruct (F b Hb) as [-> ->]. destruct (F b' Hb') as [-> ->]. cbn [option_bind]. rewrite !Nat2Z.id.
  rewrite <- Ls in Hb, Hb'. destruct (nth_error_lt _ Hb) as (x & ->). destruct (nth_error_lt _ Hb') as (y & ->). cbn [option_bind].
  destruct (accept_test_spec (Qc2R (x - y) + r) Hu) as (acc & -> & _). exists acc. split; auto.
Qed.

Lemma moved_here w st : here w -> outcome (k_propose K (wl_occu w)) st ->
  in_window C (wl_enth w + d_enth (compute_step_trace K (wl_occu w) st))%Qc = true -> here (wl_do_accept K w st).
Proof.
  intros ((TG & TF & TE) & W & Sh) Ho W'. destruct HK as (_ & _ & H). destruct (H _ _ TG Ho) as (G' & (Hl & Hf & _) & _).
  split; [|split; auto]. unfold wl_do_accept. split; [exact G'|]. simpl. split.
  - rewrite TF. auto.
  - rewrite TE. unfold enthalpy. rewrite Hf, qdot_qvadd; auto.
Qed.

Lemma count_here w : here w -> exists b w2, b < n_levels C /\ in_bin C b (wl_enth w) /\ wl_count C w = Some w2 /\
  here w2 /\ wl_occu w2 = wl_occu w /\ wl_feat w2 = wl_feat w /\ wl_enth w2 = wl_enth w /\ wl_m w2 = wl_m w /\
  counted_in w b w2 /\ wl_H w2 = hist_after w b.
Proof.
  intros ((TG & TF & TE) & W & (L1 & L2 & L3 & L4 & L5)).
  destruct (bin_window Hok W) as (b & Eb & Hb & Hin). exists b.
  unfold wl_count. rewrite Eb.
  assert (F : (0 <=? Z.of_nat b)%Z = true /\ (Z.of_nat b <? Z.of_nat (n_levels C))%Z = true) by lia.
  destruct F as [-> ->]. cbn [andb]. rewrite Nat2Z.id.
  destruct (@nth_error_lt _ (wl_O w) b) as (t & Et); [lia|]. destruct (@nth_error_lt _ (wl_M w) b) as (mn & Emn); [lia|].
  destruct (@nth_error_lt _ (wl_S w) b) as (s & Es); [lia|]. destruct (@nth_error_lt _ (wl_H w) b) as (h & Eh); [lia|].
  rewrite Et, Emn. cbn [option_bind]. destruct (Nat.eqb_spec (c_update C) 0); [lia|].
  assert (Hmn : length mn = length (k_params K)) by (rewrite <- (nth_error_nth _ _ [] Emn); auto).
  assert (Hfe : length (wl_feat w) = length (k_params K)) by (rewrite TF; apply HK; auto).
  set (M := upd (wl_M w) b _).
  assert (LM : length M = n_levels C) by (unfold M; rewrite length_upd; auto).
  assert (LMb : forall b', b' < n_levels C -> length (nth b' M []) = length (k_params K)).
  { intros b' Hb'. unfold M. rewrite nth_upd_if by lia. destruct (Nat.eqb_spec b' b); auto.
    rewrite length_qvscale, length_qvadd, length_qvscale, Hmn, Hfe. apply Nat.min_id. }
  unfold hist_after, counted_in, hits. destruct (S (wl_n w) mod c_update C =? 0) eqn:Eh2.
  - rewrite Es, Eh. cbn [option_bind]. eexists. split; auto. split; auto. split; [reflexivity|].
    split; [|split; [reflexivity|split; [reflexivity|split; [reflexivity|split; [reflexivity|]]]]].
    + split; [split; auto|]. split; auto. repeat split; simpl; auto; rewrite ?length_upd; auto.
    + simpl. rewrite (nth_error_nth _ _ _ Et), (nth_error_nth _ _ _ Emn), (nth_error_nth _ _ _ Es), (nth_error_nth _ _ _ Eh).
      split; [|reflexivity]. split; [reflexivity|]. split; [reflexivity|]. split; [auto|].
      intros N. apply Nat.eqb_eq in Eh2. contradiction.
  - eexists. split; auto. split; auto. split; [reflexivity|].
    split; [|split; [reflexivity|split; [reflexivity|split; [reflexivity|split; [reflexivity|]]]]].
    + split; [split; auto|]. split; auto. repeat split; simpl; auto.
    + simpl. rewrite (nth_error_nth _ _ _ Et), (nth_error_nth _ _ _ Emn).
      split; [|reflexivity]. split; [reflexivity|]. split; [reflexivity|]. split; [|auto].
      intros E. apply Nat.eqb_neq in Eh2. contradiction.
Qed.

(** Everything about one step. *)
Definition stepped (w : wl) (w2 : wl) :=
  exists b, b < n_levels C /\ in_bin C b (wl_enth w2) /\ counted_in w b w2 /\
    ((wl_H w2 = hist_after w b /\ wl_m w2 = wl_m w /\
       ((wl_n w2 mod c_check C = 0) -> wl_flat C (mkWL (wl_occu w2) (wl_feat w2) (wl_enth w2) (wl_S w2) (hist_after w b) (wl_O w2) (wl_M w2) (wl_n w2) (wl_m w2)) = false)) \/
     (wl_H w2 = repeat 0 (n_levels C) /\ wl_m w2 = c_mod C (wl_m w) /\ wl_n w2 mod c_check C = 0 /\
       wl_flat C (mkWL (wl_occu w2) (wl_feat w2) (wl_enth w2) (wl_S w2) (hist_after w b) (wl_O w2) (wl_M w2) (wl_n w2) (wl_m w)) = true)).

Lemma step_spec w st u : here w -> outcome (k_propose K (wl_occu w)) st -> (0 < u < 1)%R ->
  exists w2, wl_step C K w st u = Some w2 /\ here w2 /\ stepped w w2 /\
    (wl_occu w2 = wl_occu w \/ wl_occu w2 = apply_step (wl_occu w) st).
Proof.
  intros Hh Ho Hu. destruct (accept_defined Hh Ho Hu) as (acc & Ea & Hw). unfold wl_step. rewrite Ea. cbn [option_bind].
  set (w1 := if acc then _ else _).
  assert (H1 : here w1 /\ (wl_occu w1 = wl_occu w \/ wl_occu w1 = apply_step (wl_occu w) st) /\ wl_S w1 = wl_S w /\ wl_H w1 = wl_H w /\
     wl_O w1 = wl_O w /\ wl_M w1 = wl_M w /\ wl_n w1 = wl_n w /\ wl_m w1 = wl_m w).
  { unfold w1. destruct acc; [split; [apply moved_here; auto|]; simpl; auto 10|auto 10]. }
  clearbody w1. destruct H1 as (H1 & Hocc & E1 & E2 & E3 & E4 & E5 & E6).
  destruct (count_here H1) as (b & w2 & Hb & Hin & Ew2 & H2 & F1 & F2 & F3 & F4 & Cn & Hh2). rewrite Ew2. cbn [option_bind].
  assert (Cn' : counted_in w b w2).
  { destruct Cn as (A1 & A2 & A3 & A4). unfold counted_in, hits in *. rewrite <- E1, <- E3, <- E4, <- E5, <- E6. auto. }
  assert (Hh3 : hist_after w1 b = hist_after w b) by (unfold hist_after; rewrite E5, E2; auto).
  unfold wl_check. destruct (Nat.eqb_spec (c_check C) 0); [lia|].
  destruct ((wl_n w2 mod c_check C =? 0) && wl_flat C w2) eqn:Ec.
  - apply andb_true_iff in Ec as [Ec1 Ec2]. apply Nat.eqb_eq in Ec1. eexists. split; [reflexivity|].
    split.
    { destruct H2 as (T2 & W2 & (L1 & L2 & L3 & L4 & L5)). split; auto. split; auto. repeat split; simpl; auto. rewrite repeat_length. auto. }
    split.
    + exists b. simpl. rewrite F3. split; auto. split; auto. split; [exact Cn'|]. right.
      destruct H2 as (_ & _ & (_ & L2 & _)). rewrite L2. split; [reflexivity|]. split; [congruence|]. split; auto.
      rewrite <- Hh3, <- Hh2, <- E6, <- F4. destruct w2; exact Ec2.
    + simpl. rewrite F1. auto.
  - exists w2. split; [reflexivity|]. split; auto. split.
    + exists b. rewrite F3. split; auto. split; auto. split; auto. left. split; [congruence|]. split; [congruence|].
      intros E. apply Nat.eqb_eq in E. rewrite E in Ec. simpl in Ec. rewrite <- Hh3, <- Hh2, <- F3. destruct w2; exact Ec.
    + rewrite F1. auto.
Qed.

Lemma run_here w tr w2 : here w -> wl_run C K w tr w2 -> here w2.
Proof.
  intros Hh R. induction R as [|tr w1 st u w2 R IH Ho Hu E]; auto.
  destruct (step_spec IH Ho Hu) as (w2' & E' & H2 & _). congruence.
Qed.

(** ** Invariants of the counters *)
Definition counters (w : wl) :=
  (0 < wl_m w)%Qc /\
  (forall b, b < n_levels C -> nth b (wl_H w) 0 <= nth b (wl_O w) 0 /\ (0 <= nth b (wl_S w) 0)%Qc /\
     (nth b (wl_S w) 0%Qc = 0%Qc <-> nth b (wl_O w) 0 = 0)) /\
  list_sum (wl_O w) = wl_n w / c_update C.

Lemma div_step n k : 0 < k -> S n / k = n / k + (if S n mod k =? 0 then 1 else 0).
Proof.
  intros Hk. pose proof (Nat.div_mod_eq n k) as E. pose proof (Nat.mod_upper_bound n k) as B.
  destruct (Nat.eq_dec (S (n mod k)) k) as [Ek|Ek].
  - assert (D : S n / k = n / k + 1) by (symmetry; apply Nat.div_unique with 0; nia).
    assert (M : S n mod k = 0) by (symmetry; apply Nat.mod_unique with (n / k + 1); nia).
    rewrite D, M. simpl. lia.
  - assert (D : S n / k = n / k) by (symmetry; apply Nat.div_unique with (S (n mod k)); nia).
    assert (M : S n mod k = S (n mod k)) by (symmetry; apply Nat.mod_unique with (n / k); nia).
    rewrite D, M. simpl. lia.
Qed.

Lemma step_counters w w2 : (forall m, (0 < m)%Qc -> (0 < c_mod C m)%Qc) -> here w -> here w2 -> stepped w w2 -> counters w -> counters w2.
Proof.
  intros Hmod (_ & _ & (L1 & L2 & L3 & _)) (_ & _ & (L1' & L2' & L3' & _)) (b & Hb & _ & (N & _ & Hy & Hn) & Hc) (Hm & Hp & Hs).
  assert (Em : (0 < wl_m w2)%Qc) by (destruct Hc as [(_ & -> & _)|(_ & -> & _)]; auto).
  assert (HH : forall b', b' < n_levels C -> nth b' (wl_H w2) 0 <= nth b' (hist_after w b) 0).
  { intros b' Hb'. destruct Hc as [(-> & _)|(-> & _)]; auto. rewrite nth_repeat. lia. }
  split; auto. destruct (S (wl_n w) mod c_update C =? 0) eqn:E.
  - pose proof E as E2. apply Nat.eqb_eq in E. destruct (Hy E) as [ES EO]. split.
    + intros b' Hb'. specialize (HH b' Hb'). unfold hist_after in HH. rewrite E2 in HH. rewrite nth_upd_if in HH by lia.
      destruct (Hp b' Hb') as (P1 & P2 & P3). rewrite ES, EO, !nth_upd_if by lia.
      destruct (Nat.eqb_spec b' b) as [E3|_]; [subst b'|].
      * split; [lia|]. split; [qclra|]. split; intros X; [|lia]. exfalso.
        assert (0 < nth b (wl_S w) 0 + wl_m w)%Qc by qclra. rewrite X in H. discriminate.
      * split; [lia|auto].
    + rewrite N, EO, div_step, E2 by auto. rewrite list_sum_upd; [lia|].
      destruct (@nth_error_lt _ (wl_O w) b) as (t & Et); [lia|]. rewrite (nth_error_nth _ _ _ Et). auto.
  - pose proof E as E2. apply Nat.eqb_neq in E. destruct (Hn E) as [ES EO]. rewrite ES, EO. split.
    + intros b' Hb'. specialize (HH b' Hb'). unfold hist_after in HH. rewrite E2 in HH.
      destruct (Hp b' Hb') as (P1 & P2 & P3). split; [lia|auto].
    + rewrite N, div_step, E2 by auto. lia.
Qed.

Lemma init_here o : Good o -> in_window C (enthalpy K o) = true -> here (wl_init C K o).
Proof.
  intros G W. unfold wl_init, wl_set_aux. split; [|split].
  - split; [exact G|]. split; simpl; auto. unfold enthalpy. apply qdot_comm.
  - simpl. rewrite qdot_comm. exact W.
  - repeat split; simpl; try apply repeat_length. intros b Hb.
    rewrite (nth_indep _ [] (repeat 0%Qc (length (k_params K)))) by (rewrite repeat_length; auto). rewrite nth_repeat. apply repeat_length.
Qed.
Lemma init_counters o : counters (wl_init C K o).
Proof.
  destruct (wl_ok_spec Hok) as (_ & _ & _ & Hm). split; [exact Hm|]. split.
  - intros b Hb. simpl. rewrite !nth_repeat. split; [lia|]. split; [apply Qcle_refl|tauto].
  - simpl. rewrite list_sum_repeat0. symmetry. apply Nat.div_0_l. lia.
Qed.

Lemma run_counters w tr w2 : (forall m, (0 < m)%Qc -> (0 < c_mod C m)%Qc) -> here w -> counters w ->
  wl_run C K w tr w2 -> counters w2 /\ wl_n w2 = wl_n w + length tr.
Proof.
  intros Hmod Hh Hc R. induction R as [|tr w1 st u w2 R IH Ho Hu E]; [simpl; auto|].
  pose proof (run_here Hh R) as H1. destruct (step_spec H1 Ho Hu) as (w2' & E' & H2 & St & _).
  assert (w2' = w2) by congruence. subst w2'. destruct IH as [IH1 IH2]. split; [apply (@step_counters w1 w2); auto|].
  destruct St as (b & _ & _ & (N & _) & _). cbn [length]. rewrite N, IH2. lia.
Qed.
End Run.
