(** Properties C16, C17, C18 and C67: Wang-Landau sampling. *)
From Verif Require Import WangLandauSpec WangLandauProofs KernelProofs KernelProps LibProofs.
From Coq Require Import Lia Lqa Lra.
Set Implicit Arguments.
Unset Strict Implicit.
Open Scope nat_scope.

(** ** C16 *)
(** Every step of a run from a state in the window is defined; the enthalpy stays in the
    window and in one of the bins, and enthalpy and features are those of the occupancy. *)
Theorem C16_window : forall C K Good o tr w,
  wl_ok C = true -> 0 < c_check C -> 0 < c_update C -> good_kernel K Good ->
  Good o -> in_window C (enthalpy K o) = true -> wl_run C K (wl_init C K o) tr w ->
  (c_min C <= enthalpy K (wl_occu w))%Qc /\ (enthalpy K (wl_occu w) < c_max C)%Qc /\
  (exists b, b < n_levels C /\ in_bin C b (enthalpy K (wl_occu w))) /\
  wl_enth w = enthalpy K (wl_occu w) /\ wl_feat w = k_feat K (wl_occu w) /\ Good (wl_occu w).
Proof.
  intros C K Good o tr w Hok Hc Hu HK G W R.
  destruct (run_here Hok Hc Hu HK (@init_here C K Good o G W) R) as ((TG & TF & TE) & Hw & _).
  rewrite <- TE. pose proof Hw as Hw2. apply in_window_spec in Hw2 as [H1 H2]. split; auto. split; auto.
  destruct (bin_window Hok Hw) as (b & _ & Hb & Hin). split; eauto.
Qed.
Theorem C16_never_raises : forall C K Good o tr w st u,
  wl_ok C = true -> 0 < c_check C -> 0 < c_update C -> good_kernel K Good ->
  Good o -> in_window C (enthalpy K o) = true -> wl_run C K (wl_init C K o) tr w ->
  outcome (k_propose K (wl_occu w)) st -> (0 < u < 1)%R ->
  exists w', wl_step C K w st u = Some w' /\ (wl_occu w' = wl_occu w \/ wl_occu w' = apply_step (wl_occu w) st).
Proof.
  intros C K Good o tr w st u Hok Hc Hu HK G W R Ho Hr.
  destruct (step_spec Hok Hc Hu HK (run_here Hok Hc Hu HK (@init_here C K Good o G W) R) Ho Hr) as (w' & E & _ & _ & H). eauto.
Qed.

(** ** C17 *)
Theorem C17_counters : forall C K Good o tr w,
  wl_ok C = true -> 0 < c_check C -> 0 < c_update C -> good_kernel K Good ->
  (forall m, (0 < m)%Qc -> (0 < c_mod C m)%Qc) ->
  Good o -> in_window C (enthalpy K o) = true -> wl_run C K (wl_init C K o) tr w ->
  length (wl_S w) = n_levels C /\ length (wl_H w) = n_levels C /\ length (wl_O w) = n_levels C /\
  (0 < wl_m w)%Qc /\
  (forall b, b < n_levels C ->
     nth b (wl_H w) 0 <= nth b (wl_O w) 0 /\ (0 <= nth b (wl_S w) 0)%Qc /\
     (nth b (wl_S w) 0%Qc = 0%Qc <-> nth b (wl_O w) 0 = 0)) /\
  list_sum (wl_O w) = length tr / c_update C.
Proof.
  intros C K Good o tr w Hok Hc Hu HK Hm G W R.
  pose proof (@init_here C K Good o G W) as Hi.
  destruct (run_here Hok Hc Hu HK Hi R) as (_ & _ & (L1 & L2 & L3 & _)).
  destruct (run_counters Hok Hc Hu HK Hm Hi (@init_counters C K Hok Hc Hu o) R) as ((P1 & P2 & P3) & N).
  split; auto. split; auto. split; auto. split; auto. split; auto. rewrite P3, N. reflexivity.
Qed.

(** Entropies and occurrences only grow, visited bins stay visited, along any continuation. *)
Theorem C17_monotone : forall C K Good o tr w tr' w',
  wl_ok C = true -> 0 < c_check C -> 0 < c_update C -> good_kernel K Good ->
  (forall m, (0 < m)%Qc -> (0 < c_mod C m)%Qc) ->
  Good o -> in_window C (enthalpy K o) = true ->
  wl_run C K (wl_init C K o) tr w -> wl_run C K w tr' w' ->
  forall b, b < n_levels C ->
    (nth b (wl_S w) 0 <= nth b (wl_S w') 0)%Qc /\ nth b (wl_O w) 0 <= nth b (wl_O w') 0.
Proof.
  intros C K Good o tr w tr' w' Hok Hc Hu HK Hm G W R R' b Hb.
  pose proof (@init_here C K Good o G W) as Hi. pose proof (run_here Hok Hc Hu HK Hi R) as Hh.
  destruct (run_counters Hok Hc Hu HK Hm Hi (@init_counters C K Hok Hc Hu o) R) as (Cw & _).
  induction R' as [|tr' w1 st u w2 R' IH Ho Hr E]; [split; [apply Qcle_refl|auto]|].
  pose proof (run_here Hok Hc Hu HK Hh R') as H1.
  destruct (run_counters Hok Hc Hu HK Hm Hh Cw R') as ((M1 & _) & _).
  destruct (step_spec Hok Hc Hu HK H1 Ho Hr) as (w2' & E' & _ & (b' & Hb' & _ & (_ & _ & Hy & Hn) & _) & _).
  assert (w2' = w2) by congruence. subst w2'. destruct IH as [IH1 IH2].
  destruct H1 as (_ & _ & (L1 & L2 & L3 & _)).
  destruct (Nat.eq_dec (S (wl_n w1) mod c_update C) 0) as [E0|E0].
  - destruct (Hy E0) as [-> ->]. rewrite !nth_upd_if by lia. destruct (Nat.eqb_spec b b') as [E1|_]; auto. subst b'. split; [|lia].
    eapply Qcle_trans; [exact IH1|]. qclra.
  - destruct (Hn E0) as [-> ->]. auto.
Qed.

(** The counting rule of one step of a run, and the flatness rule: the modification factor
    is updated and the histogram reset exactly when the check period is hit and the counts
    of the visited bins are flat. *)
Lemma combine_filter_map (S : list Qc) (H : list nat) n : length S = n -> length H = n ->
  wl_visited S H = map (fun b => nth b H 0) (filter (fun b => Qcltb 0 (nth b S 0%Qc)) (seq 0 n)).
Proof.
  unfold wl_visited. revert H n. induction S as [|s S IH]; intros [|h H] n E1 E2; cbn [length] in *; subst; try discriminate; auto.
  injection E2 as E2. cbn [combine filter seq fst]. rewrite <- seq_shift.
  assert (F : forall l, filter (fun b => Qcltb 0 (nth b (s :: S) 0%Qc)) (map Datatypes.S l) = map Datatypes.S (filter (fun b => Qcltb 0 (nth b S 0%Qc)) l)).
  { induction l as [|a l IHl]; auto. cbn [map filter]. rewrite IHl. change (nth (Datatypes.S a) (s :: S) 0%Qc) with (nth a S 0%Qc).
    destruct (Qcltb 0 (nth a S 0%Qc)); auto. }
  rewrite F. change (nth 0 (s :: S) 0%Qc) with s. destruct (Qcltb 0 s); cbn [map snd]; rewrite (IH H (length S)), map_map by auto; auto.
Qed.
Lemma flat_spec C w : length (wl_S w) = n_levels C -> length (wl_H w) = n_levels C ->
  (wl_flat C w = true <-> flat_counts C (wl_S w) (wl_H w)).
Proof.
  intros L1 L2. unfold wl_flat, flat_counts, visited_bins. rewrite (combine_filter_map L1 L2).
  set (V := filter _ _). rewrite andb_true_iff, map_length, Nat.leb_le, forallb_forall. split; intros [H1 H2]; split; auto.
  - intros b Hb. specialize (H2 (nth b (wl_H w) 0)).
    destruct (Qcltb_spec (c_flat C * (Qc_of_nat (list_sum (map (fun b0 => nth b0 (wl_H w) 0%nat) V)) / Qc_of_nat (length V)))%Qc (Qc_of_nat (nth b (wl_H w) 0))) as [|N]; auto.
    exfalso. assert (X : false = true); [|discriminate]. apply H2. apply in_map_iff. eauto.
  - intros x Hx. apply in_map_iff in Hx as (b & <- & Hb). specialize (H2 b Hb).
    destruct (Qcltb_spec (c_flat C * (Qc_of_nat (list_sum (map (fun b0 => nth b0 (wl_H w) 0%nat) V)) / Qc_of_nat (length V)))%Qc (Qc_of_nat (nth b (wl_H w) 0))) as [|N]; auto.
Qed.

Theorem C17_step : forall C K Good o tr w st u w',
  wl_ok C = true -> 0 < c_check C -> 0 < c_update C -> good_kernel K Good ->
  Good o -> in_window C (enthalpy K o) = true -> wl_run C K (wl_init C K o) tr w ->
  outcome (k_propose K (wl_occu w)) st -> (0 < u < 1)%R -> wl_step C K w st u = Some w' ->
  exists b H1, in_bin C b (enthalpy K (wl_occu w')) /\ length H1 = n_levels C /\
    (forall b', b' < n_levels C ->
       let hit := (b' =? b) && (S (length tr) mod c_update C =? 0) in
       nth b' (wl_S w') 0%Qc = (nth b' (wl_S w) 0 + if hit then wl_m w else 0)%Qc /\
       nth b' (wl_O w') 0 = nth b' (wl_O w) 0 + (if hit then 1 else 0) /\
       nth b' H1 0 = nth b' (wl_H w) 0 + (if hit then 1 else 0)) /\
    (S (length tr) mod c_check C = 0 /\ flat_counts C (wl_S w') H1 /\
       wl_m w' = c_mod C (wl_m w) /\ wl_H w' = repeat 0 (n_levels C)
     \/ ~ (S (length tr) mod c_check C = 0 /\ flat_counts C (wl_S w') H1) /\
       wl_m w' = wl_m w /\ wl_H w' = H1).
Proof.
  intros C K Good o tr w st u w' Hok Hc Hu HK G W R Ho Hr E.
  pose proof (@init_here C K Good o G W) as Hi. pose proof (run_here Hok Hc Hu HK Hi R) as Hh.
  destruct (step_spec Hok Hc Hu HK Hh Ho Hr) as (w2 & E' & H2 & (b & Hb & Hin & (N & _ & Hy & Hn) & Hch) & _).
  assert (w2 = w') by congruence. subst w2.
  assert (Nw : wl_n w = length tr).
  { clear - Hok Hc Hu HK Hi R. induction R as [|tr w1 st u w2 R IH Ho Hr E]; [reflexivity|].
    destruct (step_spec Hok Hc Hu HK (run_here Hok Hc Hu HK Hi R) Ho Hr) as (w3 & E' & _ & (b & _ & _ & (N & _) & _) & _).
    assert (w3 = w2) by congruence. subst w3. cbn [length]. rewrite N, IH. auto. }
  destruct Hh as (_ & _ & (L1 & L2 & L3 & _)). destruct H2 as ((_ & _ & TE') & _ & (L1' & L2' & L3' & _)).
  assert (LH : length (hist_after C w b) = n_levels C) by (unfold hist_after; destruct (_ =? 0); [rewrite length_upd|]; auto).
  exists b, (hist_after C w b). rewrite <- TE'. split; auto. split; auto. split.
  - intros b' Hb'. cbv zeta. rewrite <- Nw. unfold hist_after. destruct (S (wl_n w) mod c_update C =? 0) eqn:Eh.
    + pose proof Eh as Eh2. apply Nat.eqb_eq in Eh. destruct (Hy Eh) as [-> ->]. rewrite !nth_upd_if by lia.
      destruct (Nat.eqb_spec b' b) as [E0|_]; [subst b'|]; simpl; (split; [auto; ring|split; lia]).
    + pose proof Eh as Eh2. apply Nat.eqb_neq in Eh. destruct (Hn Eh) as [-> ->]. rewrite andb_false_r. split; [ring|split; lia].
  - rewrite N, Nw in Hch.
    assert (Fl : forall oc fe en M n m, wl_flat C (mkWL oc fe en (wl_S w') (hist_after C w b) (wl_O w') M n m) = true <-> flat_counts C (wl_S w') (hist_after C w b)).
    { intros. apply (@flat_spec C (mkWL oc fe en (wl_S w') (hist_after C w b) (wl_O w') M n m)); auto. }
    destruct Hch as [(HH & Hm & Hf)|(HH & Hm & Hp & Hf)].
    + right. split; auto. intros [Hp Hf']. specialize (Hf Hp).
      eapply (proj2 (Fl _ _ _ _ _ _)) in Hf'. rewrite Hf in Hf'. discriminate.
    + left. split; auto. split; [eapply (proj1 (Fl _ _ _ _ _ _)); exact Hf|auto].
Qed.

(** ** C18 *)
Lemma in_binb_spec C b e : in_binb C b e = true <-> in_bin C b e.
Proof.
  unfold in_binb, in_bin. rewrite andb_true_iff.
  destruct (Qcleb_spec (c_min C + Qc_of_nat b * c_bin C)%Qc e), (Qcltb_spec e (c_min C + Qc_of_nat (b + 1) * c_bin C)%Qc); split; intros []; auto; discriminate.
Qed.
Lemma in_bin_unique C b b' e : (0 < c_bin C)%Qc -> in_bin C b e -> in_bin C b' e -> b = b'.
Proof. intros H A B. apply bin_spec in A, B; auto. lia. Qed.

(** With an update period of one, the mean features of a bin are the average of the features
    of the states visited in it. *)
Theorem C18_mean_features_partial : forall C K Good o tr w,
  wl_ok C = true -> 0 < c_check C -> c_update C = 1 -> good_kernel K Good ->
  Good o -> in_window C (enthalpy K o) = true -> wl_run C K (wl_init C K o) tr w ->
  forall b, b < n_levels C ->
    let V := filter (fun o' => in_binb C b (enthalpy K o')) tr in
    nth b (wl_O w) 0 = length V /\
    forall j, j < length (k_params K) ->
      (nth j (nth b (wl_M w) []) 0 * Qc_of_nat (length V) = qsum (map (fun o' => nth j (k_feat K o') 0) V))%Qc.
Proof.
  intros C K Good o tr w Hok Hc Hu HK G W R b Hb.
  assert (Hu' : 0 < c_update C) by lia. pose proof (@init_here C K Good o G W) as Hi.
  destruct (wl_ok_spec Hok) as (Hbin & _ & _ & _).
  induction R as [|tr w1 st u w2 R IH Ho Hr E].
  - simpl. rewrite nth_repeat. split; auto. intros j Hj. cbn [map qsum]. rewrite Qc_of_nat_0. ring.
  - pose proof (run_here Hok Hc Hu' HK Hi R) as H1.
    destruct (step_spec Hok Hc Hu' HK H1 Ho Hr) as (w3 & E' & H3 & (b' & Hb' & Hin & (N & EM & Hy & _) & _) & _).
    assert (w3 = w2) by congruence. subst w3.
    assert (Hit : S (wl_n w1) mod c_update C = 0) by (rewrite Hu; apply Nat.mod_1_r). destruct (Hy Hit) as [_ EO].
    destruct H1 as (_ & _ & (L1 & L2 & L3 & L4 & L5)). destruct H3 as ((TG' & TF' & TE') & _ & _).
    cbn [filter]. rewrite <- TE'. destruct IH as [IH1 IH2].
    rewrite EO, EM, !nth_upd_if by lia.
    destruct (Nat.eqb_spec b b') as [E0|Hne].
    + subst b'. rewrite (proj2 (in_binb_spec C b (wl_enth w2)) Hin). cbn [length map qsum]. split; [lia|].
      intros j Hj. specialize (IH2 j Hj). rewrite nth_qvscale, nth_qvadd, nth_qvscale.
      * rewrite IH1. rewrite Nat.add_1_r. rewrite <- IH2. rewrite <- TF'.
        assert (NZ : Qc_of_nat (S (length (filter (fun o' => in_binb C b (enthalpy K o')) tr))) <> 0%Qc) by (apply Qc_of_nat_nz; lia).
        field. auto.
      * rewrite length_qvscale, L5 by auto. rewrite TF'. apply HK; auto.
    + destruct (in_binb C b (wl_enth w2)) eqn:Eb.
      * exfalso. apply Hne. apply in_binb_spec in Eb. eapply in_bin_unique; eauto.
      * auto.
Qed.

(** ** C67: the target distribution *)
(** Probability of moving from [o] to [o'] in one step at fixed entropies. *)
Definition wl_move_prob (C : wl_config) (K : mckernel) (S : list Qc) (o o' : list nat) : R :=
  rsum (map (fun p => match snd p with
     | Some st =>
         if occu_eqb (apply_step o st) o' then
           let e' := (enthalpy K o + d_enth (compute_step_trace K o st))%Qc in
           if in_window C e' then
             match wl_exponent C K S (enthalpy K o) e' o st with
             | Some x => (Qc2R (fst p) * accept_prob x)%R
             | None => 0%R
             end
           else 0%R
         else 0%R
     | None => 0%R
     end) (k_propose K o)).

Definition wl_weight (C : wl_config) (K : mckernel) (S : list Qc) (o : list nat) : R :=
  match py_get S (bin_id C (enthalpy K o)) with Some s => exp (- Qc2R s) | None => 1%R end.

(** The kernel that accepts by the bias [-S(bin)]: outside the window it may do anything. *)
Definition wl_bias_value C K (S : list Qc) (o : list nat) : R :=
  match py_get S (bin_id C (enthalpy K o)) with Some s => (- Qc2R s)%R | None => 0%R end.
Definition biased C (K : mckernel) (S : list Qc) : mckernel :=
  mkKernel (k_params K) (k_feat K) (k_dfeat K)
    (Some (mkBias (wl_bias_value C K S) (fun o st => (wl_bias_value C K S (apply_step o st) - wl_bias_value C K S o)%R)))
    (k_propose K) (k_logp K).

Lemma py_get_window C (S : list Qc) e : wl_ok C = true -> length S = n_levels C -> in_window C e = true ->
  exists s, py_get S (bin_id C e) = Some s.
Proof.
  intros Hok L W. destruct (bin_window Hok W) as (b & Eb & Hb & _). unfold py_get, py_index. rewrite Eb, L.
  assert (F : (0 <=? Z.of_nat b)%Z = true /\ (Z.of_nat b <? Z.of_nat (n_levels C))%Z = true) by lia.
  destruct F as [-> ->]. cbn [option_bind]. rewrite Nat2Z.id. rewrite <- L in Hb. apply nth_error_lt; auto.
Qed.

Theorem C67_detailed_balance : forall C K (Good : list nat -> Prop) S,
  wl_ok C = true -> length S = n_levels C -> good_kernel K Good ->
  (forall o, Good o -> pos_prog (k_propose K o)) ->
  (forall o st r, Good o -> outcome (k_propose K o) st -> k_logp K o st = Some r ->
     (exp r * Qc2R (transition (k_propose K) o (apply_step o st)) = Qc2R (transition (k_propose K) (apply_step o st) o))%R) ->
  forall o o', Good o -> Good o' -> in_window C (enthalpy K o) = true -> in_window C (enthalpy K o') = true ->
    (wl_weight C K S o * wl_move_prob C K S o o' = wl_weight C K S o' * wl_move_prob C K S o' o)%R.
Proof.
  intros C K Good S Hok L HK Hpos Hfac.
  assert (B : forall o o', Good o -> Good o' ->
      (exp (bias_of (biased C K S) o) * move_prob (biased C K S) random_rule o o' =
       exp (bias_of (biased C K S) o') * move_prob (biased C K S) random_rule o' o)%R).
  { apply (@C11_random_balance (biased C K S) Good); auto.
    intros o st Ho Hst. destruct HK as (_ & _ & H). destruct (H o st Ho Hst) as (H1 & (H2 & H3 & _) & r & Hr).
    split; auto. split; [|exists r; split; auto; apply (Hfac o st r); auto].
    split; auto. split; auto. intros b Eb. simpl in Eb. injection Eb as <-. reflexivity. }
  assert (E : forall o o', Good o -> in_window C (enthalpy K o) = true -> in_window C (enthalpy K o') = true ->
     wl_move_prob C K S o o' = move_prob (biased C K S) random_rule o o').
  { intros o o' Ho Ww Ww'. unfold wl_move_prob, move_prob. apply rsum_map_ext. intros [p [st|]] Hin; auto. cbn [snd fst biased k_propose] in *.
    destruct (occu_eqb (apply_step o st) o') eqn:Eo; auto. unfold occu_eqb in Eo. destruct (list_eq_dec _ _ _) as [Eq|]; [|discriminate].
    destruct HK as (_ & _ & H). destruct (H o st Ho) as (_ & (H2 & H3 & _) & r & Hr); [exists p; auto|].
    assert (Ee : (enthalpy K o + d_enth (compute_step_trace K o st))%Qc = enthalpy K (apply_step o st)).
    { unfold enthalpy. rewrite H3, qdot_qvadd; auto. }
    cbv zeta. rewrite Ee, Eq, Ww'. unfold wl_exponent.
    destruct (py_get_window Hok L Ww) as (s & Es). destruct (py_get_window Hok L Ww') as (s' & Es').
    rewrite Es, Es', Hr. cbn [option_bind]. simpl k_logp. rewrite Hr. cbn. unfold random_rule, add_bias. cbn.
    rewrite Eq. unfold wl_bias_value. rewrite Es, Es'. f_equal. f_equal. rewrite Qc2R_minus. lra. }
  assert (Wt : forall o, in_window C (enthalpy K o) = true -> wl_weight C K S o = exp (bias_of (biased C K S) o)).
  { intros o Ww. unfold wl_weight, bias_of. simpl. unfold wl_bias_value. destruct (py_get_window Hok L Ww) as (s & ->). auto. }
  intros o o' Ho Ho' Ww Ww'. rewrite !E, !Wt by auto. apply B; auto.
Qed.

(** ** Concrete cases *)
(** One site with codes 0, 1, 2 and enthalpy equal to the code; window [0, 4), bins of
    size 2, so that codes 0 and 1 share the first bin. *)
Definition wx_kernel : mckernel :=
  mkKernel [1%Qc] (fun o => [Qc_of_nat (nth 0 o 0)])
    (fun o st => qvsub [Qc_of_nat (nth 0 (apply_step o st) 0)] [Qc_of_nat (nth 0 o 0)]) None
    (fun o => uniform [ [(0, 0)]; [(0, 1)]; [(0, 2)] ]) (fun _ _ => Some 0%R).
Definition wx_config (update : nat) : wl_config :=
  mkWLC 0 (Qc_of_nat 4) (Qc_of_nat 2) (Qc_frac 4 5) 1 2 update (fun m => m / Qc_of_nat 2)%Qc.
Example wx_good : good_kernel wx_kernel (fun o => length o = 1) /\ wl_ok (wx_config 2) = true /\ n_levels (wx_config 2) = 2 /\
  in_window (wx_config 2) (enthalpy wx_kernel [0]) = true /\ forall m, (0 < m)%Qc -> (0 < c_mod (wx_config 2) m)%Qc.
Proof.
  split; [|split; [|split; [|split]]]; try (vm_compute; reflexivity).
  - split; auto. split; auto. intros o st Ho Hst. split; [rewrite apply_step_length; auto|]. split; [|exists 0%R; auto].
    split; auto. split.
    + unfold wx_kernel. simpl k_feat. simpl k_dfeat. unfold qvadd, qvsub, qmap2. cbn [combine map fst snd]. f_equal. ring.
    + intros b Eb. discriminate.
  - intros m Hm. simpl. apply Qcdiv_gt_iff; [reflexivity|]. replace (0 * Qc_of_nat 2)%Qc with 0%Qc by ring. auto.
Qed.
Lemma accept_zero_up : forall x u, (0 <= x)%R -> accept_test x u = Some true.
Proof. intros x u H. unfold accept_test. destruct (Rle_dec 0 x); auto. contradiction. Qed.

(** Update period two: two states of the first bin are visited, the reported mean is the
    second one alone. *)
Theorem C18_update_period_refuted : exists tr w,
  wl_run (wx_config 2) wx_kernel (wl_init (wx_config 2) wx_kernel [1]) tr w /\
  tr = [[1]; [0]] /\ nth 0 (nth 0 (wl_M w) []) 0%Qc = 1%Qc /\
  qsum (map (fun o => nth 0 (k_feat wx_kernel o) 0%Qc) tr) = 1%Qc /\ length tr = 2 /\
  Forall (fun o => in_bin (wx_config 2) 0 (enthalpy wx_kernel o)) tr.
Proof.
  assert (St : forall w c, wl_S w = [0%Qc; 0%Qc] -> wl_enth w = Qc_of_nat (nth 0 (wl_occu w) 0) -> length (wl_occu w) = 1 ->
    (nth 0 (wl_occu w) 0 < 2) -> c < 2 ->
    wl_accept (wx_config 2) wx_kernel w [(0, c)] (1 / 2)%R = Some true).
  { intros w c HS HE HL Hn Hc. unfold wl_accept. rewrite HE, HS. destruct (wl_occu w) as [|a [|]]; try discriminate HL. simpl nth in *.
    assert (Ha : a = 0 \/ a = 1) by lia. assert (Hc2 : c = 0 \/ c = 1) by lia.
    unfold wl_exponent.
    assert (X : forall x y, x = 0%Qc -> y = 0%Qc -> accept_test (Qc2R (x - y) + 0) (1 / 2) = Some true).
    { intros x y -> ->. apply accept_zero_up. replace (0 - 0)%Qc with 0%Qc by ring. rewrite Qc2R_0. Lra.lra. }
    destruct Ha as [-> | ->], Hc2 as [-> | ->];
    match goal with |- (if ?c then _ else _) = _ => assert (Hf : c = false) by (vm_compute; reflexivity); rewrite Hf; clear Hf end;
    repeat match goal with |- context [py_get ?l ?i] => let H := fresh in assert (H : py_get l i = Some 0%Qc) by (vm_compute; reflexivity); rewrite H; clear H; cbn [option_bind] end;
    apply X; auto. }
  set (w0 := wl_init (wx_config 2) wx_kernel [1]).
  assert (R0 : exists w1, wl_run (wx_config 2) wx_kernel w0 [wl_occu w1] w1 /\ wl_step (wx_config 2) wx_kernel w0 [(0, 0)] (1/2)%R = Some w1 /\
     wl_occu w1 = [0] /\ wl_S w1 = [0%Qc; 0%Qc] /\ wl_enth w1 = 0%Qc).
  { eexists. assert (Es : wl_step (wx_config 2) wx_kernel w0 [(0, 0)] (1/2)%R = (let? w2 := wl_count (wx_config 2) (wl_do_accept wx_kernel w0 [(0, 0)]) in wl_check (wx_config 2) w2)).
    { unfold wl_step. rewrite St; auto; vm_compute; auto. }
    split; [|split; [rewrite Es; vm_compute; reflexivity|split; [reflexivity|split; [reflexivity|]]]].
    - eapply run_step with (w1 := w0) (st := [(0, 0)]) (u := (1/2)%R); [apply run_start| |Lra.lra|rewrite Es; vm_compute; reflexivity].
      exists (1 / Qc_of_nat 3)%Qc. simpl. auto.
    - apply Qc_is_canon. reflexivity. }
  destruct R0 as (w1 & R1 & E1 & O1 & S1 & N1).
  assert (Es : wl_step (wx_config 2) wx_kernel w1 [(0, 1)] (1/2)%R = (let? w2 := wl_count (wx_config 2) (wl_do_accept wx_kernel w1 [(0, 1)]) in wl_check (wx_config 2) w2)).
  { unfold wl_step. rewrite St; auto; rewrite ?O1; auto. }
  assert (Ew : exists w2, wl_step (wx_config 2) wx_kernel w1 [(0, 1)] (1/2)%R = Some w2 /\ wl_occu w2 = [1] /\ nth 0 (nth 0 (wl_M w2) []) 0%Qc = 1%Qc).
  { unfold wl_step in E1. rewrite St in E1; auto. cbn [option_bind] in E1.
    rewrite Es. clear - E1. destruct w1 as [oc fe en Sx H O M n m].
    assert (X : match (let? w2 := wl_count (wx_config 2) (wl_do_accept wx_kernel w0 [(0, 0)]) in wl_check (wx_config 2) w2) with
      | Some w1 => match (let? w2 := wl_count (wx_config 2) (wl_do_accept wx_kernel w1 [(0, 1)]) in wl_check (wx_config 2) w2) with
                   | Some w2 => wl_occu w2 = [1] /\ Qceqb (nth 0 (nth 0 (wl_M w2) []) 0%Qc) 1%Qc = true
                   | None => False end
      | None => False end) by (vm_compute; auto).
    rewrite E1 in X. destruct (let? w2 := wl_count _ (wl_do_accept _ (mkWL oc fe en Sx H O M n m) _) in wl_check _ w2) as [w2|]; [|contradiction].
    exists w2. destruct X as [X1 X2]. split; auto. split; auto. destruct (Qceqb_spec (nth 0 (nth 0 (wl_M w2) []) 0%Qc) 1%Qc); auto; discriminate. }
  destruct Ew as (w2 & E2 & O2 & M2).
  exists [[1]; [0]], w2. split; [|split; [reflexivity|split; [exact M2|split; [|split; [reflexivity|]]]]].
  - rewrite <- O2, <- O1. eapply run_step; [exact R1| |split|exact E2]; [|Lra.lra|Lra.lra].
    rewrite O1. exists (1 / Qc_of_nat 3)%Qc. simpl. auto.
  - apply Qc_is_canon. reflexivity.
  - repeat constructor; vm_compute; congruence.
Qed.

Print Assumptions C16_window.
Print Assumptions C16_never_raises.
Print Assumptions C17_counters.
Print Assumptions C17_monotone.
Print Assumptions C17_step.
Print Assumptions C18_mean_features_partial.
Print Assumptions C18_update_period_refuted.
Print Assumptions C67_detailed_balance.
