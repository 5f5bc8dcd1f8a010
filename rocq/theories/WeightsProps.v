(** C75: Boltzmann weights of training structures. *)
From Verif Require Export Weights DuplicatesProps.
Set Implicit Arguments.
Unset Strict Implicit.
Local Open Scope R_scope.

Lemma nth_boltzmann kB t es i : (i < length es)%nat -> nth i (boltzmann kB t es) 0 = exp (- Qc2R (nth i es 0%Qc) / (kB * t)).
Proof. intros H. unfold boltzmann. rewrite (nth_indep _ 0 (exp (- Qc2R 0%Qc / (kB * t)))) by (rewrite map_length; auto). apply (map_nth (fun e => exp (- Qc2R e / (kB * t)))). Qed.
Lemma exp_scaled_le a b s : 0 < s -> (exp (- a / s) <= exp (- b / s) <-> b <= a).
Proof.
  intros H. assert (K : forall x y, - x / s <= - y / s <-> y <= x).
  { intros x y. unfold Rdiv. split; intros L; [|apply Rmult_le_compat_r; [apply Rlt_le, Rinv_0_lt_compat, H|lra]].
    apply Rmult_le_reg_r in L; [lra|apply Rinv_0_lt_compat, H]. }
  rewrite <- (K a b). split; intros L.
  - apply Rnot_lt_le. intros L2. pose proof (exp_increasing _ _ L2). lra.
  - destruct L as [L|E]; [apply Rlt_le, exp_increasing, L|rewrite E; lra].
Qed.

(** Every weight is in (0, 1], it is one exactly for the structures of lowest energy per site of their composition, a
    structure weighs at most as much as another of its composition iff its energy per site is at least that of the other,
    and the ratio of two weights of a composition is the Boltzmann factor of the energy difference. *)
Theorem C75_weights : forall kB t energies sizes comps, 0 < kB -> 0 < t -> length energies = length sizes -> length energies = length comps ->
  let per := map (fun p => fst p / Qc_of_nat (snd p))%Qc (combine energies sizes) in
  let ws := weights_above_composition kB t energies sizes comps in
  length ws = length energies /\
  (forall i, (i < length energies)%nat -> 0 < nth i ws 0 <= 1 /\ (nth i ws 0 = 1 <-> lowest per comps i)) /\
  forall i j, (i < length energies)%nat -> (j < length energies)%nat -> nth i comps 0%nat = nth j comps 0%nat ->
    (nth i ws 0 <= nth j ws 0 <-> (nth j per 0 <= nth i per 0)%Qc) /\
    nth i ws 0 = nth j ws 0 * exp (- (Qc2R (nth i per 0%Qc) - Qc2R (nth j per 0%Qc)) / (kB * t)).
Proof.
  intros kB t energies sizes comps HB HT H1 H2 per ws. destruct (C49_above H1 H2) as [L H]. fold per in H. unfold ws, weights_above_composition.
  assert (HP : 0 < kB * t) by (apply Rmult_lt_0_compat; auto). split; [unfold boltzmann; rewrite map_length; auto|]. split.
  - intros i Hi. rewrite nth_boltzmann by lia. destruct (H i Hi) as (P & Z & _). assert (E1 : 1 = exp (- 0 / (kB * t))) by (unfold Rdiv; rewrite Ropp_0, Rmult_0_l, exp_0; auto).
    assert (P' : 0 <= Qc2R (nth i (energies_above energies sizes comps) 0%Qc)) by (apply Qc2R_nonneg, P). split; [split; [apply exp_pos|]|].
    + rewrite E1. apply exp_scaled_le; auto.
    + rewrite <- Z, E1. split; intros E.
      * apply Qc2R_inj. rewrite Qc2R_0. apply Rle_antisym; auto. apply (exp_scaled_le 0 (Qc2R (nth i (energies_above energies sizes comps) 0%Qc)) HP). rewrite E. lra.
      * rewrite E, Qc2R_0. auto.
  - intros i j Hi Hj EC. rewrite !nth_boltzmann by lia. destruct (H i Hi) as (_ & _ & a & La & Ca & Ea). destruct (H j Hj) as (_ & _ & b & Lb & Cb & Eb).
    assert (Em : nth a per 0%Qc = nth b per 0%Qc).
    { destruct La as [La1 La2], Lb as [Lb1 Lb2]. apply Qcle_antisym; [apply La2|apply Lb2]; auto; congruence. }
    rewrite Ea, Eb, Em, !Qc2R_minus. split.
    + rewrite exp_scaled_le by auto. rewrite Qc2R_le. lra.
    + rewrite <- exp_plus. f_equal. unfold Rdiv. lra.
Qed.

(** Two structures of one composition and one of another. *)
Example C75_case : let ws := weights_above_composition 1 1 [Q2Qc 4; Q2Qc 4; Q2Qc 7] [2; 1; 1]%nat [0; 0; 5]%nat in
  ws = [exp (- 0 / (1 * 1)); exp (- 2 / (1 * 1)); exp (- 0 / (1 * 1))].
Proof.
  intros ws. unfold ws, weights_above_composition.
  assert (E : energies_above [Q2Qc 4; Q2Qc 4; Q2Qc 7] [2; 1; 1]%nat [0; 0; 5]%nat = [Q2Qc 0; Q2Qc 2; Q2Qc 0]) by (vm_compute; repeat f_equal; apply Qc_is_canon; reflexivity).
  rewrite E. cbn [boltzmann map]. change (Qc2R (Q2Qc 0)) with (Qc2R 0%Qc). rewrite Qc2R_0. replace (Qc2R (Q2Qc 2)) with 2; auto.
  unfold Qc2R, Q2R. simpl. lra.
Qed.
Print Assumptions C75_weights.
