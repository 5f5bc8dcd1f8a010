(** Rational numbers as real numbers. *)
From Verif Require Export QcLib.
From Coq Require Export Reals Qreals Lra.
Set Implicit Arguments.
Unset Strict Implicit.

Definition Qc2R (q : Qc) : R := Q2R (this q).

Lemma Qc2R_eqv q r : (this q == r)%Q -> Qc2R q = Q2R r.
Proof. apply Qeq_eqR. Qed.
Lemma Qc2R_0 : Qc2R 0 = 0%R.
Proof. unfold Qc2R, Q2R. simpl. lra. Qed.
Lemma Qc2R_1 : Qc2R 1 = 1%R.
Proof. unfold Qc2R, Q2R. simpl. lra. Qed.
Lemma Qc2R_plus a b : Qc2R (a + b) = (Qc2R a + Qc2R b)%R.
Proof. unfold Qc2R. rewrite <- Q2R_plus. apply Qeq_eqR. apply Qred_correct. Qed.
Lemma Qc2R_mult a b : Qc2R (a * b) = (Qc2R a * Qc2R b)%R.
Proof. unfold Qc2R. rewrite <- Q2R_mult. apply Qeq_eqR. apply Qred_correct. Qed.
Lemma Qc2R_opp a : Qc2R (- a) = (- Qc2R a)%R.
Proof. unfold Qc2R. rewrite <- Q2R_opp. apply Qeq_eqR. apply Qred_correct. Qed.
Lemma Qc2R_minus a b : Qc2R (a - b) = (Qc2R a - Qc2R b)%R.
Proof. unfold Qcminus. rewrite Qc2R_plus, Qc2R_opp. lra. Qed.
Lemma Qc2R_inj a b : Qc2R a = Qc2R b -> a = b.
Proof. intros H. apply Qc_is_canon. apply eqR_Qeq; auto. Qed.
Lemma Qc2R_nz a : a <> 0%Qc -> Qc2R a <> 0%R.
Proof. intros H E. apply H, Qc2R_inj. rewrite E, Qc2R_0. auto. Qed.
Lemma Qc2R_inv a : a <> 0%Qc -> Qc2R (/ a) = (/ Qc2R a)%R.
Proof.
  intros H. unfold Qc2R. rewrite <- Q2R_inv.
  - apply Qeq_eqR. apply Qred_correct.
  - intros E. apply H. apply Qc_is_canon. auto.
Qed.
Lemma Qc2R_div a b : b <> 0%Qc -> Qc2R (a / b) = (Qc2R a / Qc2R b)%R.
Proof. intros H. unfold Qcdiv, Rdiv. rewrite Qc2R_mult, Qc2R_inv; auto. Qed.
Lemma Qc2R_le a b : (a <= b)%Qc <-> (Qc2R a <= Qc2R b)%R.
Proof. unfold Qc2R, Qcle. split; [apply Qle_Rle|apply Rle_Qle]. Qed.
Lemma Qc2R_lt a b : (a < b)%Qc <-> (Qc2R a < Qc2R b)%R.
Proof. unfold Qc2R, Qclt. split; [apply Qlt_Rlt|apply Rlt_Qlt]. Qed.
Lemma Qc2R_pos a : (0 < a)%Qc -> (0 < Qc2R a)%R.
Proof. intros H. rewrite <- Qc2R_0. apply Qc2R_lt; auto. Qed.
Lemma Qc2R_nonneg a : (0 <= a)%Qc -> (0 <= Qc2R a)%R.
Proof. intros H. rewrite <- Qc2R_0. apply Qc2R_le; auto. Qed.
Lemma Qc2R_of_nat n : Qc2R (Qc_of_nat n) = INR n.
Proof.
  unfold Qc2R, Qc_of_nat, Qc_of_Z. rewrite (Qeq_eqR _ (inject_Z (Z.of_nat n))).
  - unfold Q2R, inject_Z. simpl. rewrite INR_IZR_INZ. lra.
  - apply Qred_correct.
Qed.

Fixpoint rsum (l : list R) : R := match l with nil => 0%R | x :: l' => (x + rsum l')%R end.
