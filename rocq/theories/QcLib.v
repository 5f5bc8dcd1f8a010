(** Finite sums of canonical rationals and a few order facts.

    Real valued quantities of smol (energies, correlations, measures) that need
    no exp/log are modelled by exact canonical rationals [Qc]. *)
From Coq Require Export QArith Qcanon.
From Verif Require Export Lib.
From Coq Require Import Lqa.
Set Implicit Arguments.
Open Scope Qc_scope.

Fixpoint qsum (l : list Qc) : Qc :=
  match l with [] => 0 | x :: l' => x + qsum l' end.

Fixpoint qdot (u v : list Qc) : Qc :=
  match u, v with
  | x :: u', y :: v' => x * y + qdot u' v'
  | _, _ => 0
  end.

Definition qmap2 (f : Qc -> Qc -> Qc) (u v : list Qc) : list Qc :=
  map (fun p => f (fst p) (snd p)) (combine u v).
Definition qvadd := qmap2 Qcplus.
Definition qvsub := qmap2 Qcminus.
Definition qvscale (k : Qc) := map (Qcmult k).

(** Embedding of integers and naturals (numpy int to float conversion). *)
Definition Qc_of_Z (z : Z) : Qc := Q2Qc (inject_Z z).
Definition Qc_of_nat (n : nat) : Qc := Qc_of_Z (Z.of_nat n).
Definition Qc_frac (a : Z) (b : positive) : Qc := Q2Qc (a # b).

(** Boolean comparisons. *)
Definition Qcleb (x y : Qc) : bool := Qle_bool x y.
Definition Qcltb (x y : Qc) : bool := negb (Qle_bool y x).
Definition Qceqb (x y : Qc) : bool := Qeq_bool x y.

Lemma Qcleb_spec x y : reflect (x <= y) (Qcleb x y).
Proof.
  unfold Qcleb. destruct (Qle_bool x y) eqn:E; constructor.
  - apply Qle_bool_iff in E; exact E.
  - intros H. apply Qle_bool_iff in H. congruence.
Qed.

Lemma Qcltb_spec x y : reflect (x < y) (Qcltb x y).
Proof.
  unfold Qcltb. destruct (Qle_bool y x) eqn:E; constructor.
  - apply Qle_bool_iff in E. intros H. apply (Qcle_not_lt _ _ E H).
  - destruct (Qclt_le_dec x y) as [H|H]; auto. apply Qle_bool_iff in H. congruence.
Qed.

Lemma Qceqb_spec x y : reflect (x = y) (Qceqb x y).
Proof.
  unfold Qceqb. destruct (Qeq_bool x y) eqn:E; constructor.
  - apply Qeq_bool_iff in E. apply Qc_is_canon; exact E.
  - intros ->. apply Qeq_bool_neq in E. apply E; reflexivity.
Qed.

(** Linear arithmetic on [Qc] by transfer to [Q]. *)
Lemma Qc_eq_iff (x y : Qc) : x = y <-> (this x == this y)%Q.
Proof. split; [intros ->; reflexivity| apply Qc_is_canon]. Qed.
Lemma Qc_le_iff (x y : Qc) : x <= y <-> (this x <= this y)%Q.
Proof. reflexivity. Qed.
Lemma Qc_lt_iff (x y : Qc) : x < y <-> (this x < this y)%Q.
Proof. reflexivity. Qed.
Lemma this_plus x y : (this (x + y)%Qc == this x + this y)%Q.
Proof. apply Qred_correct. Qed.
Lemma this_opp x : (this (- x)%Qc == - this x)%Q.
Proof. apply Qred_correct. Qed.
Lemma this_minus x y : (this (x - y)%Qc == this x - this y)%Q.
Proof. unfold Qcminus. rewrite this_plus, this_opp. reflexivity. Qed.
Lemma this_mult x y : (this (x * y)%Qc == this x * this y)%Q.
Proof. apply Qred_correct. Qed.
Lemma this_Q2Qc q : (this (Q2Qc q) == q)%Q.
Proof. apply Qred_correct. Qed.

Ltac qc2q :=
  repeat match goal with
  | H : @eq Qc _ _ |- _ => apply (proj1 (Qc_eq_iff _ _)) in H
  | H : ~ @eq Qc _ _ |- _ => rewrite Qc_eq_iff in H
  | H : _ <= _ |- _ => apply (proj1 (Qc_le_iff _ _)) in H
  | H : _ < _ |- _ => apply (proj1 (Qc_lt_iff _ _)) in H
  end;
  try match goal with
  | |- @eq Qc _ _ => apply (proj2 (Qc_eq_iff _ _))
  | |- _ <= _ => apply (proj2 (Qc_le_iff _ _))
  | |- _ < _ => apply (proj2 (Qc_lt_iff _ _))
  end;
  unfold Qcdiv in *;
  repeat match goal with
  | H : context [this (_ + _)%Qc] |- _ => rewrite this_plus in H
  | H : context [this (_ - _)%Qc] |- _ => rewrite this_minus in H
  | H : context [this (- _)%Qc] |- _ => rewrite this_opp in H
  | H : context [this (_ * _)%Qc] |- _ => rewrite this_mult in H
  | H : context [this (Q2Qc _)] |- _ => rewrite this_Q2Qc in H
  end;
  repeat (rewrite ?this_plus, ?this_minus, ?this_opp, ?this_mult, ?this_Q2Qc).
(** Linear rational arithmetic. *)
Ltac qclra := qc2q; lra.
(** Non-linear variant. *)
Ltac qcnra := qc2q; nra.

Lemma qsum_app l1 l2 : qsum (l1 ++ l2) = qsum l1 + qsum l2.
Proof. induction l1 as [|x l1 IH]; simpl; [ring|]. rewrite IH; ring. Qed.

Lemma qsum_perm l1 l2 : Permutation l1 l2 -> qsum l1 = qsum l2.
Proof. induction 1; simpl; try congruence; ring. Qed.

Lemma qsum_map_add {A} (f g : A -> Qc) l :
  qsum (map (fun x => f x + g x) l) = qsum (map f l) + qsum (map g l).
Proof. induction l as [|x l IH]; simpl; [ring|]. rewrite IH; ring. Qed.

Lemma qsum_map_sub {A} (f g : A -> Qc) l :
  qsum (map (fun x => f x - g x) l) = qsum (map f l) - qsum (map g l).
Proof. induction l as [|x l IH]; simpl; [ring|]. rewrite IH; ring. Qed.

Lemma qsum_map_opp {A} (f : A -> Qc) l :
  qsum (map (fun x => - f x) l) = - qsum (map f l).
Proof. induction l as [|x l IH]; simpl; [ring|]. rewrite IH; ring. Qed.

Lemma qsum_map_scale {A} (k : Qc) (f : A -> Qc) l :
  qsum (map (fun x => k * f x) l) = k * qsum (map f l).
Proof. induction l as [|x l IH]; simpl; [ring|]. rewrite IH; ring. Qed.

Lemma qsum_map_scale_r {A} (k : Qc) (f : A -> Qc) l :
  qsum (map (fun x => f x * k) l) = qsum (map f l) * k.
Proof. induction l as [|x l IH]; simpl; [ring|]. rewrite IH; ring. Qed.

Lemma qsum_map_ext {A} (f g : A -> Qc) l :
  (forall x, In x l -> f x = g x) -> qsum (map f l) = qsum (map g l).
Proof. intros H; f_equal; apply map_ext_in; auto. Qed.

Lemma qsum_map_0 {A} (f : A -> Qc) l :
  (forall x, In x l -> f x = 0) -> qsum (map f l) = 0.
Proof.
  induction l as [|x l IH]; simpl; intros H; auto.
  rewrite IH by auto. rewrite H by auto. ring.
Qed.

Lemma qsum_swap {A B} (f : A -> B -> Qc) l1 l2 :
  qsum (map (fun a => qsum (map (f a) l2)) l1) =
  qsum (map (fun b => qsum (map (fun a => f a b) l1)) l2).
Proof.
  induction l1 as [|a l1 IH]; simpl.
  - symmetry; apply qsum_map_0; auto.
  - rewrite IH, <- qsum_map_add. reflexivity.
Qed.

Lemma qsum_nonneg l : (forall x, In x l -> 0 <= x) -> 0 <= qsum l.
Proof.
  induction l as [|x l IH]; simpl; intros H; [apply Qcle_refl|].
  assert (0 <= x) by (apply H; auto). assert (0 <= qsum l) by (apply IH; auto). qclra.
Qed.

Lemma Qc_of_Z_add a b : Qc_of_Z (a + b) = Qc_of_Z a + Qc_of_Z b.
Proof.
  unfold Qc_of_Z. apply Qc_is_canon. rewrite this_plus, !this_Q2Qc.
  rewrite inject_Z_plus; reflexivity.
Qed.

Lemma Qc_of_Z_mul a b : Qc_of_Z (a * b) = Qc_of_Z a * Qc_of_Z b.
Proof.
  unfold Qc_of_Z. apply Qc_is_canon. rewrite this_mult, !this_Q2Qc.
  rewrite inject_Z_mult; reflexivity.
Qed.

Lemma Qc_of_Z_inj a b : Qc_of_Z a = Qc_of_Z b -> a = b.
Proof.
  unfold Qc_of_Z. intros H. apply Qc_eq_iff in H. rewrite !this_Q2Qc in H.
  unfold Qeq, inject_Z in H; simpl in H. lia.
Qed.

Lemma Qc_of_Z_le a b : (a <= b)%Z <-> Qc_of_Z a <= Qc_of_Z b.
Proof.
  unfold Qc_of_Z. rewrite Qc_le_iff, !this_Q2Qc. rewrite <- Zle_Qle. reflexivity.
Qed.

Lemma Qc_of_nat_S n : Qc_of_nat (S n) = 1 + Qc_of_nat n.
Proof. unfold Qc_of_nat. rewrite Nat2Z.inj_succ. unfold Z.succ. rewrite Qc_of_Z_add. change (Qc_of_Z 1) with 1. ring. Qed.

Lemma Qc_of_nat_0 : Qc_of_nat 0 = 0.
Proof. reflexivity. Qed.

Lemma Qc_of_nat_nz n : n <> 0%nat -> Qc_of_nat n <> 0.
Proof.
  intros H E. apply (@Qc_of_Z_inj (Z.of_nat n) 0) in E. lia.
Qed.

Lemma Qc_of_nat_nonneg n : 0 <= Qc_of_nat n.
Proof. apply (proj1 (Qc_of_Z_le 0 (Z.of_nat n))). lia. Qed.

Lemma Qc_of_nat_pos n : (0 < n)%nat -> 0 < Qc_of_nat n.
Proof.
  intros H. destruct (Qc_dec 0 (Qc_of_nat n)) as [[Hlt|Hgt]|Heq]; auto.
  - exfalso. pose proof (Qc_of_nat_nonneg n). apply (Qcle_not_lt _ _ H0 Hgt).
  - exfalso. symmetry in Heq. apply Qc_of_nat_nz in Heq; auto; lia.
Qed.

Lemma qsum_const {A} (k : Qc) (l : list A) :
  qsum (map (fun _ => k) l) = Qc_of_nat (length l) * k.
Proof.
  induction l as [|x l IH]; simpl; [rewrite Qc_of_nat_0; ring|].
  rewrite IH, Qc_of_nat_S. ring.
Qed.

(** Division by a positive number. *)
Lemma Qc_pos_nz b : 0 < b -> b <> 0.
Proof. intros H ->. apply (Qclt_not_eq _ _ H); reflexivity. Qed.

Lemma Qcdiv_cancel a b : b <> 0 -> a / b * b = a.
Proof. intros H. unfold Qcdiv. rewrite <- Qcmult_assoc, Qcmult_inv_l by auto. ring. Qed.

Lemma Qcdiv_lt_iff a b c : 0 < b -> (a / b < c <-> a < c * b).
Proof.
  intros Hb. pose proof (Qcdiv_cancel a (Qc_pos_nz Hb)) as E. set (d := a / b) in *.
  clearbody d. subst a. split; intros H; qcnra.
Qed.
Lemma Qcdiv_le_iff a b c : 0 < b -> (a / b <= c <-> a <= c * b).
Proof.
  intros Hb. pose proof (Qcdiv_cancel a (Qc_pos_nz Hb)) as E. set (d := a / b) in *.
  clearbody d. subst a. split; intros H; qcnra.
Qed.
Lemma Qcdiv_gt_iff a b c : 0 < b -> (c < a / b <-> c * b < a).
Proof.
  intros Hb. pose proof (Qcdiv_cancel a (Qc_pos_nz Hb)) as E. set (d := a / b) in *.
  clearbody d. subst a. split; intros H; qcnra.
Qed.
Lemma Qcdiv_ge_iff a b c : 0 < b -> (c <= a / b <-> c * b <= a).
Proof.
  intros Hb. pose proof (Qcdiv_cancel a (Qc_pos_nz Hb)) as E. set (d := a / b) in *.
  clearbody d. subst a. split; intros H; qcnra.
Qed.
