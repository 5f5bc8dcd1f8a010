From Verif Require Export KernelSpec UsherProofs.
Set Implicit Arguments.
Unset Strict Implicit.
Open Scope nat_scope.

Lemma apply_step_length st : forall o, length (apply_step o st) = length o.
Proof.
  unfold apply_step. induction st as [|[s c] st IH]; intros o; simpl; auto.
  rewrite IH. apply length_upd.
Qed.

Lemma apply_step_nth st : forall o s, s < length o ->
  nth_error (apply_step o st) s = match last_flip st s with Some c => Some c | None => nth_error o s end.
Proof.
  unfold apply_step. induction st as [|[s' c] st IH]; intros o s Hs; simpl; auto.
  rewrite IH by (rewrite length_upd; auto).
  destruct (last_flip st s); auto.
  destruct (Nat.eqb_spec s' s) as [->|E].
  - apply nth_error_upd_eq; auto.
  - apply nth_error_upd_neq; auto.
Qed.

Lemma accept_test_spec e u : (0 < u < 1)%R -> exists b, accept_test e u = Some b /\
  (b = true <-> (u < accept_prob e)%R).
Proof.
  intros [H0 H1]. unfold accept_test, accept_prob.
  destruct (Rle_dec 0 e) as [He|He].
  - exists true. split; auto. split; auto. intros _.
    rewrite Rmin_left; auto. rewrite <- exp_0. destruct He as [He| <-]; [|lra].
    left. apply exp_increasing. auto.
  - destruct (Rle_dec u 0); [lra|]. destruct (Rlt_dec (ln u) e) as [L|L].
    + exists true. split; auto. split; auto. intros _.
      rewrite <- (exp_ln u) by auto. apply Rmin_glb_lt; [rewrite exp_ln; auto|]. apply exp_increasing; auto.
    + exists false. split; auto. split; [discriminate|]. intros Hm. exfalso. apply L.
      apply Rlt_le_trans with (r2 := ln (exp e)); [|rewrite ln_exp; lra].
      apply ln_increasing; auto. eapply Rlt_le_trans; [apply Hm|apply Rmin_r].
Qed.

(** ** Vectors *)
Lemma qdot_qvadd a x y : length x = length y -> qdot a (qvadd x y) = (qdot a x + qdot a y)%Qc.
Proof.
  unfold qvadd, qmap2. revert x y; induction a as [|k a IH]; intros [|u x] [|v y] H; try discriminate; simpl; try ring.
  simpl in H. rewrite IH by lia. ring.
Qed.

(** ** Sums *)
Lemma Qc2R_qsum l : Qc2R (qsum l) = rsum (map Qc2R l).
Proof. induction l; simpl; [apply Qc2R_0|rewrite Qc2R_plus, IHl; auto]. Qed.
Lemma rsum_map_ext {A} (f g : A -> R) l : (forall x, In x l -> f x = g x) -> rsum (map f l) = rsum (map g l).
Proof. induction l; simpl; intros H; auto. rewrite H, IHl; auto. Qed.
Lemma rsum_map_scale {A} (f : A -> R) k l : rsum (map (fun x => f x * k)%R l) = (rsum (map f l) * k)%R.
Proof. induction l; simpl; [lra|rewrite IHl; lra]. Qed.
Lemma rsum_map_0 {A} (f : A -> R) l : (forall x, In x l -> f x = 0%R) -> rsum (map f l) = 0%R.
Proof. induction l; simpl; intros H; auto. rewrite H, IHl; auto. lra. Qed.

Lemma prob_zero_outcome {A} (m : prog A) P : pos_prog m -> prob m P = 0%Qc -> forall x, outcome m x -> P x = false.
Proof.
  intros Hp H x Hx. destruct (P x) eqn:E; auto. exfalso.
  pose proof (prob_pos_outcome Hp Hx E) as H1. rewrite H in H1. discriminate.
Qed.

Lemma prob_outcome_ne' {A} (m : prog A) P : (0 < prob m P)%Qc -> exists x, outcome m x /\ P x = true.
Proof.
  unfold prob. induction m as [|[w [x|]] m IH]; simpl; intros H; [discriminate| |].
  - destruct (P x) eqn:E; [exists x; split; auto; exists w; left; auto|].
    rewrite Qcplus_0_l in H. destruct (IH H) as (y & (w' & Hy) & Py). exists y. split; auto. exists w'. right; auto.
  - rewrite Qcplus_0_l in H. destruct (IH H) as (y & (w' & Hy) & Py). exists y. split; auto. exists w'. right; auto.
Qed.

Lemma Rmult_min k a b : (0 <= k)%R -> (k * Rmin a b = Rmin (k * a) (k * b))%R.
Proof.
  intros H. unfold Rmin. destruct (Rle_dec a b) as [L|L]; destruct (Rle_dec (k * a) (k * b)) as [L'|L']; auto.
  - exfalso. apply L'. apply Rmult_le_compat_l; auto.
  - assert (b <= a)%R by lra. apply (Rmult_le_compat_l k) in H0; auto. lra.
Qed.

Section Balance.
Variables (K : mckernel) (beta : R) (S : list nat -> Prop).
Let rule := metropolis_rule beta.
Let T o o' := Qc2R (transition (k_propose K) o o').
Hypothesis Hpos : forall o, S o -> pos_prog (k_propose K o).
Hypothesis Hstay : forall o st, S o -> outcome (k_propose K o) st -> S (apply_step o st).
Hypothesis Hexact : forall o st, S o -> outcome (k_propose K o) st -> exact_changes K o st.
Hypothesis Hfactor : forall o st, S o -> outcome (k_propose K o) st ->
  exists r, k_logp K o st = Some r /\ (exp r * T o (apply_step o st) = T (apply_step o st) o)%R.

Definition weight (o : list nat) : R := exp (- beta * Qc2R (enthalpy K o) + bias_of K o)%R.

Lemma exponent_eq o st lf : S o -> outcome (k_propose K o) st ->
  let d := compute_step_trace K o st in
  exp (rule (d_enth d) lf (d_bias d)) = (exp lf * (weight (apply_step o st) / weight o))%R.
Proof.
  intros Ho Hst. destruct (Hexact Ho Hst) as (Hl & Hf & Hb). simpl.
  assert (E : Qc2R (qdot (k_params K) (k_dfeat K o st)) = (Qc2R (enthalpy K (apply_step o st)) - Qc2R (enthalpy K o))%R).
  { unfold enthalpy. rewrite Hf, qdot_qvadd by auto. rewrite Qc2R_plus. lra. }
  unfold rule, metropolis_rule. rewrite E. unfold weight, Rdiv. rewrite <- exp_Ropp, <- !exp_plus. f_equal.
  unfold bias_of. destruct (k_bias K) as [b|]; simpl; [rewrite (Hb b) by auto|]; lra.
Qed.

Lemma weight_pos o : (0 < weight o)%R.
Proof. apply exp_pos. Qed.

Lemma flow o o' : S o -> S o' -> (weight o * move_prob K rule o o' = Rmin (weight o * T o o') (weight o' * T o' o))%R.
Proof.
  intros Ho Ho'. unfold move_prob.
  assert (Hnn : forall a b, S a -> (0 <= T a b)%R).
  { intros a b Ha. apply Qc2R_nonneg. unfold transition, prob. apply qsum_nonneg. intros x Hx.
    apply in_map_iff in Hx as ([w [st|]] & <- & Hin); simpl; [|apply Qcle_refl].
    destruct (occu_eqb _ _); [|apply Qcle_refl]. apply Qclt_le_weak. eapply Hpos; eauto. }
  destruct (Req_dec (T o o') 0) as [Z|Z].
  - assert (Z' : T o' o = 0%R).
    { destruct (Req_dec (T o' o) 0) as [|N]; auto. exfalso.
      assert (Hp : (0 < prob (k_propose K o') (fun st => occu_eqb (apply_step o' st) o))%Qc).
      { apply Qc2R_lt. rewrite Qc2R_0. pose proof (Hnn o' o Ho') as H. unfold T, transition in *. lra. }
      destruct (prob_outcome_ne' Hp) as (st & Hst & E). unfold occu_eqb in E.
      destruct (list_eq_dec _ _ _) as [E'|]; [|discriminate].
      destruct (Hfactor Ho' Hst) as (r & _ & F). rewrite E', Z in F.
      pose proof (exp_pos r). apply Rmult_integral in F as [F|F]; lra. }
    rewrite Z, Z', !Rmult_0_r. rewrite Rmin_left by lra.
    rewrite rsum_map_0; [lra|]. intros [w [st|]] Hin; simpl; auto.
    assert (Hst : outcome (k_propose K o) st) by (exists w; auto).
    rewrite (prob_zero_outcome (P := fun st => occu_eqb (apply_step o st) o') (Hpos Ho)); auto.
    apply Qc2R_inj. rewrite Qc2R_0. exact Z.
  - set (rho := (T o' o * weight o' / (T o o' * weight o))%R).
    rewrite (rsum_map_ext (g := fun p => (Qc2R (match snd p with Some x => if occu_eqb (apply_step o x) o' then fst p else 0 | None => 0 end) * Rmin 1 rho)%R)).
    + rewrite rsum_map_scale.
      assert (ET : rsum (map (fun p : Qc * option step => Qc2R (match snd p with Some x => if occu_eqb (apply_step o x) o' then fst p else 0%Qc | None => 0%Qc end)) (k_propose K o)) = T o o').
      { unfold T, transition, prob. rewrite Qc2R_qsum, map_map. auto. }
      rewrite ET. clear ET.
      pose proof (Hnn o o' Ho) as N1. pose proof (Hnn o' o Ho') as N2.
      pose proof (weight_pos o) as W1. pose proof (weight_pos o') as W2.
      assert (Hd : (0 < T o o' * weight o)%R) by (apply Rmult_lt_0_compat; auto; lra).
      replace (weight o' * T o' o)%R with (weight o * T o o' * rho)%R
        by (unfold rho; field; lra).
      rewrite <- Rmult_assoc, Rmult_min, Rmult_1_r by lra. reflexivity.
    + intros [w [st|]] Hin; simpl; [|rewrite Qc2R_0; lra].
      unfold occu_eqb. destruct (list_eq_dec _ _ _) as [E|_]; [|rewrite Qc2R_0; lra].
      assert (Hst : outcome (k_propose K o) st) by (exists w; auto).
      destruct (Hfactor Ho Hst) as (r & -> & F). f_equal. unfold accept_prob.
      pose proof (exponent_eq r Ho Hst) as X. simpl in X. rewrite X, E in *. f_equal.
      unfold rho. pose proof (weight_pos o). rewrite <- F. field. lra.
Qed.

Lemma balance o o' : S o -> S o' ->
  (weight o * move_prob K rule o o' = weight o' * move_prob K rule o' o)%R.
Proof. intros Ho Ho'. rewrite !flow by auto. apply Rmin_comm. Qed.
End Balance.
