(** Independence of powers, Chebyshev and Legendre polynomials at different
    points, and orthogonality of the sinusoids. *)
From Verif Require Export LinProofs.
From Coq Require Import Lia Lra.
Set Implicit Arguments.
Unset Strict Implicit.
Open Scope R_scope.

(** [poly d f a]: [f] is a polynomial of degree at most [d] with the
    coefficient [a] at the power [d]. *)
Inductive poly : nat -> (R -> R) -> R -> Prop :=
| Poly0 f a : (forall x, f x = a) -> poly 0 f a
| PolyS d f g a c : poly d g a -> (forall x, f x = x * g x + c) -> poly (S d) f a.

Lemma poly_ext d f g a : poly d f a -> (forall x, g x = f x) -> poly d g a.
Proof.
  intros P E. destruct P as [f a H|d f h a c H1 H2].
  - constructor. intros. rewrite E; auto.
  - apply PolyS with (g := h) (c := c); auto. intros. rewrite E; auto.
Qed.

Lemma poly_const d c : poly (S d) (fun _ => c) 0.
Proof.
  revert c. induction d; intros c.
  - apply PolyS with (g := fun _ => 0) (c := c); [constructor; auto|intros; lra].
  - apply PolyS with (g := fun _ => 0) (c := c); [apply IHd|intros; lra].
Qed.

Lemma poly_up d f a : poly d f a -> poly (S d) f 0.
Proof.
  induction 1 as [f a H|d f g a c P IH E].
  - apply poly_ext with (f := fun _ => a); [apply poly_const|auto].
  - apply PolyS with (g := g) (c := c); auto.
Qed.

Lemma poly_plus d f g a b : poly d f a -> poly d g b ->
  poly d (fun x => f x + g x) (a + b).
Proof.
  intros P. revert g b. induction P as [f a H|d f f' a c P IH E]; intros g b Q.
  - inversion Q; subst. constructor. intros. rewrite H, H0. auto.
  - inversion Q as [|d0 g0 g' b0 c' Q' E']; subst.
    apply PolyS with (g := fun x => f' x + g' x) (c := c + c').
    + apply IH; auto.
    + intros. rewrite E, E'. lra.
Qed.

Lemma poly_scal d f a k : poly d f a -> poly d (fun x => k * f x) (k * a).
Proof.
  induction 1 as [f a H|d f g a c P IH E].
  - constructor. intros; rewrite H; auto.
  - apply PolyS with (g := fun x => k * g x) (c := k * c); auto.
    intros; rewrite E; lra.
Qed.

Lemma poly_x d f a : poly d f a -> poly (S d) (fun x => x * f x) a.
Proof. intros P. apply PolyS with (g := f) (c := 0); auto. intros; lra. Qed.

(** A root can be divided out. *)
Lemma poly_root d f a : poly (S d) f a ->
  forall r, exists g, poly d g a /\ forall x, f x = (x - r) * g x + f r.
Proof.
  revert f a. induction d; intros f a P r.
  - inversion P as [|d0 f0 h a0 c Q E]; subst. inversion Q as [h0 a0 H|]; subst.
    exists h. split; auto. intros x. rewrite !E, !H. lra.
  - inversion P as [|d0 f0 h a0 c Q E]; subst.
    destruct (IHd _ _ Q r) as (g & G & EG).
    exists (fun x => x * g x + h r). split.
    + apply PolyS with (g := g) (c := h r); auto.
    + intros x. rewrite !E, (EG x). lra.
Qed.

Lemma poly_roots d : forall f a (x : nat -> R), poly d f a ->
  (forall i j, (i <= d)%nat -> (j <= d)%nat -> x i = x j -> i = j) ->
  (forall i, (i <= d)%nat -> f (x i) = 0) -> a = 0.
Proof.
  induction d; intros f a x P D Z.
  - inversion P as [f0 a0 H|]; subst. rewrite <- (H (x 0%nat)). auto.
  - destruct (poly_root P (x (S d))) as (g & G & E).
    apply (IHd g a x G).
    + intros; apply D; auto.
    + intros i Hi. assert (E' := E (x i)). rewrite !Z in E' by lia.
      assert (Q : (x i - x (S d)) * g (x i) = 0) by lra.
      destruct (Rmult_integral _ _ Q) as [B|B]; auto.
      assert (i = S d) by (apply D; try lia; lra). lia.
Qed.

Lemma poly_sum n : forall p (lead : nat -> R) (c : nat -> R),
  (forall k, (k <= n)%nat -> poly k (p k) (lead k)) ->
  poly n (fun x => sum (S n) (fun k => c k * p k x)) (c n * lead n).
Proof.
  induction n; intros p lead c P.
  - apply poly_ext with (f := fun x => c 0%nat * p 0%nat x).
    + apply poly_scal, P. lia.
    + intros x. rewrite sum_S, sum_0. lra.
  - apply poly_ext with
      (f := fun x => sum (S n) (fun k => c k * p k x) + c (S n) * p (S n) x).
    + replace (c (S n) * lead (S n)) with (0 + c (S n) * lead (S n)) by lra.
      apply poly_plus.
      * apply (@poly_up n _ (c n * lead n)). apply IHn. intros; apply P; lia.
      * apply poly_scal, P; lia.
    + intros x. rewrite (sum_S (S n)). auto.
Qed.

(** Polynomials of degrees 0, 1, ..., n-1 at n different points. *)
Lemma polys_independent n p (lead x : nat -> R) :
  (forall k, (k < n)%nat -> poly k (p k) (lead k) /\ lead k <> 0) ->
  (forall i j, (i < n)%nat -> (j < n)%nat -> x i = x j -> i = j) ->
  independent n (fun k j => p k (x j)).
Proof.
  intros P D c E.
  (* the coefficients vanish from the highest degree downwards *)
  assert (H : forall m, (m <= n)%nat -> forall i, (n - m <= i)%nat -> (i < n)%nat -> c i = 0).
  { induction m; intros Hm i Hi Hn; [lia|].
    destruct (Nat.eq_dec i (n - S m)) as [->|]; [|apply IHm; lia].
    destruct n as [|n']; [lia|]. remember (S n' - S m)%nat as d eqn:Dd.
    assert (Q := @poly_sum d p lead c (fun k Hk => proj1 (P k ltac:(lia)))).
    assert (Z : c d * lead d = 0).
    { apply (@poly_roots d _ _ x Q).
      - intros; apply D; auto; lia.
      - intros j Hj. rewrite <- (E j) by lia.
        assert (L : forall k f, (forall i, (d < i)%nat -> (i < S d + k)%nat -> f i = 0) ->
                  sum (S d) f = sum (S d + k) f).
        { induction k; intros f Hf; [rewrite Nat.add_0_r; auto|].
          rewrite Nat.add_succ_r, (@sum_S (S d + k)), <- IHk by (intros; apply Hf; lia).
          rewrite (Hf (S d + k)%nat) by lia. lra. }
        replace (S n') with (S d + (n' - d))%nat by lia.
        rewrite <- L; [auto|]. intros i Hi1 Hi2. rewrite IHm by lia. lra. }
    destruct (Rmult_integral _ _ Z) as [|B]; auto.
    destruct (proj2 (P d ltac:(lia)) B). }
  intros i Hi. apply (H n); lia.
Qed.

(** The three families. *)
Lemma pow_poly k : poly k (fun x => x ^ k) 1.
Proof.
  induction k; [constructor; intros; reflexivity|].
  apply poly_ext with (f := fun x => x * x ^ k); [apply poly_x, IHk|auto].
Qed.

Lemma cheb_S n x : cheb (S n) x = snd (cheb2 n x).
Proof. unfold cheb. simpl. destruct (cheb2 n x). auto. Qed.
Lemma cheb_SS n x : cheb (S (S n)) x = 2 * x * cheb (S n) x - cheb n x.
Proof.
  rewrite cheb_S. rewrite (cheb_S n). unfold cheb. simpl. destruct (cheb2 n x). auto.
Qed.
Lemma cheb_poly k : exists a, poly k (cheb k) a /\ a <> 0.
Proof.
  assert (H : (exists a, poly k (cheb k) a /\ 0 < a) /\
              (exists a, poly (S k) (cheb (S k)) a /\ 0 < a)).
  { induction k.
    - split.
      + exists 1. split; [constructor; reflexivity|lra].
      + exists 1. split; [|lra].
        apply poly_ext with (f := fun x => x * 1); [|intros; unfold cheb; simpl; lra].
        apply poly_x. constructor; auto.
    - destruct IHk as ((a & A & PA) & (b & B & PB)). split; [exists b; auto|].
      exists (2 * b). split; [|lra].
      apply poly_ext with (f := fun x => (2 * (x * cheb (S k) x)) + (-1) * cheb k x).
      + replace (2 * b) with (2 * b + 0) by lra. apply poly_plus.
        * apply poly_scal, poly_x, B.
        * apply (@poly_up _ _ (-1 * 0)). apply poly_scal, (@poly_up _ _ a), A.
      + intros. rewrite cheb_SS. lra. }
  destruct H as ((a & A & PA) & _). exists a. split; [auto|lra].
Qed.

Lemma leg_S n x : leg (S n) x = snd (leg2 n x).
Proof. unfold leg. simpl. destruct (leg2 n x). auto. Qed.
Lemma leg_SS n x : leg (S (S n)) x =
  ((2 * INR (S n) + 1) * x * leg (S n) x - INR (S n) * leg n x) / (INR (S n) + 1).
Proof.
  rewrite leg_S. rewrite (leg_S n). unfold leg. cbn [leg2].
  destruct (leg2 n x). auto.
Qed.
Lemma leg_poly k : exists a, poly k (leg k) a /\ a <> 0.
Proof.
  assert (H : (exists a, poly k (leg k) a /\ 0 < a) /\
              (exists a, poly (S k) (leg (S k)) a /\ 0 < a)).
  { induction k.
    - split.
      + exists 1. split; [constructor; reflexivity|lra].
      + exists 1. split; [|lra].
        apply poly_ext with (f := fun x => x * 1); [|intros; unfold leg; simpl; lra].
        apply poly_x. constructor; auto.
    - destruct IHk as ((a & A & PA) & (b & B & PB)). split; [exists b; auto|].
      assert (Hn := pos_INR (S k)). set (n := INR (S k)) in *.
      exists ((2 * n + 1) / (n + 1) * b). split.
      + apply poly_ext with
          (f := fun x => ((2 * n + 1) / (n + 1)) * (x * leg (S k) x)
                         + (- n / (n + 1)) * leg k x).
        * replace ((2 * n + 1) / (n + 1) * b) with ((2 * n + 1) / (n + 1) * b + 0) by lra.
          apply poly_plus.
          -- apply poly_scal, poly_x, B.
          -- apply (@poly_up _ _ (- n / (n + 1) * 0)). apply poly_scal, (@poly_up _ _ a), A.
        * intros. rewrite leg_SS. fold n. field. lra.
      + apply Rmult_lt_0_compat; auto. apply Rdiv_lt_0_compat; lra. }
  destruct H as ((a & A & PA) & _). exists a. split; [auto|lra].
Qed.

Lemma linspace_inj n i j : (2 <= n)%nat ->
  linspace (-1) 1 n i = linspace (-1) 1 n j -> i = j.
Proof.
  intros L E. unfold linspace in E. apply INR_eq.
  assert (P : 0 < INR (n - 1)) by (apply lt_0_INR; lia).
  assert (Q : 0 < (1 - -1) / INR (n - 1)) by (apply Rdiv_lt_0_compat; lra).
  apply (Rmult_eq_reg_r ((1 - -1) / INR (n - 1))); lra.
Qed.

(** Sums of sines and cosines over the m-th parts of the circle. *)
Lemma cos_tele h n :
  2 * sin h * sum n (fun s => cos (2 * h * INR s)) = sin ((2 * INR n - 1) * h) + sin h.
Proof.
  induction n.
  - rewrite sum_0. replace ((2 * INR 0 - 1) * h) with (- h) by (simpl; lra).
    rewrite sin_neg. lra.
  - rewrite sum_S, Rmult_plus_distr_l, IHn, S_INR.
    replace ((2 * (INR n + 1) - 1) * h) with (2 * h * INR n + h) by lra.
    replace ((2 * INR n - 1) * h) with (2 * h * INR n - h) by lra.
    rewrite sin_plus, sin_minus. lra.
Qed.
Lemma sin_tele h n :
  2 * sin h * sum n (fun s => sin (2 * h * INR s)) = cos h - cos ((2 * INR n - 1) * h).
Proof.
  induction n.
  - rewrite sum_0. replace ((2 * INR 0 - 1) * h) with (- h) by (simpl; lra).
    rewrite cos_neg. lra.
  - rewrite sum_S, Rmult_plus_distr_l, IHn, S_INR.
    replace ((2 * (INR n + 1) - 1) * h) with (2 * h * INR n + h) by lra.
    replace ((2 * INR n - 1) * h) with (2 * h * INR n - h) by lra.
    rewrite cos_plus, cos_minus. lra.
Qed.

Definition ang (m k s : nat) : R := 2 * PI * INR k * INR s / INR m.
Definition csum (m k : nat) := sum m (fun s => cos (ang m k s)).
Definition ssum (m k : nat) := sum m (fun s => sin (ang m k s)).

Lemma half_even a : Nat.even a = true -> exists k, a = (2 * k)%nat /\ ((a + 1) / 2 = k)%nat.
Proof.
  intros E. apply Nat.even_spec in E. destruct E as (k & ->). exists k. split; auto.
  rewrite Nat.mul_comm. rewrite Nat.div_add_l by lia. simpl. lia.
Qed.
Lemma half_odd a : Nat.even a = false -> exists k, a = (2 * k + 1)%nat /\ ((a + 1) / 2 = k + 1)%nat.
Proof.
  intros E. assert (O : Nat.odd a = true) by (unfold Nat.odd; rewrite E; auto).
  apply Nat.odd_spec in O. destruct O as (k & ->). exists k. split; auto.
  replace (2 * k + 1 + 1)%nat with ((k + 1) * 2)%nat by lia. apply Nat.div_mul. lia.
Qed.

Section Circle.
  Variable m : nat.
  Hypothesis M : (0 < m)%nat.
  Let Mp : 0 < INR m := lt_0_INR m M.

  Lemma circle k : (0 < k < m)%nat -> csum m k = 0 /\ ssum m k = 0.
  Proof using M.
    intros K. set (h := PI * INR k / INR m).
    assert (H : 0 < h < PI).
    { assert (0 < INR k) by (apply lt_0_INR; lia).
      assert (INR k < INR m) by (apply lt_INR; lia).
      assert (P := PI_RGT_0). unfold h. split.
      - apply Rdiv_lt_0_compat; auto. apply Rmult_lt_0_compat; auto.
      - apply (Rmult_lt_reg_r (INR m)); auto.
        unfold Rdiv. rewrite Rmult_assoc, Rinv_l by lra.
        rewrite Rmult_1_r. apply Rmult_lt_compat_l; auto. }
    assert (S : 0 < sin h) by (apply sin_gt_0; apply H).
    assert (E : (2 * INR m - 1) * h = - h + 2 * INR k * PI).
    { unfold h. field. lra. }
    assert (C := cos_tele h m). assert (D := sin_tele h m).
    rewrite E, sin_period, sin_neg in C. rewrite E, cos_period, cos_neg in D.
    assert (A : forall s, ang m k s = 2 * h * INR s).
    { intros. unfold ang, h. field. lra. }
    unfold csum, ssum.
    rewrite (sum_ext (g := fun s => cos (2 * h * INR s))) by (intros; rewrite A; auto).
    rewrite (sum_ext (f := fun s => sin (ang m k s))
                     (g := fun s => sin (2 * h * INR s))) by (intros; rewrite A; auto).
    split; apply (Rmult_eq_reg_l (2 * sin h)); lra.
  Qed.

  Lemma sum_one n : sum n (fun _ => 1) = INR n.
  Proof using. induction n; [reflexivity|]. rewrite sum_S, S_INR, IHn. auto. Qed.

  Lemma circle_full k : (k = 0)%nat \/ k = m -> csum m k = INR m /\ ssum m k = 0.
  Proof using M.
    intros K. unfold csum, ssum.
    assert (A : forall s, cos (ang m k s) = 1 /\ sin (ang m k s) = 0).
    { intros s. unfold ang. destruct K as [-> | ->].
      - replace (2 * PI * INR 0 * INR s / INR m) with 0 by (simpl; field; lra).
        rewrite cos_0, sin_0. auto.
      - replace (2 * PI * INR m * INR s / INR m) with (0 + 2 * INR s * PI) by (field; lra).
        rewrite cos_period, sin_period, cos_0, sin_0. auto. }
    split.
    - rewrite (sum_ext (g := fun _ => 1)) by (intros; apply A). apply sum_one.
    - rewrite (sum_ext (g := fun _ => 0)) by (intros; apply A). apply sum_zero.
  Qed.

  Lemma ssum_zero k : (k <= m)%nat -> ssum m k = 0.
  Proof using M.
    intros K. destruct (Nat.eq_dec k 0); [apply circle_full; auto|].
    destruct (Nat.eq_dec k m); [apply circle_full; auto|]. apply circle. lia.
  Qed.

  Lemma ang_plus a b s : ang m (a + b) s = ang m a s + ang m b s.
  Proof using M. unfold ang. rewrite plus_INR. field. lra. Qed.
  Lemma ang_minus a b s : (b <= a)%nat -> ang m (a - b) s = ang m a s - ang m b s.
  Proof using M. intros. unfold ang. rewrite minus_INR by auto. field. lra. Qed.

  Lemma cc a b : (b <= a)%nat ->
    sum m (fun s => cos (ang m a s) * cos (ang m b s)) = (csum m (a - b) + csum m (a + b)) / 2.
  Proof using M.
    intros L. unfold csum. rewrite <- sum_plus. unfold Rdiv. rewrite <- sum_scal_r.
    apply sum_ext. intros s _. rewrite ang_plus, ang_minus by auto.
    rewrite cos_plus, cos_minus. lra.
  Qed.
  Lemma ss a b : (b <= a)%nat ->
    sum m (fun s => sin (ang m a s) * sin (ang m b s)) = (csum m (a - b) - csum m (a + b)) / 2.
  Proof using M.
    intros L. unfold csum. rewrite <- sum_minus. unfold Rdiv. rewrite <- sum_scal_r.
    apply sum_ext. intros s _. rewrite ang_plus, ang_minus by auto.
    rewrite cos_plus, cos_minus. lra.
  Qed.
  Lemma sc a b : (a + b <= m)%nat ->
    sum m (fun s => sin (ang m a s) * cos (ang m b s)) = 0.
  Proof using M.
    intros L. destruct (Nat.le_ge_cases b a) as [C|C].
    - rewrite (sum_ext (g := fun s => (sin (ang m (a + b) s) + sin (ang m (a - b) s)) * / 2)).
      + rewrite sum_scal_r, sum_plus. fold (ssum m (a + b)) (ssum m (a - b)).
        rewrite !ssum_zero by lia. lra.
      + intros s _. rewrite ang_plus, ang_minus, sin_plus, sin_minus by auto. lra.
    - rewrite (sum_ext (g := fun s => (sin (ang m (a + b) s) - sin (ang m (b - a) s)) * / 2)).
      + rewrite sum_scal_r, sum_minus. fold (ssum m (a + b)) (ssum m (b - a)).
        rewrite !ssum_zero by lia. lra.
      + intros s _. rewrite ang_plus, ang_minus, sin_plus, sin_minus by auto. lra.
  Qed.

  (** The inner products of the sinusoids. *)
  Lemma sinusoid_ang n s : sinusoid n m s =
    if Nat.even n then - sin (ang m ((n + 1) / 2) s) else - cos (ang m ((n + 1) / 2) s).
  Proof using. reflexivity. Qed.

  Definition sprod (i j : nat) : R := sum m (fun s => sinusoid i m s * sinusoid j m s).
  Lemma sprod_sym i j : sprod i j = sprod j i.
  Proof using. apply sum_ext. intros. lra. Qed.

  Lemma sprod_lt i j : (j < i)%nat -> (0 < j)%nat -> (i < m)%nat -> sprod i j = 0.
  Proof using M.
    intros L J I. unfold sprod.
    destruct (Nat.even i) eqn:Ei; destruct (Nat.even j) eqn:Ej.
    - destruct (half_even Ei) as (a & A & HA), (half_even Ej) as (b & B & HB).
      rewrite (sum_ext (g := fun s => sin (ang m a s) * sin (ang m b s))).
      + rewrite ss by lia. rewrite (proj1 (@circle (a - b) ltac:(lia))),
          (proj1 (@circle (a + b) ltac:(lia))). lra.
      + intros s _. rewrite !sinusoid_ang, Ei, Ej, HA, HB. lra.
    - destruct (half_even Ei) as (a & A & HA), (half_odd Ej) as (b & B & HB).
      rewrite (sum_ext (g := fun s => sin (ang m a s) * cos (ang m (b + 1) s))).
      + rewrite sc by lia. lra.
      + intros s _. rewrite !sinusoid_ang, Ei, Ej, HA, HB. lra.
    - destruct (half_odd Ei) as (a & A & HA), (half_even Ej) as (b & B & HB).
      rewrite (sum_ext (g := fun s => sin (ang m b s) * cos (ang m (a + 1) s))).
      + rewrite sc by lia. lra.
      + intros s _. rewrite !sinusoid_ang, Ei, Ej, HA, HB. lra.
    - destruct (half_odd Ei) as (a & A & HA), (half_odd Ej) as (b & B & HB).
      rewrite (sum_ext (g := fun s => cos (ang m (a + 1) s) * cos (ang m (b + 1) s))).
      + rewrite cc by lia. rewrite (proj1 (@circle (a + 1 - (b + 1)) ltac:(lia))),
          (proj1 (@circle (a + 1 + (b + 1)) ltac:(lia))). lra.
      + intros s _. rewrite !sinusoid_ang, Ei, Ej, HA, HB. lra.
  Qed.

  Lemma sprod_self i : (0 < i)%nat -> (i < m)%nat ->
    sprod i i = if Nat.eqb (i + 1) m && Nat.even m then INR m else INR m / 2.
  Proof using M.
    intros I L. unfold sprod. destruct (Nat.even i) eqn:Ei.
    - destruct (half_even Ei) as (a & A & HA).
      rewrite (sum_ext (g := fun s => sin (ang m a s) * sin (ang m a s))).
      + rewrite ss by lia. rewrite Nat.sub_diag.
        rewrite (proj1 (@circle_full 0 ltac:(auto))), (proj1 (@circle (a + a) ltac:(lia))).
        destruct (Nat.eqb_spec (i + 1) m) as [E|E]; simpl; [|lra].
        replace (Nat.even m) with false; [lra|].
        rewrite <- E, Nat.even_add, Ei. auto.
      + intros s _. rewrite !sinusoid_ang, Ei, HA. lra.
    - destruct (half_odd Ei) as (a & A & HA).
      rewrite (sum_ext (g := fun s => cos (ang m (a + 1) s) * cos (ang m (a + 1) s))).
      + rewrite cc by lia. rewrite Nat.sub_diag.
        rewrite (proj1 (@circle_full 0 ltac:(auto))).
        destruct (Nat.eqb_spec (i + 1) m) as [E|E]; simpl.
        * rewrite (proj1 (@circle_full (a + 1 + (a + 1)) ltac:(right; lia))).
          replace (Nat.even m) with true; [lra|].
          rewrite <- E, Nat.even_add, Ei. auto.
        * rewrite (proj1 (@circle (a + 1 + (a + 1)) ltac:(lia))). lra.
      + intros s _. rewrite !sinusoid_ang, Ei, HA. lra.
  Qed.

  Lemma sinusoid_mean i : (0 < i)%nat -> (i < m)%nat -> sum m (fun s => sinusoid i m s) = 0.
  Proof using M.
    intros I L. destruct (Nat.even i) eqn:Ei.
    - destruct (half_even Ei) as (a & A & HA).
      rewrite (sum_ext (g := fun s => -1 * sin (ang m a s))).
      + rewrite sum_scal. fold (ssum m a). rewrite ssum_zero by lia. lra.
      + intros s _. rewrite sinusoid_ang, Ei, HA. lra.
    - destruct (half_odd Ei) as (a & A & HA).
      rewrite (sum_ext (g := fun s => -1 * cos (ang m (a + 1) s))).
      + rewrite sum_scal. fold (csum m (a + 1)).
        rewrite (proj1 (@circle (a + 1) ltac:(lia))). lra.
      + intros s _. rewrite sinusoid_ang, Ei, HA. lra.
  Qed.
End Circle.
