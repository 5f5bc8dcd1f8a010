(** Finite sums and linear dependence over the reals. *)
From Verif Require Import LibProofs.
From Verif Require Export Basis.
From Coq Require Import Lia Lra.
Set Implicit Arguments.
Unset Strict Implicit.
Open Scope R_scope.

Lemma rsum_app l1 l2 : rsum (l1 ++ l2) = rsum l1 + rsum l2.
Proof. induction l1; simpl; [lra|]. rewrite IHl1. lra. Qed.

Lemma sum_S n f : sum (S n) f = sum n f + f n.
Proof.
  unfold sum. rewrite seq_S, map_app, rsum_app. simpl. lra.
Qed.
Lemma sum_0 f : sum 0 f = 0.
Proof. reflexivity. Qed.
Lemma sum_ext n f g : (forall i, (i < n)%nat -> f i = g i) -> sum n f = sum n g.
Proof.
  induction n; intros H; [reflexivity|].
  rewrite !sum_S, IHn, (H n); auto.
Qed.
Lemma sum_zero n : sum n (fun _ => 0) = 0.
Proof. induction n; [reflexivity|]. rewrite sum_S, IHn. lra. Qed.
Lemma sum_plus n f g : sum n (fun i => f i + g i) = sum n f + sum n g.
Proof. induction n; [rewrite !sum_0; lra|]. rewrite !sum_S, IHn. lra. Qed.
Lemma sum_minus n f g : sum n (fun i => f i - g i) = sum n f - sum n g.
Proof. induction n; [rewrite !sum_0; lra|]. rewrite !sum_S, IHn. lra. Qed.
Lemma sum_scal n a f : sum n (fun i => a * f i) = a * sum n f.
Proof. induction n; [rewrite !sum_0; lra|]. rewrite !sum_S, IHn. lra. Qed.
Lemma sum_scal_r n a f : sum n (fun i => f i * a) = sum n f * a.
Proof. induction n; [rewrite !sum_0; lra|]. rewrite !sum_S, IHn. lra. Qed.
Lemma sum_swap n m (f : nat -> nat -> R) :
  sum n (fun i => sum m (fun j => f i j)) = sum m (fun j => sum n (fun i => f i j)).
Proof.
  induction n.
  - rewrite sum_0. symmetry. rewrite (sum_ext (g := fun _ => 0)); [apply sum_zero|].
    intros. apply sum_0.
  - rewrite sum_S, IHn, <- sum_plus. apply sum_ext. intros. rewrite sum_S. lra.
Qed.
Lemma sum_change n p f a : (p < n)%nat ->
  sum n (fun i => if Nat.eqb i p then a else f i) = sum n f - f p + a.
Proof.
  intros H. induction n; [lia|]. rewrite !sum_S.
  destruct (Nat.eqb_spec n p) as [->|N].
  - rewrite (sum_ext (g := f)); [lra|].
    intros i Hi. destruct (Nat.eqb_spec i p); [lia|auto].
  - rewrite IHn by lia. lra.
Qed.
Lemma sum_delta n p f : (p < n)%nat ->
  sum n (fun i => if Nat.eqb i p then f i else 0) = f p.
Proof.
  intros H. rewrite (sum_ext (g := fun i => if Nat.eqb i p then f p else 0)).
  - rewrite sum_change, sum_zero by auto. lra.
  - intros i _. destruct (Nat.eqb_spec i p); subst; auto.
Qed.
Lemma sum_pick n p f : (p < S n)%nat ->
  sum (S n) f = sum n (fun i => f (if Nat.eqb i p then n else i)) + f p.
Proof.
  intros H. rewrite sum_S.
  rewrite (sum_ext (f := fun i => f (if Nat.eqb i p then n else i))
                   (g := fun i => if Nat.eqb i p then f n else f i))
    by (intros i _; destruct (Nat.eqb i p); auto).
  destruct (Nat.eqb_spec p n) as [->|N].
  - rewrite (sum_ext (f := fun i => if Nat.eqb i n then f n else f i) (g := f)); [lra|].
    intros i Hi. destruct (Nat.eqb_spec i n); [lia|auto].
  - rewrite sum_change by lia. lra.
Qed.
Lemma sum_nonneg n f : (forall i, (i < n)%nat -> 0 <= f i) -> 0 <= sum n f.
Proof.
  induction n; intros H; [rewrite sum_0; lra|]. rewrite sum_S.
  specialize (H n (Nat.lt_succ_diag_r n)) as Hn.
  assert (0 <= sum n f) by (apply IHn; auto). lra.
Qed.
Lemma sum_pos n f : (forall i, (i < n)%nat -> 0 < f i) -> (0 < n)%nat -> 0 < sum n f.
Proof.
  destruct n; intros H L; [lia|]. rewrite sum_S.
  assert (0 <= sum n f) by (apply sum_nonneg; intros i Hi; left; auto).
  specialize (H n (Nat.lt_succ_diag_r n)). lra.
Qed.
Lemma sum_nonneg_zero n f : (forall i, (i < n)%nat -> 0 <= f i) -> sum n f = 0 ->
  forall i, (i < n)%nat -> f i = 0.
Proof.
  induction n; intros H E i Hi; [lia|]. rewrite sum_S in E.
  assert (0 <= sum n f) by (apply sum_nonneg; auto).
  specialize (H n (Nat.lt_succ_diag_r n)) as Hn.
  destruct (Nat.eq_dec i n) as [->|N]; [lra|].
  apply IHn; [auto|lra|lia].
Qed.

(** More vectors than coordinates are dependent. *)
Lemma dependent n : forall m (v : nat -> nat -> R), (n < m)%nat ->
  exists c, (exists i, (i < m)%nat /\ c i <> 0) /\
    forall j, (j < n)%nat -> sum m (fun i => c i * v i j) = 0.
Proof.
  induction n; intros m v L.
  - exists (fun _ => 1). split; [exists 0%nat; split; [lia|lra]|]. intros j Hj; lia.
  - destruct m as [|m]; [lia|].
    assert (Z : (forall i, (i < S m)%nat -> v i n = 0) \/
                exists p, (p < S m)%nat /\ v p n <> 0).
    { clear L. generalize (S m) as k. induction k.
      - left. intros; lia.
      - destruct IHk as [A|(p & Hp & N)]; [|right; exists p; split; [lia|auto]].
        destruct (Req_EM_T (v k n) 0) as [E|N].
        + left. intros i Hi. destruct (Nat.eq_dec i k) as [->|]; [auto|apply A; lia].
        + right. exists k. split; [lia|auto]. }
    destruct Z as [Z|(p & Hp & N)].
    + destruct (IHn (S m) v) as (c & NZ & E); [lia|].
      exists c. split; auto. intros j Hj.
      destruct (Nat.eq_dec j n) as [->|]; [|apply E; lia].
      rewrite (sum_ext (g := fun _ => 0)); [apply sum_zero|].
      intros i Hi. rewrite Z by auto. lra.
    + set (sg := fun i => if Nat.eqb i p then m else i).
      set (w := fun i j => v (sg i) j - v (sg i) n / v p n * v p j).
      destruct (IHn m w) as (d & (q & Hq & NZ) & E); [lia|].
      set (s := sum m (fun i => d i * v (sg i) n / v p n)).
      set (c := fun k => if Nat.eqb k p then - s else if Nat.eqb k m then d p else d k).
      assert (C : forall i, (i < m)%nat -> c (sg i) = d i).
      { intros i Hi. unfold c, sg. destruct (Nat.eqb_spec i p) as [->|Nip].
        - destruct (Nat.eqb_spec m p); [lia|]. rewrite Nat.eqb_refl. auto.
        - destruct (Nat.eqb_spec i p); [congruence|].
          destruct (Nat.eqb_spec i m); [lia|auto]. }
      assert (CP : c p = - s) by (unfold c; rewrite Nat.eqb_refl; auto).
      exists c. split.
      * exists (sg q). split; [|rewrite C; auto].
        unfold sg. destruct (Nat.eqb q p); lia.
      * intros j Hj. rewrite (@sum_pick m p) by auto.
        rewrite CP.
        rewrite (sum_ext (g := fun i => d i * w i j + d i * v (sg i) n / v p n * v p j)).
        2:{ intros i Hi. fold (sg i). rewrite C by auto. unfold w. field. auto. }
        rewrite sum_plus, sum_scal_r. fold s.
        destruct (Nat.eq_dec j n) as [->|].
        -- rewrite (sum_ext (f := fun i => d i * w i n) (g := fun _ => 0)), sum_zero; [lra|].
           intros i Hi. unfold w. field. auto.
        -- rewrite E by lia. lra.
Qed.

(** Independent square systems are complete. *)
Definition independent (n : nat) (F : nat -> nat -> R) : Prop :=
  forall c, (forall j, (j < n)%nat -> sum n (fun i => c i * F i j) = 0) ->
    forall i, (i < n)%nat -> c i = 0.

Lemma independent_spans n F : independent n F -> forall g : nat -> R,
  exists c, forall j, (j < n)%nat -> g j = sum n (fun i => c i * F i j).
Proof.
  intros I g.
  destruct (@dependent n (S n) (fun i j => if Nat.eqb i n then g j else F i j))
    as (c & (k & Hk & NZ) & E); [lia|].
  assert (E' : forall j, (j < n)%nat -> sum n (fun i => c i * F i j) + c n * g j = 0).
  { intros j Hj. rewrite <- (E j Hj), sum_S, Nat.eqb_refl. f_equal.
    apply sum_ext. intros i Hi. destruct (Nat.eqb_spec i n); [lia|auto]. }
  assert (N : c n <> 0).
  { intros Z. apply NZ. destruct (Nat.eq_dec k n) as [->|]; [auto|].
    apply I; [|lia]. intros j Hj. specialize (E' j Hj). rewrite Z in E'. lra. }
  exists (fun i => - c i / c n). intros j Hj.
  rewrite (sum_ext (g := fun i => - / c n * (c i * F i j))).
  2:{ intros. field. auto. }
  rewrite sum_scal. specialize (E' j Hj).
  replace (sum n (fun i => c i * F i j)) with (- (c n * g j)) by lra.
  field. auto.
Qed.

Lemma independent_unique n F (c d : nat -> R) : independent n F ->
  (forall j, (j < n)%nat -> sum n (fun i => c i * F i j) = sum n (fun i => d i * F i j)) ->
  forall i, (i < n)%nat -> c i = d i.
Proof.
  intros I E i Hi. assert (c i - d i = 0); [|lra].
  apply (I (fun i => c i - d i)); auto. intros j Hj.
  rewrite (sum_ext (g := fun i => c i * F i j - d i * F i j)) by (intros; lra).
  rewrite sum_minus, E by auto. lra.
Qed.

(** Orthogonal vectors of positive length are independent. *)
Lemma orthogonal_independent n (F : nat -> nat -> R) (w : nat -> R) :
  (forall i j, (i < n)%nat -> (j < n)%nat -> i <> j ->
     sum n (fun k => w k * F i k * F j k) = 0) ->
  (forall i, (i < n)%nat -> sum n (fun k => w k * F i k * F i k) <> 0) ->
  independent n F.
Proof.
  intros O P c E p Hp.
  assert (Z : sum n (fun k => w k * F p k * sum n (fun i => c i * F i k)) = 0).
  { rewrite (sum_ext (g := fun _ => 0)); [apply sum_zero|].
    intros k Hk. rewrite E by auto. lra. }
  rewrite (sum_ext (g := fun k => sum n (fun i => c i * (w k * F p k * F i k)))) in Z.
  2:{ intros k Hk. rewrite <- sum_scal. apply sum_ext. intros. lra. }
  rewrite sum_swap in Z.
  rewrite (sum_ext (g := fun i => if Nat.eqb i p
             then c i * sum n (fun k => w k * F p k * F i k) else 0)) in Z.
  2:{ intros i Hi. rewrite sum_scal. destruct (Nat.eqb_spec i p); auto.
      rewrite O by auto. lra. }
  rewrite (@sum_delta n p (fun i => c i * sum n (fun k => w k * F p k * F i k))) in Z by auto.
  destruct (Rmult_integral _ _ Z) as [|B]; auto. destruct (P p Hp B).
Qed.
