(** C43: integer points of polytopes are enumerated completely. *)
From Coq Require Import Lqa.
From Verif Require Import LibProofs NatSol.
Set Implicit Arguments.
Unset Strict Implicit.
Open Scope Z_scope.

(** [n0 + v x >= 0] componentwise. *)
Definition feasible1 (n0 v : list Z) (x : Z) : Prop :=
  forall i, (i < length v)%nat -> 0 <= nth i n0 0 + nth i v 0 * x.
(** [n0 + sum_q x_q vs_q >= 0] componentwise. *)
Fixpoint zcomb (x : list Z) (vs : list (list Z)) (i : nat) : Z :=
  match x, vs with
  | a :: x', v :: vs' => a * nth i v 0 + zcomb x' vs' i
  | _, _ => 0
  end.
Definition feasible (n0 : list Z) (vs : list (list Z)) (x : list Z) : Prop :=
  length x = length vs /\ forall i, (i < length n0)%nat -> 0 <= nth i n0 0 + zcomb x vs i.

(** ** Rounding *)

Lemma Qle_bool_false a b : Qle_bool a b = false -> (b < a)%Q.
Proof.
  intro H. destruct (Qlt_le_dec b a) as [|Hle]; [assumption|].
  apply Qle_bool_iff in Hle. congruence.
Qed.
Lemma qgtb_spec a b : if qgtb a b then (b < a)%Q else (a <= b)%Q.
Proof.
  unfold qgtb. destruct (Qle_bool a b) eqn:E; simpl; [apply Qle_bool_iff, E|apply Qle_bool_false, E].
Qed.

Lemma floor_spec x : (inject_Z (Qfloor x) <= x)%Q /\ (x < inject_Z (Qfloor x) + 1)%Q.
Proof.
  split; [apply Qfloor_le|]. pose proof (Qlt_floor x) as H. rewrite inject_Z_plus in H. exact H.
Qed.
Lemma ceil_le x z : Qceiling x <= z <-> (x <= inject_Z z)%Q.
Proof.
  split; intro H.
  - pose proof (Qle_ceiling x). rewrite Zle_Qle in H. lra.
  - apply Qceiling_resp_le in H. rewrite Qceiling_Z in H. exact H.
Qed.
Lemma floor_ge x z : z <= Qfloor x <-> (inject_Z z <= x)%Q.
Proof.
  split; intro H.
  - pose proof (Qfloor_le x). rewrite Zle_Qle in H. lra.
  - apply Qfloor_resp_le in H. rewrite Qfloor_Z in H. exact H.
Qed.

Lemma inject_lt a b : (inject_Z a < inject_Z b)%Q <-> a < b. Proof. rewrite <- Zlt_Qlt. reflexivity. Qed.
Lemma inject_S z : (inject_Z (z + 1) == inject_Z z + 1)%Q. Proof. rewrite inject_Z_plus. reflexivity. Qed.

(** Snapping moves by at most the tolerance and only to an integer. *)
Lemma snap_cases tol x :
  (exists z, snap tol x = inject_Z z /\ (Qabs (x - inject_Z z) <= tol)%Q) \/
  (snap tol x = x /\ forall z, (Qabs (x - inject_Z z) <= tol)%Q -> (1 # 2 <= tol)%Q).
Proof.
  unfold snap. destruct (Qle_bool _ _) eqn:E.
  - left. eexists; split; [reflexivity|]. apply Qle_bool_iff, E.
  - right. split; [reflexivity|]. apply Qle_bool_false in E. intros z Hz.
    destruct (Qlt_le_dec tol (1 # 2)) as [Ht|]; [|assumption]. exfalso.
    set (r := Qfloor (x + (1 # 2))) in *.
    destruct (floor_spec (x + (1 # 2))) as (F1 & F2). fold r in F1, F2.
    apply Qabs_Qle_condition in Hz.
    assert (z = r) as ->.
    { assert (z < r + 1) by (apply inject_lt; rewrite inject_S; lra).
      assert (r < z + 1) by (apply inject_lt; rewrite inject_S; lra). lia. }
    assert (Qabs (x - inject_Z r) <= tol)%Q by (apply Qabs_Qle_condition; lra). lra.
Qed.

(** With bounds known up to the tolerance, no integer inside is lost. *)
Lemma snap_lo tol lo x : (0 <= tol)%Q -> (tol < 1 # 2)%Q -> (lo - tol <= inject_Z x)%Q -> (snap tol lo <= inject_Z x)%Q.
Proof.
  intros H0 Ht H. destruct (snap_cases tol lo) as [(z & -> & Hz)|(-> & Hn)].
  - apply Qabs_Qle_condition in Hz. rewrite <- Zle_Qle.
    assert (z < x + 1); [|lia]. apply inject_lt. rewrite inject_S. lra.
  - destruct (Qlt_le_dec (inject_Z x) lo) as [Hl|]; [|assumption]. exfalso.
    assert (1 # 2 <= tol)%Q; [|lra]. apply (Hn x). apply Qabs_Qle_condition. lra.
Qed.
Lemma snap_hi tol hi x : (0 <= tol)%Q -> (tol < 1 # 2)%Q -> (inject_Z x <= hi + tol)%Q -> (inject_Z x <= snap tol hi)%Q.
Proof.
  intros H0 Ht H. destruct (snap_cases tol hi) as [(z & -> & Hz)|(-> & Hn)].
  - apply Qabs_Qle_condition in Hz. rewrite <- Zle_Qle.
    assert (x < z + 1); [|lia]. apply inject_lt. rewrite inject_S. lra.
  - destruct (Qlt_le_dec hi (inject_Z x)) as [Hl|]; [|assumption]. exfalso.
    assert (1 # 2 <= tol)%Q; [|lra]. apply (Hn x). apply Qabs_Qle_condition. lra.
Qed.

(** A quotient whose denominator is small against the tolerance is not moved. *)
Lemma snap_exact tol p v : v <> 0 -> (inject_Z (Z.abs v) * tol < 1)%Q ->
  (snap tol (inject_Z p / inject_Z v) == inject_Z p / inject_Z v)%Q.
Proof.
  intros Hv Ht. set (x := (inject_Z p / inject_Z v)%Q).
  destruct (snap_cases tol x) as [(z & -> & Hz)|(-> & _)]; [|reflexivity].
  assert (~ inject_Z v == 0)%Q as Hvq by (rewrite <- (inject_Z_injective v 0) in Hv; exact Hv).
  assert (x * inject_Z v == inject_Z p)%Q as Hx by (unfold x; field; exact Hvq).
  assert (p = z * v) as ->.
  { assert (Qabs (inject_Z p - inject_Z z * inject_Z v) < 1)%Q as Hlt.
    { rewrite <- Hx.
      setoid_replace (x * inject_Z v - inject_Z z * inject_Z v)%Q with ((x - inject_Z z) * inject_Z v)%Q by ring.
      rewrite Qabs_Qmult.
      assert (Qabs (inject_Z v) == inject_Z (Z.abs v))%Q as -> by reflexivity.
      eapply Qle_lt_trans; [|exact Ht]. rewrite Qmult_comm.
      apply Qmult_le_l with (z := inject_Z (Z.abs v)); [|exact Hz].
      change 0%Q with (inject_Z 0). rewrite <- Zlt_Qlt. lia. }
    apply Qabs_Qlt_condition in Hlt. rewrite <- inject_Z_mult in Hlt.
    assert (p < z * v + 1) by (apply inject_lt; rewrite inject_S; lra).
    assert (z * v < p + 1) by (apply inject_lt; rewrite inject_S; lra). lia. }
  unfold x. rewrite inject_Z_mult. field. exact Hvq.
Qed.

(** ** Bounds of one variable *)

Definition lo_ok (l : list (Z * Z)) (lo0 lo : option Q) : Prop :=
  match lo with
  | None => lo0 = None /\ forall p, In p l -> snd p <= 0
  | Some q => (Some q = lo0 \/ exists p, In p l /\ 0 < snd p /\ q = (inject_Z (- fst p) / inject_Z (snd p))%Q)
  end.

Lemma inj_nz v : v <> 0 -> ~ (inject_Z v == 0)%Q.
Proof. intros Hv. rewrite <- (inject_Z_injective v 0) in Hv. exact Hv. Qed.

Lemma lower_iff n v x : 0 < v -> (0 <= n + v * x <-> (inject_Z (- n) / inject_Z v <= inject_Z x)%Q).
Proof.
  intro Hv. assert (0 < inject_Z v)%Q as Hq by (change 0%Q with (inject_Z 0); rewrite <- Zlt_Qlt; exact Hv).
  split; intro H.
  - apply Qle_shift_div_r; [exact Hq|]. rewrite <- inject_Z_mult, <- Zle_Qle. lia.
  - assert (- n <= x * v); [|lia]. rewrite Zle_Qle, inject_Z_mult.
    setoid_replace (inject_Z (- n)) with (inject_Z (- n) / inject_Z v * inject_Z v)%Q
      by (field; apply inj_nz; lia).
    apply Qmult_le_compat_r; [exact H|lra].
Qed.
Lemma upper_iff n v x : v < 0 -> (0 <= n + v * x <-> (inject_Z x <= inject_Z (- n) / inject_Z v)%Q).
Proof.
  intro Hv. assert (inject_Z (- n) / inject_Z v == inject_Z n / inject_Z (- v))%Q as E.
  { rewrite !inject_Z_opp. field. apply inj_nz; lia. }
  rewrite E. assert (0 < inject_Z (- v))%Q as Hq by (change 0%Q with (inject_Z 0); rewrite <- Zlt_Qlt; lia).
  split; intro H.
  - apply Qle_shift_div_l; [exact Hq|]. rewrite <- inject_Z_mult, <- Zle_Qle. lia.
  - assert (x * - v <= n); [|lia]. rewrite Zle_Qle, inject_Z_mult.
    setoid_replace (inject_Z n) with (inject_Z n / inject_Z (- v) * inject_Z (- v))%Q
      by (field; apply inj_nz; lia).
    apply Qmult_le_compat_r; [exact H|lra].
Qed.

Definition above (lo : option Q) (x : Z) := match lo with None => True | Some q => (q <= inject_Z x)%Q end.
Definition below (hi : option Q) (x : Z) := match hi with None => True | Some q => (inject_Z x <= q)%Q end.
Definition pair_ok (x : Z) (p : Z * Z) := 0 <= fst p + snd p * x.

Lemma margins_none : forall l lo hi, margins l lo hi = None -> forall x, ~ Forall (pair_ok x) l.
Proof.
  induction l as [|[n v] l IH]; intros lo hi H x HF; cbn [margins] in H; [discriminate|].
  inversion HF as [|? ? Hp HF']; subst. unfold pair_ok in Hp; cbn in Hp.
  destruct (Z.ltb_spec 0 v); [eapply IH; eauto|]. destruct (Z.ltb_spec v 0); [eapply IH; eauto|].
  destruct (Z.ltb_spec n 0); [assert (v = 0) by lia; subst; lia|eapply IH; eauto].
Qed.
Lemma margins_some : forall l lo hi lo' hi', margins l lo hi = Some (lo', hi') ->
  forall x, (above lo' x /\ below hi' x) <-> (above lo x /\ below hi x /\ Forall (pair_ok x) l).
Proof.
  induction l as [|[n v] l IH]; intros lo hi lo' hi' H x; cbn [margins] in H.
  - injection H as <- <-. split; [intros []; auto|tauto].
  - rewrite Forall_cons_iff. unfold pair_ok at 1. cbn [fst snd].
    destruct (Z.ltb_spec 0 v) as [Hv|Hv]; [|destruct (Z.ltb_spec v 0) as [Hv'|Hv']].
    + rewrite (IH _ _ _ _ H x), (lower_iff n x Hv). unfold above at 1.
      destruct lo as [m|]; cbn [above]; [|tauto].
      pose proof (qgtb_spec (inject_Z (- n) / inject_Z v) m) as Hq.
      destruct (qgtb _ _); split; intros HH; decompose [and] HH; clear HH; repeat split; auto; lra.
    + rewrite (IH _ _ _ _ H x), (upper_iff n x Hv'). unfold below at 1.
      destruct hi as [m|]; cbn [below]; [|tauto].
      pose proof (qgtb_spec m (inject_Z (- n) / inject_Z v)) as Hq.
      destruct (qgtb _ _); split; intros HH; decompose [and] HH; clear HH; repeat split; auto; lra.
    + destruct (Z.ltb_spec n 0) as [Hn|Hn]; [discriminate|]. rewrite (IH _ _ _ _ H x).
      assert (v = 0) as -> by lia. split; [intros (? & ? & ?); repeat split; auto; lia|tauto].
Qed.

(** Bounds are quotients by one of the given denominators. *)
Definition from (l : list (Z * Z)) (o : option Q) :=
  match o with None => True
  | Some q => exists p, In p l /\ snd p <> 0 /\ q = (inject_Z (- fst p) / inject_Z (snd p))%Q end.
Lemma margins_from L : forall l lo hi lo' hi', (forall p, In p l -> In p L) -> from L lo -> from L hi ->
  margins l lo hi = Some (lo', hi') -> from L lo' /\ from L hi'.
Proof.
  induction l as [|[n v] l IH]; intros lo hi lo' hi' Hl H1 H2 H; cbn [margins] in H.
  - injection H as <- <-. auto.
  - assert (forall p, In p l -> In p L) as Hl' by (intros; apply Hl; right; auto).
    assert (v <> 0 -> from L (Some (inject_Z (- n) / inject_Z v)%Q)) as Hq.
    { intro Hv. exists (n, v). split; [apply Hl; left; reflexivity|]. auto. }
    destruct (Z.ltb_spec 0 v) as [Hv|Hv]; [|destruct (Z.ltb_spec v 0) as [Hv'|Hv']].
    + apply (IH _ _ _ _ Hl') in H; auto. destruct lo as [m|]; [destruct (qgtb _ _)|]; auto; apply Hq; lia.
    + apply (IH _ _ _ _ Hl') in H; auto. destruct hi as [m|]; [destruct (qgtb _ _)|]; auto; apply Hq; lia.
    + destruct (n <? 0); [discriminate|]. apply (IH _ _ _ _ Hl' H1 H2 H).
Qed.

(** ** Ranges *)

Lemma in_arange a b step x : 0 < step ->
  In x (arange a b step) <-> a <= x < b /\ (step | x - a).
Proof.
  intro Hs. unfold arange. rewrite in_map_iff. split.
  - intros (k & <- & Hk). apply in_seq in Hk.
    assert (Z.of_nat k < (b - a + step - 1) / step) as Hk' by lia.
    split.
    + assert (Z.of_nat k + 1 <= (b - a + step - 1) / step) as H1 by lia.
      assert (step * (Z.of_nat k + 1) <= b - a + step - 1).
      { etransitivity; [apply Z.mul_le_mono_nonneg_l; [lia|exact H1]|]. apply Z.mul_div_le. exact Hs. }
      nia.
    + exists (Z.of_nat k). ring.
  - intros (Hx & (k & Hk)). exists (Z.to_nat k). assert (0 <= k) by nia.
    split; [rewrite Z2Nat.id by assumption; lia|]. apply in_seq.
    assert (k < (b - a + step - 1) / step); [|lia].
    assert (k + 1 <= (b - a + step - 1) / step); [|lia]. apply Z.div_le_lower_bound; [exact Hs|]. nia.
Qed.
Lemma NoDup_arange a b step : 0 < step -> NoDup (arange a b step).
Proof.
  intro Hs. unfold arange. apply FinFun.Injective_map_NoDup; [|apply seq_NoDup].
  intros k k' H. assert (Z.of_nat k = Z.of_nat k') by nia. lia.
Qed.
Lemma in_int_range tol step lo hi x : 0 < step ->
  In x (int_range tol step lo hi) <->
  (snap tol lo <= inject_Z x)%Q /\ (inject_Z x <= snap tol hi)%Q /\ (step | x - Qceiling (snap tol lo)).
Proof.
  intro Hs. unfold int_range. destruct (Z.ltb_spec (Qfloor (snap tol hi)) (Qceiling (snap tol lo))) as [Hlt|Hge].
  - split; [intros []|]. intros (H1 & H2 & _). apply ceil_le in H1. apply floor_ge in H2. lia.
  - rewrite in_arange by exact Hs. rewrite <- ceil_le, <- floor_ge. split; intros; intuition lia.
Qed.
Lemma NoDup_int_range tol step lo hi : 0 < step -> NoDup (int_range tol step lo hi).
Proof. intro Hs. unfold int_range. destruct (_ <? _); [constructor|apply NoDup_arange, Hs]. Qed.

(** ** One variable *)

Lemma pairs_iff n0 v x : (length v <= length n0)%nat -> (feasible1 n0 v x <-> Forall (pair_ok x) (combine n0 v)).
Proof.
  unfold feasible1. revert v. induction n0 as [|n n0 IH]; intros [|a v] Hl; simpl in Hl; try lia.
  - split; [constructor|]. intros _ i Hi; simpl in Hi; lia.
  - split; [constructor|]. intros _ i Hi; simpl in Hi; lia.
  - cbn [combine]. rewrite Forall_cons_iff, <- (IH v) by lia. unfold pair_ok; cbn [fst snd]. split.
    + intro H. split; [apply (H 0%nat); simpl; lia|]. intros i Hi. apply (H (S i)). simpl; lia.
    + intros (H1 & H2) [|i] Hi; [exact H1|]. apply H2. simpl in Hi; lia.
Qed.

(** The tolerance is small against the components. *)
Definition tol_ok (tol : Q) (v : list Z) :=
  (0 <= tol)%Q /\ forall a, In a v -> (inject_Z (Z.abs a) * tol < 1)%Q.

Lemma combine_in_r (n0 v : list Z) p : In p (combine n0 v) -> In (snd p) v.
Proof. destruct p. apply in_combine_r. Qed.

(** Exactly the feasible integers, every [step]-th counted from the smallest. *)
Theorem C43_one_dim_partial tol step n0 v sols :
  tol_ok tol v -> 0 < step -> one_dim tol step n0 v = Some sols ->
  NoDup sols /\
  forall x, In x sols <->
    feasible1 n0 v x /\
    forall m, feasible1 n0 v m -> (forall y, feasible1 n0 v y -> m <= y) -> (step | x - m).
Proof.
  intros (Ht & Hv) Hs H. unfold one_dim in H. destruct (Nat.ltb_spec (length n0) (length v)) as [|Hl]; [discriminate|].
  destruct (margins _ _ _) as [[[lo|] [hi|]]|] eqn:Em; try discriminate; injection H as <-.
  - split; [apply NoDup_int_range, Hs|].
    destruct (@margins_from (combine n0 v) (combine n0 v) None None _ _ (fun p H => H) I I Em) as ((p & Hp & Hp0 & Ep) & (q & Hq & Hq0 & Eq)).
    assert (snap tol lo == lo)%Q as El by (rewrite Ep; apply snap_exact; [exact Hp0|apply Hv; eapply combine_in_r; eauto]).
    assert (snap tol hi == hi)%Q as Eh by (rewrite Eq; apply snap_exact; [exact Hq0|apply Hv; eapply combine_in_r; eauto]).
    assert (forall x, feasible1 n0 v x <-> (lo <= inject_Z x)%Q /\ (inject_Z x <= hi)%Q) as Hf.
    { intro x. rewrite (pairs_iff x Hl). pose proof (margins_some Em x) as Hm. cbn [above below] in Hm. tauto. }
    pose proof (Qceiling_comp _ _ El) as Ec.
    intro x. rewrite in_int_range by exact Hs. rewrite El, Eh, Hf.
    assert (forall y, feasible1 n0 v y -> Qceiling (snap tol lo) <= y) as Hmin.
    { intros y Hy. apply Hf in Hy. apply ceil_le. rewrite El. apply Hy. }
    split.
    + intros (H1 & H2 & H3). split; [auto|]. intros m Hm Hle.
      assert (m = Qceiling (snap tol lo)) as ->; [|rewrite Ec; exact H3].
      assert (Qceiling (snap tol lo) <= m) by (apply Hmin, Hm).
      assert (m <= Qceiling (snap tol lo)); [|lia]. apply Hle, Hf.
      assert (snap tol lo <= inject_Z (Qceiling (snap tol lo)))%Q by (apply ceil_le; lia).
      split; [lra|].
      assert (Qceiling (snap tol lo) <= x) as Hcx by (apply Hmin, Hf; auto). rewrite Zle_Qle in Hcx. lra.
    + intros ((H1 & H2) & H3). split; [exact H1|]. split; [exact H2|]. rewrite <- Ec. apply H3.
      * apply Hf. assert (snap tol lo <= inject_Z (Qceiling (snap tol lo)))%Q by (apply ceil_le; lia).
        split; [lra|]. assert (Qceiling (snap tol lo) <= x) as Hcx by (apply Hmin, Hf; auto). rewrite Zle_Qle in Hcx. lra.
      * exact Hmin.
  - split; [constructor|]. intro x. split; [intros []|]. intros (H & _).
    apply (pairs_iff x Hl) in H. exact (margins_none Em H).
Qed.

(** With step 1: exactly the feasible integers. *)
Theorem C43_one_dim_all_partial tol n0 v sols :
  tol_ok tol v -> one_dim tol 1 n0 v = Some sols ->
  NoDup sols /\ forall x, In x sols <-> feasible1 n0 v x.
Proof.
  intros Ht H. destruct (C43_one_dim_partial (step := 1) Ht ltac:(lia) H) as (H1 & H2). split; [exact H1|].
  intro x. rewrite H2. split; [tauto|]. intro Hx. split; [exact Hx|]. intros; apply Z.divide_1_l.
Qed.

(** The ValueError means that infinitely many integers are feasible. *)
Theorem C43_unbounded tol step n0 v : (length v <= length n0)%nat -> one_dim tol step n0 v = None ->
  forall B, exists x, B < Z.abs x /\ feasible1 n0 v x.
Proof.
  intros Hl H B. unfold one_dim in H. destruct (Nat.ltb_spec (length n0) (length v)); [lia|].
  destruct (margins _ _ _) as [[[lo|] [hi|]]|] eqn:Em; try discriminate.
  - exists (Z.max (B + 1) (Z.max 1 (Qceiling lo))).
    split; [lia|]. apply (pairs_iff _ Hl), (margins_some Em). cbn [above below]. split; [|exact I].
    apply ceil_le. lia.
  - exists (Z.min (- B - 1) (Z.min (-1) (Qfloor hi))).
    split; [lia|]. apply (pairs_iff _ Hl), (margins_some Em). cbn [above below]. split; [exact I|].
    apply floor_ge. lia.
  - exists (Z.abs B + 1). split; [lia|]. apply (pairs_iff _ Hl), (margins_some Em). split; exact I.
Qed.

(** A component beyond the inverse tolerance: an infeasible point is returned. *)
Theorem C43_tolerance_refuted :
  ~ (forall n0 v sols x, one_dim (1 # 1000000) 1 n0 v = Some sols -> In x sols -> feasible1 n0 v x).
Proof.
  intro H. specialize (H [-1; 1] [2000000; -1] [0; 1] 0).
  assert (feasible1 [-1; 1] [2000000; -1] 0) as Hf.
  { apply H; [vm_compute; reflexivity|left; reflexivity]. }
  specialize (Hf 0%nat ltac:(simpl; lia)). cbn in Hf. lia.
Qed.

(** ** Several variables *)

Lemma nth_vadd u w i : length u = length w -> nth i (vadd u w) 0 = nth i u 0 + nth i w 0.
Proof.
  revert w i. induction u as [|a u IH]; intros [|b w] [|i] H; simpl in *; try discriminate; auto.
Qed.
Lemma nth_vscale m v i : nth i (vscale m v) 0 = m * nth i v 0.
Proof. unfold vscale. rewrite <- (Z.mul_0_r m) at 1. apply map_nth. Qed.
Lemma length_vadd_eq u w : length u = length w -> length (vadd u w) = length w.
Proof. revert w. induction u as [|a u IH]; intros [|b w] H; simpl in *; try discriminate; auto. Qed.
Lemma length_vscale m v : length (vscale m v) = length v. Proof. apply map_length. Qed.

(** The linear program encloses the feasible first components up to the tolerance. *)
Definition lp_ok (lp : list Z -> list (list Z) -> option (Q * Q)) (tol : Q) :=
  forall n0 vs lo hi, lp n0 vs = Some (lo, hi) ->
    forall a x, feasible n0 vs (a :: x) -> (lo - tol <= inject_Z a)%Q /\ (inject_Z a <= hi + tol)%Q.

Lemma feasible_cons n0 v vs a x : length v = length n0 ->
  feasible n0 (v :: vs) (a :: x) <-> feasible (vadd (vscale a v) n0) vs x.
Proof.
  intro Hl. assert (length (vscale a v) = length n0) as Hl' by (rewrite length_vscale; exact Hl).
  unfold feasible. cbn [length]. rewrite length_vadd_eq by exact Hl'. split.
  - intros (H1 & H2). split; [lia|]. intros i Hi. rewrite nth_vadd, nth_vscale by exact Hl'.
    specialize (H2 i Hi). cbn [zcomb] in H2. lia.
  - intros (H1 & H2). split; [lia|]. intros i Hi. specialize (H2 i Hi).
    rewrite nth_vadd, nth_vscale in H2 by exact Hl'. cbn [zcomb]. lia.
Qed.

Lemma natural_ok lp tol : lp_ok lp tol -> (tol < 1 # 2)%Q -> forall vs n0 sols,
  Forall (tol_ok tol) vs -> Forall (fun v => length v = length n0) vs ->
  natural lp tol 1 n0 vs = Some sols ->
  NoDup sols /\ forall x, In x sols <-> feasible n0 vs x.
Proof.
  intros Hlp Ht. induction vs as [|v vs IH]; intros n0 sols Hv Hl H; [discriminate|].
  inversion Hv as [|? ? Hv1 Hv2]; subst. inversion Hl as [|? ? Hl1 Hl2]; subst.
  cbn [natural] in H. destruct vs as [|v2 vs].
  - destruct (one_dim tol 1 n0 v) as [xs|] eqn:E; [|discriminate]. injection H as <-.
    destruct (C43_one_dim_all_partial Hv1 E) as (N & Hx). split.
    + apply FinFun.Injective_map_NoDup; [|exact N]. intros a b Hab. congruence.
    + intro x. rewrite in_map_iff. unfold feasible. split.
      * intros (a & <- & Ha). apply Hx in Ha. split; [reflexivity|]. intros i Hi. cbn [zcomb].
        specialize (Ha i ltac:(lia)). lia.
      * intros (Lx & Hf). destruct x as [|a [|b x]]; try discriminate Lx. exists a. split; [reflexivity|].
        apply Hx. intros i Hi. specialize (Hf i ltac:(lia)). cbn [zcomb] in Hf. lia.
  - remember (v2 :: vs) as rest. destruct (lp n0 (v :: rest)) as [[lo hi]|] eqn:El; [|discriminate].
    cbn [option_bind] in H.
    destruct (opt_map _ (int_range tol 1 lo hi)) as [parts|] eqn:Ep; [|discriminate]. injection H as <-.
    assert (0 <= tol)%Q as Ht0 by apply Hv1.
    (* membership through the parts *)
    assert (forall l parts,
      opt_map (fun m => let? s := natural lp tol 1 (vadd (vscale m v) n0) rest in Some (map (cons m) s)) l = Some parts ->
      NoDup l -> NoDup (concat parts) /\
      forall x, In x (concat parts) <-> exists a x', x = a :: x' /\ In a l /\ feasible (vadd (vscale a v) n0) rest x') as Hparts.
    { clear parts Ep. induction l as [|m l IHl]; intros parts Ep Hnd; cbn [opt_map] in Ep.
      - injection Ep as <-. split; [constructor|]. intro x. split; [intros []|]. intros (a & x' & _ & [] & _).
      - destruct (natural lp tol 1 (vadd (vscale m v) n0) rest) as [s|] eqn:Es; [|discriminate].
        cbn [option_bind] in Ep. destruct (opt_map _ l) as [ps|] eqn:Eps; [|discriminate].
        injection Ep as <-. apply NoDup_cons_iff in Hnd as (Hm & Hnd'). cbn [concat].
        destruct (IHl ps eq_refl Hnd') as (N2 & I2).
        assert (Forall (fun w => length w = length (vadd (vscale m v) n0)) rest) as Hl2'.
        { rewrite length_vadd_eq by (rewrite length_vscale; exact Hl1). exact Hl2. }
        destruct (IH _ _ Hv2 Hl2' Es) as (N1 & I1). split.
        + apply NoDup_app_intro; [|exact N2|].
          * apply FinFun.Injective_map_NoDup; [|exact N1]. intros a b Hab. congruence.
          * intros x Hx Hx2. apply in_map_iff in Hx as (y & <- & _). apply I2 in Hx2 as (a & x' & Ha & Hin & _).
            injection Ha as -> _. contradiction.
        + intro x. rewrite in_app_iff, in_map_iff, I2. split.
          * intros [(y & <- & Hy)|(a & x' & -> & Ha & Hf)].
            -- exists m, y. split; [reflexivity|]. split; [left; reflexivity|]. apply I1, Hy.
            -- exists a, x'. split; [reflexivity|]. split; [right; exact Ha|exact Hf].
          * intros (a & x' & -> & [<-|Ha] & Hf).
            -- left. exists x'. split; [reflexivity|]. apply I1, Hf.
            -- right. exists a, x'. auto. }
    destruct (Hparts _ _ Ep) as (N & I); [apply NoDup_int_range; lia|]. split; [exact N|].
    intro x. rewrite I. split.
    + intros (a & x' & -> & _ & Hf). apply feasible_cons; [exact Hl1|exact Hf].
    + intro Hf. destruct x as [|a x']; [destruct Hf as (Lx & _); discriminate Lx|].
      exists a, x'. split; [reflexivity|]. split; [|apply feasible_cons; [exact Hl1|exact Hf]].
      destruct (Hlp _ _ _ _ El _ _ Hf) as (B1 & B2). apply in_int_range; [lia|].
      split; [apply snap_lo; assumption|]. split; [apply snap_hi; assumption|]. apply Z.divide_1_l.
Qed.

(** When it returns, exactly the integer points of the polytope, each once. *)
Theorem C43_natural_partial lp tol n0 vs sols :
  lp_ok lp tol -> (tol < 1 # 2)%Q -> Forall (tol_ok tol) vs ->
  Forall (fun v => length v = length n0) vs ->
  natural lp tol 1 n0 vs = Some sols ->
  NoDup sols /\ forall x, In x sols <-> feasible n0 vs x.
Proof. intros H1 H2 H3 H4 H5. exact (natural_ok H1 H2 H3 H4 H5). Qed.

(** Skipping steps still returns only points of the polytope, each once. *)
Theorem C43_natural_step_partial lp tol step : 0 < step -> forall vs n0 sols,
  Forall (tol_ok tol) vs -> Forall (fun v => length v = length n0) vs ->
  natural lp tol step n0 vs = Some sols -> forall x, In x sols -> feasible n0 vs x.
Proof.
  intros Hs. induction vs as [|v vs IH]; intros n0 sols Hv Hl H x Hx; [discriminate|].
  inversion Hv as [|? ? Hv1 Hv2]; subst. inversion Hl as [|? ? Hl1 Hl2]; subst.
  cbn [natural] in H. destruct vs as [|v2 vs].
  - destruct (one_dim tol step n0 v) as [xs|] eqn:E; [|discriminate]. injection H as <-.
    destruct (C43_one_dim_partial Hv1 Hs E) as (_ & Hf). apply in_map_iff in Hx as (a & <- & Ha).
    apply Hf in Ha as (Ha & _). split; [reflexivity|]. intros i Hi. cbn [zcomb]. specialize (Ha i ltac:(lia)). lia.
  - remember (v2 :: vs) as rest. destruct (lp n0 (v :: rest)) as [[lo hi]|] eqn:El; [|discriminate].
    cbn [option_bind] in H.
    destruct (opt_map _ (int_range tol step lo hi)) as [parts|] eqn:Ep; [|discriminate]. injection H as <-.
    apply in_concat in Hx as (part & Hp & Hx). apply In_nth_error in Hp as (i & Hi).
    destruct (nth_error (int_range tol step lo hi) i) as [m|] eqn:Em.
    + destruct (opt_map_nth _ _ _ Ep Em) as (y0 & Hn & Hi'). rewrite Hi in Hi'. injection Hi' as <-.
      destruct (natural lp tol step (vadd (vscale m v) n0) rest) as [s|] eqn:Es; [|discriminate].
      cbn in Hn. injection Hn as <-. apply in_map_iff in Hx as (y & <- & Hy).
      apply feasible_cons; [exact Hl1|]. eapply IH; [exact Hv2| |exact Es|exact Hy].
      rewrite length_vadd_eq by (rewrite length_vscale; exact Hl1). exact Hl2.
    + apply nth_error_None in Em. pose proof (opt_map_length _ _ Ep) as Lp.
      assert (nth_error parts i = None) by (apply nth_error_None; lia). congruence.
Qed.

(** A two-dimensional lattice of compositions: three species on four sites. *)
Definition case_lp (n0 : list Z) (vs : list (list Z)) : option (Q * Q) := Some (-4 # 1, 4 # 1)%Q.
Example C43_case :
  one_dim (1 # 1000000) 1 [4; -1; 3] [-1; 2; 0] = Some [1; 2; 3; 4] /\
  one_dim (1 # 1000000) 2 [4; -1; 3] [-1; 2; 0] = Some [1; 3] /\
  tol_ok (1 # 1000000) [-1; 2; 0] /\
  natural case_lp (1 # 1000000) 1 [2; 0; 0] [[-1; 1; 0]; [-1; 0; 1]]
    = Some [[0; 0]; [0; 1]; [0; 2]; [1; 0]; [1; 1]; [2; 0]].
Proof.
  split; [vm_compute; reflexivity|]. split; [vm_compute; reflexivity|].
  split; [|vm_compute; reflexivity]. split; [discriminate|].
  intros a [<-|[<-|[<-|[]]]]; reflexivity.
Qed.

Print Assumptions C43_one_dim_partial.
Print Assumptions C43_one_dim_all_partial.
Print Assumptions C43_unbounded.
Print Assumptions C43_tolerance_refuted.
Print Assumptions C43_natural_partial.
Print Assumptions C43_natural_step_partial.
