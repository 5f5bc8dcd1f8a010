(** C39: Hermite normal forms and the enumeration of supercell matrices. *)
From Verif Require Import IntMath.
Set Implicit Arguments.
Unset Strict Implicit.
Open Scope Z_scope.

(** ** Specification: lattices of integer points *)

(** The lattice generated by the columns of a matrix. *)
Definition lattice (m : m3) (x y z : Z) : Prop :=
  exists u v w, x = e11 m * u + e12 m * v + e13 m * w
             /\ y = e21 m * u + e22 m * v + e23 m * w
             /\ z = e31 m * u + e32 m * v + e33 m * w.
Definition same_lattice (m k : m3) : Prop := forall x y z, lattice m x y z <-> lattice k x y z.

(** Hermite normal form as documented: lower triangular, positive diagonal, entries
    left of a diagonal entry reduced modulo it. *)
Definition is_hnf (m : m3) : Prop :=
  e12 m = 0 /\ e13 m = 0 /\ e23 m = 0 /\ 0 < e11 m /\ 0 < e22 m /\ 0 < e33 m /\
  0 <= e21 m < e22 m /\ 0 <= e31 m < e33 m /\ 0 <= e32 m < e33 m.

Definition tri (m : m3) := e12 m = 0 /\ e13 m = 0 /\ e23 m = 0.
Definition scal (k : Z) (m : m3) : m3 := m3mul (M3 k 0 0 0 k 0 0 0 k) m.
Ltac m3s := unfold scal, m3mul, m3adj, m3det, m3t, is_hnf, tri;
            cbn [e11 e12 e13 e21 e22 e23 e31 e32 e33].
Ltac m3h H := unfold scal, m3mul, m3adj, m3det, m3t, is_hnf, tri in H;
              cbn [e11 e12 e13 e21 e22 e23 e31 e32 e33] in H.

(** ** Enumeration *)

Lemma in_zrange lo hi x : In x (zrange lo hi) <-> lo <= x < hi.
Proof.
  unfold zrange. rewrite in_map_iff. split.
  - intros (k & <- & Hk). apply in_seq in Hk. lia.
  - intro H. exists (Z.to_nat (x - lo)). split; [lia|]. apply in_seq. lia.
Qed.
Lemma NoDup_zrange lo hi : NoDup (zrange lo hi).
Proof.
  unfold zrange. apply FinFun.Injective_map_NoDup; [intros a b; lia|]. apply seq_NoDup.
Qed.
Lemma in_divisors n x : 0 < n -> In x (divisors n) <-> 0 < x /\ (x | n).
Proof.
  intro Hn. unfold divisors. rewrite filter_In, in_zrange, Z.eqb_eq. split.
  - intros (H & Hm). split; [lia|]. apply Z.mod_divide in Hm; [exact Hm|lia].
  - intros (Hx & Hd). split.
    + split; [lia|]. apply Z.divide_pos_le in Hd; lia.
    + apply Z.mod_divide; [lia|exact Hd].
Qed.
Lemma NoDup_divisors n : NoDup (divisors n).
Proof. apply NoDup_filter, NoDup_zrange. Qed.

Lemma NoDup_flat A B (f : A -> list B) l :
  NoDup l -> (forall x, In x l -> NoDup (f x)) ->
  (forall x y b, In x l -> In y l -> In b (f x) -> In b (f y) -> x = y) ->
  NoDup (flat_map f l).
Proof.
  induction l as [|x l IH]; intros Hl Hf Hd; simpl; [constructor|].
  inversion Hl as [|? ? Hx Hl']; subst.
  assert (NoDup (flat_map f l)) as H1.
  { apply IH; [assumption| |].
    - intros; apply Hf; right; auto.
    - intros y z b Hy Hz; apply Hd; right; auto. }
  assert (forall b, In b (f x) -> ~ In b (flat_map f l)) as H4.
  { intros b Hb Hin. apply in_flat_map in Hin as (y & Hy & Hb').
    assert (x = y) by (eapply Hd; [left; reflexivity|right; exact Hy|exact Hb|exact Hb']).
    subst. contradiction. }
  assert (NoDup (f x)) as H5 by (apply Hf; left; auto).
  clear - H1 H4 H5. induction (f x) as [|b l0 IH0]; simpl; [exact H1|].
  inversion H5; subst. constructor.
  - rewrite in_app_iff. intros [Hi|Hi]; [contradiction|]. apply (H4 b); [left; auto|auto].
  - apply IH0; [intros b' Hb'; apply H4; right; auto|assumption].
Qed.

Lemma in_hnfs D m : 0 < D -> In m (hnfs D) <-> is_hnf m /\ m3det m = D.
Proof.
  intro HD. unfold hnfs. rewrite in_flat_map. split.
  - intros (a & Ha & H). apply in_divisors in Ha as (Ha0 & (q & Hq)); [|exact HD].
    subst D. rewrite Z.div_mul in H by lia.
    assert (0 < q) as Hq0 by nia.
    apply in_flat_map in H as (c & Hc & H). apply in_divisors in Hc as (Hc0 & (f & Hf)); [|exact Hq0].
    subst q. rewrite Z.div_mul in H by lia. assert (0 < f) as Hf0 by nia.
    apply in_flat_map in H as (b & Hb & H). apply in_zrange in Hb.
    apply in_flat_map in H as (d & Hd & H). apply in_zrange in Hd.
    apply in_map_iff in H as (e & <- & He). apply in_zrange in He.
    m3s. split; [lia|ring].
  - intros (H & Hd). destruct m as [a z1 z2 b c z3 d e f].
    unfold is_hnf in H; simpl in H. destruct H as (-> & -> & -> & Ha & Hc & Hf & Hb & Hd1 & He).
    unfold m3det in Hd; simpl in Hd.
    assert (D = (f * c) * a) as -> by lia.
    exists a. split; [apply in_divisors; [nia|]; split; [lia|exists (f * c); ring]|].
    rewrite Z.div_mul by lia. apply in_flat_map. exists c. split.
    { apply in_divisors; [nia|]. split; [lia|exists f; ring]. }
    rewrite Z.div_mul by lia.
    apply in_flat_map. exists b. split; [apply in_zrange; lia|].
    apply in_flat_map. exists d. split; [apply in_zrange; lia|].
    apply in_map_iff. exists e. split; [reflexivity|apply in_zrange; lia].
Qed.

Lemma NoDup_hnfs D : NoDup (hnfs D).
Proof.
  unfold hnfs. apply NoDup_flat; [apply NoDup_divisors| |].
  - intros a _. apply NoDup_flat; [apply NoDup_divisors| |].
    + intros c _. apply NoDup_flat; [apply NoDup_zrange| |].
      * intros b _. apply NoDup_flat; [apply NoDup_zrange| |].
        -- intros d _. apply FinFun.Injective_map_NoDup; [|apply NoDup_zrange].
           intros e e' H. inversion H; reflexivity.
        -- intros d d' m _ _ H H'. apply in_map_iff in H as (e & <- & _).
           apply in_map_iff in H' as (e' & He' & _). inversion He'; reflexivity.
      * intros b b' m _ _ H H'. apply in_flat_map in H as (d & _ & H).
        apply in_map_iff in H as (e & <- & _). apply in_flat_map in H' as (d' & _ & H').
        apply in_map_iff in H' as (e' & He' & _). inversion He'; reflexivity.
    + intros c c' m _ _ H H'. apply in_flat_map in H as (b & _ & H).
      apply in_flat_map in H as (d & _ & H). apply in_map_iff in H as (e & <- & _).
      apply in_flat_map in H' as (b' & _ & H'). apply in_flat_map in H' as (d' & _ & H').
      apply in_map_iff in H' as (e' & He' & _). inversion He'; reflexivity.
  - intros a a' m _ _ H H'.
    apply in_flat_map in H as (c & _ & H). apply in_flat_map in H as (b & _ & H).
    apply in_flat_map in H as (d & _ & H). apply in_map_iff in H as (e & <- & _).
    apply in_flat_map in H' as (c' & _ & H'). apply in_flat_map in H' as (b' & _ & H').
    apply in_flat_map in H' as (d' & _ & H'). apply in_map_iff in H' as (e' & He' & _).
    inversion He'; reflexivity.
Qed.

(** ** Lattices and products *)

Lemma lattice_mul m k x y z : lattice (m3mul m k) x y z -> lattice m x y z.
Proof.
  intros (u & v & w & -> & -> & ->). m3s.
  exists (e11 k * u + e12 k * v + e13 k * w), (e21 k * u + e22 k * v + e23 k * w),
         (e31 k * u + e32 k * v + e33 k * w). repeat split; ring.
Qed.
Definition within (m k : m3) := exists U, m = m3mul k U.
Lemma within_of m k : (forall x y z, lattice m x y z -> lattice k x y z) -> within m k.
Proof.
  intro H. destruct m as [a b c d e f g h i]; unfold within.
  assert (lattice k a d g) as (u1 & u2 & u3 & -> & -> & ->) by (apply H; exists 1, 0, 0; simpl; lia).
  assert (lattice k b e h) as (v1 & v2 & v3 & -> & -> & ->) by (apply H; exists 0, 1, 0; simpl; lia).
  assert (lattice k c f i) as (w1 & w2 & w3 & -> & -> & ->) by (apply H; exists 0, 0, 1; simpl; lia).
  exists (M3 u1 v1 w1 u2 v2 w2 u3 v3 w3). reflexivity.
Qed.
Lemma same_within m k : same_lattice m k <-> within m k /\ within k m.
Proof.
  split.
  - intro H. split; apply within_of; intros; apply H; auto.
  - intros ((U & HU) & (V & HV)) x y z. split; intro H.
    + rewrite HU in H. eapply lattice_mul; eauto.
    + rewrite HV in H. eapply lattice_mul; eauto.
Qed.
Lemma det_mul m k : m3det (m3mul m k) = m3det m * m3det k.
Proof. m3s. ring. Qed.
Lemma same_refl m : same_lattice m m. Proof. intros x y z; tauto. Qed.
Lemma same_sym m k : same_lattice m k -> same_lattice k m.
Proof. intros H x y z; symmetry; apply H. Qed.
Lemma same_trans m k l : same_lattice m k -> same_lattice k l -> same_lattice m l.
Proof. intros H1 H2 x y z. rewrite (H1 x y z). apply H2. Qed.

(** A matrix and its right product with a matrix that has an integer inverse. *)
Lemma same_mul m U V : m3mul U V = M3 1 0 0 0 1 0 0 0 1 -> same_lattice m (m3mul m U).
Proof.
  intro H. apply same_within. split.
  - exists V. assert (m3mul (m3mul m U) V = m3mul m (m3mul U V)) as ->.
    { m3s; f_equal; ring. }
    rewrite H. destruct m; m3s; f_equal; ring.
  - exists U. reflexivity.
Qed.

(** Column operations. *)
Lemma bezout_cols a b : exists p q r s, p * s - q * r = 1 /\ a * q + b * s = 0.
Proof.
  destruct (Z.eq_dec b 0) as [->|Hb].
  - exists 1, 0, 0, 1. lia.
  - destruct (Z.gcd_bezout a b _ eq_refl) as (x & y & Hxy).
    assert (Z.gcd a b <> 0) as Hg by (intro H; apply Z.gcd_eq_0_r in H; contradiction).
    destruct (Z.gcd_divide_l a b) as (u & Hu). destruct (Z.gcd_divide_r a b) as (v & Hv).
    remember (Z.gcd a b) as g. exists x, (- v), y, u. split; [|subst a b; ring].
    apply Z.mul_reg_r with g; [exact Hg|].
    transitivity (x * (u * g) + y * (v * g)); [ring|]. rewrite <- Hu, <- Hv. lia.
Qed.


Lemma reduce_23 m : exists k, same_lattice m k /\ e13 k = 0.
Proof.
  destruct (bezout_cols (e12 m) (e13 m)) as (p & q & r & s & H1 & H2).
  exists (m3mul m (M3 1 0 0 0 p q 0 r s)). split.
  - apply same_mul with (V := M3 1 0 0 0 s (-q) 0 (-r) p). m3s; f_equal; lia.
  - m3s. lia.
Qed.
Lemma reduce_12 m : e13 m = 0 -> exists k, same_lattice m k /\ e12 k = 0 /\ e13 k = 0.
Proof.
  intro H. destruct (bezout_cols (e11 m) (e12 m)) as (p & q & r & s & H1 & H2).
  exists (m3mul m (M3 p q 0 r s 0 0 0 1)). split.
  - apply same_mul with (V := M3 s (-q) 0 (-r) p 0 0 0 1). m3s; f_equal; lia.
  - m3s. rewrite H. lia.
Qed.
Lemma reduce_33 m : e12 m = 0 -> e13 m = 0 -> exists k, same_lattice m k /\ tri k.
Proof.
  intros Ha Hb. destruct (bezout_cols (e22 m) (e23 m)) as (p & q & r & s & H1 & H2).
  exists (m3mul m (M3 1 0 0 0 p q 0 r s)). split.
  - apply same_mul with (V := M3 1 0 0 0 s (-q) 0 (-r) p). m3s; f_equal; lia.
  - m3s. rewrite Ha, Hb. lia.
Qed.
Lemma triangular m : exists k, same_lattice m k /\ tri k.
Proof.
  destruct (reduce_23 m) as (k1 & S1 & H1). destruct (reduce_12 H1) as (k2 & S2 & H2 & H3).
  destruct (reduce_33 H2 H3) as (k3 & S3 & H4). exists k3. split; [|exact H4].
  eapply same_trans; [exact S1|]. eapply same_trans; [exact S2|exact S3].
Qed.

Lemma same_det m k : same_lattice m k -> Z.abs (m3det m) = Z.abs (m3det k).
Proof.
  intro H. apply same_within in H as ((U & HU) & (V & HV)).
  assert (m3det m = m3det k * m3det U) as E1 by (rewrite HU at 1; apply det_mul).
  assert (m3det k = m3det m * m3det V) as E2 by (rewrite HV at 1; apply det_mul).
  apply Z.divide_antisym_nonneg; try apply Z.abs_nonneg; apply Z.divide_abs_l, Z.divide_abs_r.
  - exists (m3det V). lia.
  - exists (m3det U). lia.
Qed.

Lemma sgn_cases x : x <> 0 -> exists s, (s = 1 \/ s = -1) /\ 0 < x * s.
Proof. intro H. destruct (Z_lt_le_dec 0 x); [exists 1|exists (-1)]; lia. Qed.

Lemma positive_tri m : tri m -> m3det m <> 0 ->
  exists k, same_lattice m k /\ tri k /\ 0 < e11 k /\ 0 < e22 k /\ 0 < e33 k.
Proof.
  intros (H1 & H2 & H3) Hd. destruct m as [a z1 z2 b c z3 d e f]; simpl in *. subst.
  unfold m3det in Hd; simpl in Hd.
  destruct (@sgn_cases a) as (s1 & Hs1 & P1); [intro; subst; apply Hd; ring|].
  destruct (@sgn_cases c) as (s2 & Hs2 & P2); [intro; subst; apply Hd; ring|].
  destruct (@sgn_cases f) as (s3 & Hs3 & P3); [intro; subst; apply Hd; ring|].
  exists (m3mul (M3 a 0 0 b c 0 d e f) (M3 s1 0 0 0 s2 0 0 0 s3)). split.
  - apply same_mul with (V := M3 s1 0 0 0 s2 0 0 0 s3). m3s; f_equal; nia.
  - m3s. repeat split; lia.
Qed.

Lemma reduced m : tri m -> 0 < e11 m -> 0 < e22 m -> 0 < e33 m ->
  exists k, same_lattice m k /\ is_hnf k.
Proof.
  intros (H1 & H2 & H3) P1 P2 P3. destruct m as [a z1 z2 b c z3 d e f]; simpl in *. subst.
  set (x := - (b / c)). set (y := - (e / f)). set (w := - ((d + e * x) / f)).
  exists (m3mul (M3 a 0 0 b c 0 d e f) (M3 1 0 0 x 1 0 w y 1)). split.
  - apply same_mul with (V := M3 1 0 0 (-x) 1 0 (x * y - w) (-y) 1). clearbody x y w. m3s; f_equal; ring.
  - m3s.
    assert (0 <= b + c * x < c) as B1.
    { pose proof (Z.mod_pos_bound b c P2) as Hm. rewrite Z.mod_eq in Hm by lia. unfold x. nia. }
    assert (0 <= e + f * y < f) as B2.
    { pose proof (Z.mod_pos_bound e f P3) as Hm. rewrite Z.mod_eq in Hm by lia. unfold y. nia. }
    assert (0 <= d + e * x + f * w < f) as B3.
    { pose proof (Z.mod_pos_bound (d + e * x) f P3) as Hm. rewrite Z.mod_eq in Hm by lia. unfold w. nia. }
    clearbody x y w. repeat split; lia.
Qed.

Lemma hnf_exists m : m3det m <> 0 -> exists k, same_lattice m k /\ is_hnf k.
Proof.
  intro Hd. destruct (triangular m) as (k & S & T).
  assert (m3det k <> 0) as Hk by (pose proof (same_det S); lia).
  destruct (positive_tri T Hk) as (k2 & S2 & T2 & P1 & P2 & P3).
  destruct (reduced T2 P1 P2 P3) as (k3 & S3 & H3). exists k3. split; [|exact H3].
  eapply same_trans; [exact S|]. eapply same_trans; [exact S2|exact S3].
Qed.

Lemma hnf_unique m k : is_hnf m -> is_hnf k -> same_lattice m k -> m = k.
Proof.
  intros Hm Hk S. pose proof (same_det S) as HD. apply same_within in S as ((U & HU) & _).
  destruct m as [a z1 z2 b c z3 d e f], k as [a' y1 y2 b' c' y3 d' e' f'].
  destruct U as [u11 u12 u13 u21 u22 u23 u31 u32 u33].
  m3h Hm. m3h Hk. m3h HU. m3h HD.
  destruct Hm as (-> & -> & -> & A1 & A2 & A3 & A4 & A5 & A6).
  destruct Hk as (-> & -> & -> & B1 & B2 & B3 & B4 & B5 & B6).
  injection HU as E1 E2 E3 E4 E5 E6 E7 E8 E9.
  assert (u12 = 0) as -> by nia. assert (u13 = 0) as -> by nia. assert (u23 = 0) as -> by nia.
  ring_simplify in E1. ring_simplify in E5. ring_simplify in E9.
  ring_simplify in E4. ring_simplify in E7. ring_simplify in E8.
  assert (0 < u11) as P1 by nia. assert (0 < u22) as P2 by nia. assert (0 < u33) as P3 by nia.
  assert (u11 * u22 * u33 = 1) as Hu.
  { assert (0 < a' * c' * f') by (repeat apply Z.mul_pos_pos; lia).
    assert (a * c * f = a' * c' * f') as HH.
    { assert (0 < a * c * f) by (repeat apply Z.mul_pos_pos; lia). nia. }
    rewrite E1, E5, E9 in HH. apply Z.mul_reg_l with (a' * c' * f'); [lia|].
    rewrite Z.mul_1_r. rewrite <- HH at 2. ring. }
  assert (u11 = 1) as -> by nia. assert (u22 = 1) as -> by nia. assert (u33 = 1) as -> by nia.
  assert (u21 = 0) as -> by nia. assert (u32 = 0) as -> by nia.
  assert (u31 = 0) as -> by nia.
  subst. f_equal; ring.
Qed.

(** Exactly the matrices in Hermite normal form with the given determinant are
    yielded, each once. *)
Theorem C39_forms D : 0 < D ->
  NoDup (hnfs D) /\ forall m, In m (hnfs D) <-> is_hnf m /\ m3det m = D.
Proof. intro HD. split; [apply NoDup_hnfs|intro m; apply in_hnfs, HD]. Qed.

(** Every lattice of index D (given by any generating matrix of determinant D or -D)
    is generated by exactly one of the yielded matrices. *)
Theorem C39_sublattices D m : 0 < D -> Z.abs (m3det m) = D ->
  exists k, (In k (hnfs D) /\ same_lattice m k) /\
            forall k', In k' (hnfs D) -> same_lattice m k' -> k' = k.
Proof.
  intros HD Hm. destruct (@hnf_exists m) as (k & S & Hk); [lia|].
  assert (In k (hnfs D)) as Hin.
  { apply in_hnfs; [exact HD|]. split; [exact Hk|].
    pose proof (same_det S) as E. assert (0 < m3det k); [|lia].
    unfold is_hnf, m3det in *. destruct Hk as (-> & -> & -> & P1 & P2 & P3 & _).
    ring_simplify. repeat apply Z.mul_pos_pos; lia. }
  exists k. split; [split; assumption|].
  intros k' Hk' S'. apply in_hnfs in Hk' as (Hk' & _); [|exact HD].
  apply hnf_unique; [assumption|assumption|].
  eapply same_trans; [apply same_sym, S'|exact S].
Qed.

(** ** Symmetrically distinct supercells *)

(** The rotation maps the lattice of one matrix onto that of the other. *)
Definition rotated (R m k : m3) : Prop := same_lattice (m3mul R m) k.

Lemma adj_mul m : m3mul m (m3adj m) = M3 (m3det m) 0 0 0 (m3det m) 0 0 0 (m3det m).
Proof. m3s. f_equal; ring. Qed.
Lemma adj_mul_l m : m3mul (m3adj m) m = M3 (m3det m) 0 0 0 (m3det m) 0 0 0 (m3det m).
Proof. m3s. f_equal; ring. Qed.
Lemma mul_assoc a b c : m3mul (m3mul a b) c = m3mul a (m3mul b c).
Proof. m3s; f_equal; ring. Qed.

Lemma scal_inj k m1 m2 : k <> 0 -> scal k m1 = scal k m2 -> m1 = m2.
Proof.
  destruct m1, m2; m3s. intros Hk H. injection H as H1 H2 H3 H4 H5 H6 H7 H8 H9.
  f_equal; nia.
Qed.
Lemma divides_scal k m : k <> 0 ->
  forallb (fun x => x mod k =? 0) (m3list m) = true <-> exists U, m = scal k U.
Proof.
  intro Hk. rewrite forallb_forall. split.
  - intro H. assert (forall x, In x (m3list m) -> exists y, x = k * y) as H'.
    { intros x Hx. specialize (H x Hx). apply Z.eqb_eq, Z.mod_divide in H; [|exact Hk].
      destruct H as (y & ->). exists y; ring. }
    clear H. destruct m as [a b c d e f g h i]; unfold m3list in H'; cbn [e11 e12 e13 e21 e22 e23 e31 e32 e33] in H'.
    assert (forall P : Z -> Prop, (forall x, In x [a;b;c;d;e;f;g;h;i] -> P x) ->
            P a /\ P b /\ P c /\ P d /\ P e /\ P f /\ P g /\ P h /\ P i) as HP.
    { intros P HH. repeat split; apply HH; simpl; tauto. }
    apply HP in H' as ((a' & ->) & (b' & ->) & (c' & ->) & (d' & ->) & (e' & ->) & (f' & ->) & (g' & ->) & (h' & ->) & (i' & ->)).
    exists (M3 a' b' c' d' e' f' g' h' i'). m3s; f_equal; ring.
  - intros (U & ->) x Hx. apply Z.eqb_eq, Z.mod_divide; [exact Hk|].
    assert (m3list (scal k U) = map (Z.mul k) (m3list U)) as E.
    { unfold m3list. m3s. cbn [map]. repeat (f_equal; try ring). }
    rewrite E in Hx. apply in_map_iff in Hx as (y & <- & _). exists y. ring.
Qed.

Lemma unit_within m k : m3det m <> 0 -> Z.abs (m3det m) = Z.abs (m3det k) -> within m k -> same_lattice m k.
Proof.
  intros Hm HD (U & HU). apply same_within. split; [exists U; exact HU|].
  assert (m3det m = m3det k * m3det U) as E by (rewrite HU; apply det_mul).
  assert (m3det U = 1 \/ m3det U = -1) as HU1 by nia.
  exists (scal (m3det U) (m3adj U)). rewrite HU.
  assert (m3mul (m3mul k U) (scal (m3det U) (m3adj U)) = scal (m3det U) (m3mul k (m3mul U (m3adj U)))) as ->.
  { generalize (m3det U) (m3adj U). intros dU A. m3s; f_equal; ring. }
  rewrite adj_mul. assert (m3det U * m3det U = 1) as Hs by nia.
  remember (m3det U) as dU eqn:EdU. clear - Hs. destruct k; m3s.
  f_equal; match goal with |- ?r = ?l => replace l with (dU * dU * r) by ring; rewrite Hs; ring end.
Qed.

(** The test of the program is the geometric relation. *)
Lemma maps_onto_spec R scm hnf :
  m3det hnf <> 0 -> Z.abs (m3det R) = 1 -> Z.abs (m3det scm) = Z.abs (m3det hnf) ->
  maps_onto R scm hnf = true <-> rotated R (m3t scm) hnf.
Proof.
  intros Hh HR HS. unfold maps_onto, rotated. rewrite divides_scal by exact Hh.
  assert (m3det (m3t scm) = m3det scm) as Ht by (m3s; ring).
  assert (m3det (m3mul R (m3t scm)) <> 0) as Hn.
  { rewrite det_mul, Ht. intro H0. apply Z.mul_eq_0 in H0. lia. }
  split.
  - intros (U & HU). apply unit_within; [exact Hn| |].
    + rewrite det_mul, Ht, Z.abs_mul, HR. lia.
    + exists U. apply scal_inj with (k := m3det hnf); [exact Hh|].
      unfold scal. rewrite <- adj_mul, mul_assoc, <- mul_assoc with (b := R), HU.
      rewrite adj_mul. m3s; f_equal; ring.
  - intro S. apply same_within in S as ((U & HU) & _). exists U.
    rewrite mul_assoc, HU, <- mul_assoc, adj_mul_l. reflexivity.
Qed.

Section Enumerate.
Variables (D : Z) (rots : list m3).
Hypothesis HD : 0 < D.
Hypothesis Hdet : forall R, In R rots -> Z.abs (m3det R) = 1.

Let step := (fun scms hnf =>
               if existsb (fun R => existsb (fun scm => maps_onto R scm hnf) scms) rots then scms
               else scms ++ [m3t hnf]).

Lemma t_t m : m3t (m3t m) = m. Proof. destruct m; reflexivity. Qed.
Lemma step_inv scms hnf :
  existsb (fun R => existsb (fun scm => maps_onto R scm hnf) scms) rots = true <->
  exists R scm, In R rots /\ In scm scms /\ maps_onto R scm hnf = true.
Proof.
  rewrite existsb_exists. split.
  - intros (R & HR & H). apply existsb_exists in H as (scm & Hs & Hm). eauto.
  - intros (R & scm & HR & Hs & Hm). exists R. split; [exact HR|]. apply existsb_exists; eauto.
Qed.

Definition good (m : m3) := is_hnf m /\ m3det m = D.
Lemma good_spec R s h : In R rots -> good s -> good h ->
  maps_onto R (m3t s) h = true <-> rotated R s h.
Proof.
  intros HR (_ & Ds) (_ & Dh). rewrite maps_onto_spec; [rewrite t_t; reflexivity|lia|apply Hdet, HR|].
  assert (m3det (m3t s) = m3det s) as -> by (m3s; ring). lia.
Qed.

Lemma enum_inv : forall hs acc,
  (forall h, In h hs -> good h) -> (forall m, In m acc -> good (m3t m)) ->
  let r := fold_left step hs acc in
  (forall m, In m acc -> In m r) /\
  (forall m, In m r -> In m acc \/ In (m3t m) hs) /\
  (forall h, In h hs -> In (m3t h) r \/ exists R m, In R rots /\ In m r /\ rotated R (m3t m) h).
Proof.
  induction hs as [|h hs IH]; intros acc Hhs Hacc; simpl.
  - split; [auto|]. split; [auto|]. intros h [].
  - assert (good h) as Gh by (apply Hhs; left; auto).
    assert (forall m, In m (step acc h) -> good (m3t m)) as Hacc'.
    { intros m Hm. unfold step in Hm. destruct existsb; [auto|].
      apply in_app_iff in Hm as [Hm|[<-|[]]]; [auto|]. rewrite t_t. exact Gh. }
    assert (forall h', In h' hs -> good h') as Hhs' by (intros; apply Hhs; right; auto).
    destruct (IH (step acc h) Hhs' Hacc') as (I1 & I2 & I3).
    split; [|split].
    + intros m Hm. apply I1. unfold step. destruct existsb; [auto|]. apply in_app_iff; auto.
    + intros m Hm. destruct (I2 m Hm) as [Hin|Hin]; [|right; right; exact Hin].
      unfold step in Hin. destruct existsb; [left; exact Hin|].
      apply in_app_iff in Hin as [Hin|[<-|[]]]; [left; exact Hin|]. right; left. symmetry; apply t_t.
    + intros h' [<-|Hh']; [|apply I3; exact Hh'].
      unfold step in I1 |- *. destruct existsb eqn:E.
      * right. apply step_inv in E as (R & s & HR & Hs & Hm). exists R, s. split; [exact HR|].
        split; [apply I1; exact Hs|]. rewrite <- (t_t s) in Hm. apply good_spec in Hm; [exact Hm|exact HR|apply Hacc, Hs|exact Gh].
      * left. apply I1. apply in_app_iff. right; left; reflexivity.
Qed.

(** Matrices later in the list are not images of earlier ones. *)
Lemma enum_distinct : forall hs acc,
  (forall h, In h hs -> good h) -> (forall m, In m acc -> good (m3t m)) ->
  (forall i j m k R, (i < j)%nat -> nth_error acc i = Some m -> nth_error acc j = Some k -> In R rots ->
     ~ rotated R (m3t m) (m3t k)) ->
  forall i j m k R, (i < j)%nat -> nth_error (fold_left step hs acc) i = Some m ->
     nth_error (fold_left step hs acc) j = Some k -> In R rots -> ~ rotated R (m3t m) (m3t k).
Proof.
  induction hs as [|h hs IH]; intros acc Hhs Hacc Hd; simpl; [exact Hd|].
  assert (good h) as Gh by (apply Hhs; left; auto).
  apply IH; [intros; apply Hhs; right; auto| |].
  - intros m Hm. unfold step in Hm. destruct existsb; [auto|].
    apply in_app_iff in Hm as [Hm|[<-|[]]]; [auto|]. rewrite t_t. exact Gh.
  - unfold step. destruct existsb eqn:E; [exact Hd|].
    intros i j m k R Hij Hi Hj HR Hrot.
    assert (j < length (acc ++ [m3t h]))%nat as Hjl by (apply nth_error_Some; congruence).
    rewrite app_length in Hjl; simpl in Hjl.
    assert (i < length acc)%nat as Hil by lia.
    rewrite nth_error_app1 in Hi by exact Hil.
    destruct (Nat.eq_dec j (length acc)) as [->|Hne].
    + rewrite nth_error_app2, Nat.sub_diag in Hj by lia. injection Hj as <-.
      rewrite t_t in Hrot. apply Bool.not_true_iff_false in E. apply E, step_inv.
      exists R, m. split; [exact HR|]. split; [eapply nth_error_In; eauto|].
      rewrite <- (t_t m). apply good_spec; [exact HR| |exact Gh|exact Hrot].
      apply Hacc. eapply nth_error_In; eauto.
    + rewrite nth_error_app1 in Hj by lia. exact (Hd i j m k R Hij Hi Hj HR Hrot).
Qed.
End Enumerate.

(** Supercell enumeration with rotations that form a group: the returned matrices
    are transposes of Hermite normal forms of the size, no two of them are related by
    a rotation, and every lattice of the size is the image of a returned one. *)
Theorem C39_supercells D rots : 0 < D ->
  (forall R, In R rots -> Z.abs (m3det R) = 1) ->
  In (M3 1 0 0 0 1 0 0 0 1) rots ->
  (forall R, In R rots -> exists R', In R' rots /\ m3mul R' R = M3 1 0 0 0 1 0 0 0 1) ->
  let out := enumerate_supercells D rots in
  (forall m, In m out -> is_hnf (m3t m) /\ m3det m = D) /\
  (forall i j m k R, i <> j -> nth_error out i = Some m -> nth_error out j = Some k -> In R rots ->
     ~ rotated R (m3t m) (m3t k)) /\
  (forall l, Z.abs (m3det l) = D -> exists R m, In R rots /\ In m out /\ rotated R (m3t m) l).
Proof.
  intros HD Hdet H1 Hinv out.
  assert (forall h, In h (hnfs D) -> good D h) as Hg by (intros h Hh; apply in_hnfs in Hh; auto).
  assert (forall m, In m [] -> good D (m3t m)) as Hn by (intros m []).
  destruct (@enum_inv D rots HD Hdet (hnfs D) [] Hg Hn) as (_ & I2 & I3).
  assert (forall m, In m out -> good D (m3t m)) as Hout.
  { intros m Hm. destruct (I2 m Hm) as [[]|H]. apply Hg, H. }
  split; [|split].
  - intros m Hm. destruct (Hout m Hm) as (Ha & Hb). split; [exact Ha|].
    rewrite <- Hb. m3s; ring.
  - assert (forall i j m k R, (i < j)%nat -> nth_error out i = Some m -> nth_error out j = Some k -> In R rots ->
     ~ rotated R (m3t m) (m3t k)) as Hlt.
    { apply (@enum_distinct D rots HD Hdet (hnfs D) [] Hg Hn).
      intros i j m k R _ Hi. destruct i; discriminate. }
    intros i j m k R Hij Hi Hj HR Hrot.
    destruct (Nat.lt_gt_cases i j) as [Hc _]. destruct (Hc Hij) as [Hl|Hl]; [exact (Hlt i j m k R Hl Hi Hj HR Hrot)|].
    destruct (Hinv R HR) as (R' & HR' & HE). apply (Hlt j i k m R' Hl Hj Hi HR').
    unfold rotated in *. apply same_within in Hrot as ((U & HU) & (V & HV)).
    apply same_within. split.
    + exists V. rewrite HV, mul_assoc, <- mul_assoc, HE.
      generalize (m3t m); intro mt; m3s; f_equal; ring.
    + exists U. rewrite mul_assoc, <- HU, <- mul_assoc, HE. destruct (m3t m); m3s; f_equal; ring.
  - intros l Hl. destruct (C39_sublattices HD Hl) as (h & (Hh & S) & _).
    destruct (I3 h Hh) as [Hin|(R & m & HR & Hm & Hrot)].
    + exists (M3 1 0 0 0 1 0 0 0 1), (m3t h). split; [exact H1|]. split; [exact Hin|].
      unfold rotated. rewrite t_t. eapply same_trans; [|apply same_sym, S].
      assert (m3mul (M3 1 0 0 0 1 0 0 0 1) h = h) as -> by (destruct h; m3s; f_equal; ring).
      apply same_refl.
    + exists R, m. split; [exact HR|]. split; [exact Hm|].
      unfold rotated in *. eapply same_trans; [exact Hrot|apply same_sym, S].
Qed.

(** Hypotheses are met: the group generated by exchanging the first two axes. *)
Example C39_case :
  let rots := [M3 1 0 0 0 1 0 0 0 1; M3 0 1 0 1 0 0 0 0 1] in
  length (hnfs 4) = 35%nat /\ length (enumerate_supercells 4 rots) = 23%nat /\
  (forall R, In R rots -> Z.abs (m3det R) = 1) /\
  (forall R, In R rots -> exists R', In R' rots /\ m3mul R' R = M3 1 0 0 0 1 0 0 0 1).
Proof.
  intro rots. split; [reflexivity|]. split; [vm_compute; reflexivity|]. split.
  - intros R [<-|[<-|[]]]; reflexivity.
  - intros R [<-|[<-|[]]]; [exists (M3 1 0 0 0 1 0 0 0 1)|exists (M3 0 1 0 1 0 0 0 0 1)];
      (split; [simpl; auto|reflexivity]).
Qed.

Print Assumptions C39_forms.
Print Assumptions C39_sublattices.
Print Assumptions C39_supercells.
