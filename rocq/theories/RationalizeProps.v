(** C78: rational approximation and integerised vectors. *)
From Verif Require Import LibProofs ClusterProps.
From Verif Require Export Rationalize.
From Coq Require Import Lqa.
Set Implicit Arguments.
Unset Strict Implicit.
Open Scope Z_scope.

(** ** Fractions *)
Lemma qfrac_le a b c d : 0 < b -> 0 < d -> ((qfrac a b <= qfrac c d)%Qc <-> a * d <= c * b).
Proof. intros Hb Hd. unfold qfrac, Qc_frac. rewrite Qc_le_iff, !this_Q2Qc. unfold Qle. simpl. rewrite !Z2Pos.id by auto. tauto. Qed.
Lemma qfrac_lt a b c d : 0 < b -> 0 < d -> ((qfrac a b < qfrac c d)%Qc <-> a * d < c * b).
Proof. intros Hb Hd. unfold qfrac, Qc_frac. rewrite Qc_lt_iff, !this_Q2Qc. unfold Qlt. simpl. rewrite !Z2Pos.id by auto. tauto. Qed.
Lemma qfrac_eq a b c d : 0 < b -> 0 < d -> (qfrac a b = qfrac c d <-> a * d = c * b).
Proof.
  intros Hb Hd. pose proof (@qfrac_le a b c d Hb Hd). pose proof (@qfrac_le c d a b Hd Hb). split; intros E.
  - apply Z.le_antisymm; [apply H|rewrite Z.mul_comm, (Z.mul_comm a); rewrite Z.mul_comm, (Z.mul_comm d); apply H0]; rewrite E; apply Qcle_refl.
  - apply Qcle_antisym; [apply H|apply H0]; lia.
Qed.
Lemma qfrac_this x : x = qfrac (Qnum (this x)) (Zpos (Qden (this x))).
Proof. unfold qfrac, Qc_frac. simpl. apply Qc_is_canon. rewrite this_Q2Qc. destruct (this x). reflexivity. Qed.
Lemma coprime_this x : Z.gcd (Qnum (this x)) (Zpos (Qden (this x))) = 1.
Proof. apply (proj1 (Qred_iff (this x))). apply (canon x). Qed.
Lemma den_qfrac a b : 0 < b -> Zpos (Qden (this (qfrac a b))) <= b.
Proof.
  intros Hb. pose proof (qfrac_this (qfrac a b)) as E. apply qfrac_eq in E; [|auto|lia]. pose proof (coprime_this (qfrac a b)) as G.
  set (n := Qnum (this (qfrac a b))) in *. set (d := Zpos (Qden (this (qfrac a b)))) in *. assert (D : (d | b)) by (apply Z.gauss with n; [exists a; lia|rewrite Z.gcd_comm; auto]). apply Z.divide_pos_le; auto.
Qed.
(** ** The loop *)
Definition ld_inv (maxd N D p0 q0 p1 q1 n d : Z) : Prop :=
  D = q1 * n + q0 * d /\ N = p1 * n + p0 * d /\ Z.gcd n d = 1 /\ 0 <= d /\ (p1 * q0 - p0 * q1 = 1 \/ p1 * q0 - p0 * q1 = -1) /\
  ((p0 = 0 /\ q0 = 1 /\ p1 = 1 /\ q1 = 0) \/ (1 <= q1 <= maxd /\ 0 <= q0 <= q1 /\ d < n)).
Lemma ld_d maxd N D p0 q0 p1 q1 n d : 1 <= maxd -> maxd < D -> ld_inv maxd N D p0 q0 p1 q1 n d -> 0 < d.
Proof.
  intros HM HD (E1 & E2 & G & Hd & _ & [(-> & -> & -> & ->) | (Q1 & Q0 & L)]); [lia|].
  destruct (Z.eq_dec d 0) as [->|]; [|lia]. rewrite Z.gcd_0_r in G. assert (n = 1) by lia. subst n. lia.
Qed.
Definition ld_end (maxd N D p0 q0 p1 q1 n d : Z) : Prop :=
  ld_inv maxd N D p0 q0 p1 q1 n d /\ 1 <= q1 /\ 0 < d /\ maxd < q0 + n / d * q1.
Lemma ld_step maxd N D p0 q0 p1 q1 n d : 1 <= maxd -> maxd < D -> ld_inv maxd N D p0 q0 p1 q1 n d -> q0 + n / d * q1 <= maxd ->
  ld_inv maxd N D p1 q1 (p0 + n / d * p1) (q0 + n / d * q1) d (n - n / d * d) /\ 1 <= q0 + n / d * q1 /\
  (1 <= q1 -> q1 <= q0 + n / d * q1 /\ (1 <= q0 -> q1 < q0 + n / d * q1)).
Proof.
  intros HM HD J Hq. pose proof (ld_d HM HD J) as Pd. destruct J as (E1 & E2 & G & Hd & DT & PH).
  pose proof (Z.mod_pos_bound n d Pd) as MB. pose proof (Z.div_mod n d ltac:(lia)) as DM. set (a := n / d) in *. set (r := n mod d) in *. assert (R : n - a * d = r) by nia. rewrite R.
  assert (GG : Z.gcd d r = 1) by (unfold r; rewrite Z.gcd_comm, Z.gcd_mod by lia; rewrite Z.gcd_comm; auto).
  destruct PH as [(-> & -> & -> & ->) | (Q1 & Q0 & L)].
  - split; [|split; [lia|lia]]. split; [nia|]. split; [nia|]. split; auto. split; [lia|]. split; [lia|]. right. lia.
  - assert (1 <= a) by (unfold a; apply Z.div_le_lower_bound; lia). assert (q1 <= a * q1) by nia.
    split; [|split; [lia|intros; split; lia]]. split; [nia|]. split; [nia|]. split; auto. split; [lia|]. split; [destruct DT; [right|left]; nia|]. right. lia.
Qed.
Lemma ld_loop_ok maxd N D : 1 <= maxd -> maxd < D -> forall fuel p0 q0 p1 q1 n d, ld_inv maxd N D p0 q0 p1 q1 n d -> 1 <= q1 ->
  maxd - q1 + (if q0 =? 0 then 2 else 1) <= Z.of_nat fuel ->
  exists p0' q0' p1' q1' n' d', ld_loop fuel maxd p0 q0 p1 q1 n d = Some (p0', q0', p1', q1') /\ ld_end maxd N D p0' q0' p1' q1' n' d'.
Proof.
  intros HM HD. induction fuel as [|f IH]; intros p0 q0 p1 q1 n d J Q1 F.
  - exfalso. destruct J as (_ & _ & _ & _ & _ & [(_ & _ & _ & ->) | (? & _)]); [lia|]. destruct (q0 =? 0); lia.
  - cbn [ld_loop]. destruct (Z.ltb_spec maxd (q0 + n / d * q1)) as [B|B].
    + do 6 eexists. split; [reflexivity|]. split; [exact J|]. split; auto. split; [apply (ld_d HM HD J)|auto].
    + destruct (ld_step HM HD J B) as (J' & L1 & L2). apply IH; auto. destruct (L2 Q1) as [L3 L4]. destruct (Z.eqb_spec q1 0); [lia|]. destruct (Z.eqb_spec q0 0); [lia|]. assert (q1 < q0 + n / d * q1); [apply L4|lia]. destruct J as (_ & _ & _ & _ & _ & [(_ & -> & _ & ->) | (_ & ? & _)]); lia.
Qed.
Lemma ld_start maxd x : 1 <= maxd -> maxd < Zpos (Qden (this x)) ->
  exists p0 q0 p1 q1 n d, ld_loop (Z.to_nat maxd + 3) maxd 0 1 1 0 (Qnum (this x)) (Zpos (Qden (this x))) = Some (p0, q0, p1, q1) /\
    ld_end maxd (Qnum (this x)) (Zpos (Qden (this x))) p0 q0 p1 q1 n d.
Proof.
  intros HM HD. set (N := Qnum (this x)). set (D := Zpos (Qden (this x))) in *.
  assert (J : ld_inv maxd N D 0 1 1 0 N D) by (split; [lia|split; [lia|split; [apply coprime_this|split; [lia|split; [lia|left; lia]]]]]).
  replace (Z.to_nat maxd + 3)%nat with (S (Z.to_nat maxd + 2)) by lia. cbn [ld_loop]. rewrite Z.mul_0_r, Z.add_0_r. destruct (Z.ltb_spec maxd 1) as [|B]; [lia|].
  assert (B' : 1 + N / D * 0 <= maxd) by lia. destruct (ld_step HM HD J B') as (J' & _ & _). rewrite Z.mul_0_r, Z.add_0_r in J'. apply ld_loop_ok; auto; [lia|]. simpl Z.eqb. lia.
Qed.

(** ** Closest fractions *)
(** Between two neighbouring fractions there is none with a small denominator. *)
Lemma neighbours a b c d x y : 0 < b -> 0 < d -> 0 < y -> c * b - a * d = 1 -> a * y < x * b -> x * d < c * y -> b + d <= y.
Proof. intros Hb Hd Hy E L U. assert (1 <= x * b - a * y) by lia. assert (1 <= c * y - x * d) by lia. assert (y = (x * b - a * y) * d + (c * y - x * d) * b) by nia. nia. Qed.
Lemma qabs_dist (lo x hi z : Qc) : (lo <= x)%Qc -> (x <= hi)%Qc -> (z <= lo)%Qc \/ (hi <= z)%Qc -> (qabs (lo - x) <= qabs (z - x))%Qc \/ (qabs (hi - x) <= qabs (z - x))%Qc.
Proof.
  intros L U H. unfold qabs. destruct (Qcltb_spec (lo - x) 0) as [A|A]; destruct (Qcltb_spec (hi - x) 0) as [B|B]; destruct (Qcltb_spec (z - x) 0) as [C|C];
    try apply Qcnot_lt_le in A; try apply Qcnot_lt_le in B; try apply Qcnot_lt_le in C; destruct H as [H | H]; try (left; qclra); try (right; qclra).
Qed.
Theorem C78_closest maxd x : 1 <= maxd -> exists f, limit_denominator maxd x = Some f /\ Zpos (Qden (this f)) <= maxd /\
  forall y d, 1 <= d <= maxd -> (qabs (f - x) <= qabs (qfrac y d - x))%Qc.
Proof.
  intros HM. unfold limit_denominator. destruct (Z.leb_spec (Zpos (Qden (this x))) maxd) as [S|S].
  - exists x. split; auto. split; auto. intros y d _. unfold qabs. replace (x - x)%Qc with 0%Qc by ring. destruct (Qcltb_spec 0 0); destruct (Qcltb_spec (qfrac y d - x) 0) as [A|A]; try apply Qcnot_lt_le in A; qclra.
  - destruct (ld_start HM S) as (p0 & q0 & p1 & q1 & n & d & E & J & Q1 & Pd & B). rewrite E. cbn [option_bind]. set (k := (maxd - q0) / q1). set (b1 := qfrac (p0 + k * p1) (q0 + k * q1)). set (b2 := qfrac p1 q1).
    eexists. split; [reflexivity|]. destruct J as (E1 & E2 & G & Hd & DT & PH). destruct PH as [(_ & _ & _ & ->) | (Q1' & Q0 & L)]; [lia|].
    pose proof (Z.mod_pos_bound (maxd - q0) q1 ltac:(lia)) as KB. pose proof (Z.div_mod (maxd - q0) q1 ltac:(lia)) as KM. fold k in KM.
    assert (K0 : 0 <= k) by (unfold k; apply Z.div_pos; lia). assert (KA : k <= n / d) by nia. assert (KN : k * d <= n) by (pose proof (Z.mul_div_le n d Pd); nia).
    assert (QB : 0 < q0 + k * q1). { destruct (Z.eq_dec q0 0); [|nia]. subst q0. assert (1 <= k) by nia. nia. }
    assert (QM : q0 + k * q1 <= maxd) by nia. assert (QS : maxd < q0 + k * q1 + q1) by nia. set (PB := p0 + k * p1) in *. set (qb := q0 + k * q1) in *.
    split; [destruct (Qcleb _ _); eapply Z.le_trans; try apply den_qfrac; lia|].
    intros y yd [Y1 Y2].
    assert (X1 : Zpos (Qden (this x)) = q1 * (n - k * d) + qb * d) by (unfold qb; lia). assert (X2 : Qnum (this x) = p1 * (n - k * d) + PB * d) by (unfold PB; lia).
    assert (C : (qabs (b1 - x) <= qabs (qfrac y yd - x))%Qc \/ (qabs (b2 - x) <= qabs (qfrac y yd - x))%Qc).
    { pose proof (qfrac_this x) as XT. set (N := Qnum (this x)) in *. set (D := Zpos (Qden (this x))) in *. assert (PD : 0 < D) by (unfold D; lia). rewrite XT. clear XT E E1 E2 S G. set (m := n - k * d) in *. assert (M0 : 0 <= m) by (unfold m; lia). assert (Y : N * qb - PB * D = m * (p1 * qb - PB * q1)) by (rewrite X1, X2; ring). assert (Z : p1 * D - N * q1 = d * (p1 * qb - PB * q1)) by (rewrite X1, X2; ring). clearbody m N D. destruct DT as [DT | DT].
      - assert (DB : p1 * qb - PB * q1 = 1) by (unfold qb, PB; nia). rewrite DB, Z.mul_1_r in Y, Z.
        apply qabs_dist; unfold b1, b2; [apply qfrac_le; auto; lia|apply qfrac_le; auto; lia|]. destruct (Z_le_gt_dec (y * qb) (PB * yd)) as [W|W]; [left; apply qfrac_le; auto; lia|]. right. apply qfrac_le; [lia|lia|]. destruct (Z_le_gt_dec (p1 * yd) (y * q1)) as [V|V]; [lia|]. exfalso. assert (qb + q1 <= yd) by (apply (@neighbours PB qb p1 q1 y yd); lia). lia.
      - assert (DB : PB * q1 - p1 * qb = 1) by (unfold qb, PB; nia). replace (p1 * qb - PB * q1) with (-1) in Y, Z by lia.
        apply or_comm. apply qabs_dist; unfold b1, b2; [apply qfrac_le; auto; lia|apply qfrac_le; auto; lia|]. destruct (Z_le_gt_dec (y * q1) (p1 * yd)) as [W|W]; [left; apply qfrac_le; auto; lia|]. right. apply qfrac_le; [lia|lia|]. destruct (Z_le_gt_dec (PB * yd) (y * qb)) as [V|V]; [lia|]. exfalso. assert (q1 + qb <= yd) by (apply (@neighbours p1 q1 PB qb y yd); lia). lia. }
    destruct (Qcleb_spec (qabs (b2 - x)) (qabs (b1 - x))) as [M|M]; [|apply Qcnot_le_lt in M]; destruct C as [C | C]; try exact C; [eapply Qcle_trans; eauto|eapply Qcle_trans; [apply Qclt_le_weak; exact M|auto]].
Qed.
(** A number becomes the closest fraction, in lowest terms, and is refused just when no fraction is close. *)
Theorem C78_number maxd tol x : 1 <= maxd ->
  match rationalize_number maxd tol x with
  | Some (n, d) => 1 <= d <= maxd /\ Z.gcd n d = 1 /\ (qabs (qfrac n d - x) <= tol)%Qc /\ forall y e, 1 <= e <= maxd -> (qabs (qfrac n d - x) <= qabs (qfrac y e - x))%Qc
  | None => forall y e, 1 <= e <= maxd -> (tol < qabs (qfrac y e - x))%Qc
  end.
Proof.
  intros HM. unfold rationalize_number. destruct (C78_closest x HM) as (f & E & D & C). rewrite E. cbn [option_bind]. destruct (Qcltb_spec tol (qabs (f - x))) as [L|L].
  - intros y e He. eapply Qclt_le_trans; [exact L|]. apply C; auto.
  - apply Qcnot_lt_le in L. rewrite <- (qfrac_this f). split; [lia|]. split; [apply coprime_this|]. auto.
Qed.
(** ** Vectors *)
Lemma lcm_fold l : forall m, 0 < m -> (forall d, In d l -> 0 < d) -> let r := fold_left Z.lcm l m in
  0 < r /\ (m | r) /\ (forall d, In d l -> (d | r)) /\ forall k, (m | k) -> (forall d, In d l -> (d | k)) -> (r | k).
Proof.
  induction l as [|d l IH]; intros m Hm Hl; cbn [fold_left]; [repeat split; auto; [apply Z.divide_refl|intros ? []]|].
  assert (Hd : 0 < d) by (apply Hl; left; auto). assert (H : 0 < Z.lcm m d) by (pose proof (Z.lcm_nonneg m d); destruct (Z.eq_dec (Z.lcm m d) 0) as [Z|]; [apply Z.lcm_eq_0 in Z; lia|lia]).
  destruct (IH (Z.lcm m d) H (fun x Hx => Hl x (or_intror Hx))) as (A & B & C & D). split; auto. split; [apply (Z.divide_trans _ (Z.lcm m d)); auto; apply Z.divide_lcm_l|]. split.
  - intros x [<- | Hx]; [|auto]. apply (Z.divide_trans _ (Z.lcm m d)); auto. apply Z.divide_lcm_r.
  - intros k Hk1 Hk2. apply D; [apply Z.lcm_least; auto; apply Hk2; left; auto|]. intros x Hx. apply Hk2. right. auto.
Qed.
Lemma qfrac_mul n d m : 0 < d -> (d | m) -> (qfrac n d * Qc_of_Z m)%Qc = Qc_of_Z (n * (m / d)).
Proof.
  intros Hd [k ->]. rewrite Z.div_mul by lia. unfold qfrac, Qc_frac, Qc_of_Z. apply Qc_is_canon. rewrite this_mult, !this_Q2Qc. unfold Qeq, inject_Z. simpl. rewrite Pos.mul_1_r, Z2Pos.id by auto. ring.
Qed.
Lemma qround_int z : qround (Qc_of_Z z) = z.
Proof. apply qround_unique. assert (0 < Qc_frac 1 2)%Qc by reflexivity. split; qclra. Qed.
Lemma qround_closest x z : (qabs (x - Qc_of_Z (qround x)) <= qabs (x - Qc_of_Z z))%Qc.
Proof.
  unfold qround. destruct (qfloor_spec x) as [F1 F2]. set (f := qfloor x) in *. clearbody f.
  assert (Z : (Qc_of_Z z <= Qc_of_Z f)%Qc \/ (Qc_of_Z f + 1 <= Qc_of_Z z)%Qc). { destruct (Z_le_gt_dec z f); [left; apply (proj1 (Qc_of_Z_le z f)); auto|right]. change 1%Qc with (Qc_of_Z 1). rewrite <- Qc_of_Z_add. apply (proj1 (Qc_of_Z_le (f + 1) z)). lia. }
  assert (P1 : (Qc_of_Z (f + 1) = Qc_of_Z f + 1)%Qc) by (rewrite Qc_of_Z_add; auto). unfold Qc_frac, qabs.
  destruct (Qcltb_spec (x - Qc_of_Z f) (Q2Qc (1 # 2))) as [A|A]; [|apply Qcnot_lt_le in A; destruct (Qcltb_spec (Q2Qc (1 # 2)) (x - Qc_of_Z f)) as [B|B]; [|apply Qcnot_lt_le in B; destruct (Z.even f)]]; try rewrite P1;
    repeat match goal with |- context [Qcltb ?a ?b] => let H := fresh in destruct (Qcltb_spec a b) as [H|H]; [|apply Qcnot_lt_le in H] end; destruct Z; qclra.
Qed.
(** The multiplier is a positive multiple of the denominator of a close fraction of every component, and every component times
    the multiplier is within [multiplier * tol] of the returned integer. *)
Theorem C78_vector maxd tol v ints m : 1 <= maxd -> integerize_vector maxd tol v = Some (ints, m) ->
  0 < m /\ length ints = length v /\ forall i x, nth_error v i = Some x -> exists z n d, nth_error ints i = Some z /\
    1 <= d <= maxd /\ (d | m) /\ (qabs (qfrac n d - x) <= tol)%Qc /\ (qabs (x * Qc_of_Z m - Qc_of_Z z) <= Qc_of_Z m * tol)%Qc.
Proof.
  intros HM H. unfold integerize_vector in H. destruct (opt_map (rationalize_number maxd tol) v) as [fs|] eqn:E; [|discriminate]. cbn [option_bind] in H. pose proof (opt_map_length _ _ E) as LF.
  assert (FS : forall i f, nth_error fs i = Some f -> exists x, nth_error v i = Some x /\ rationalize_number maxd tol x = Some f).
  { intros i f Hf. assert (i < length v)%nat by (rewrite <- LF; apply nth_error_Some; congruence). destruct (nth_error v i) as [x|] eqn:X; [|apply nth_error_None in X; lia]. exists x. split; auto. destruct (opt_map_nth _ _ _ E X) as (y & Y1 & Y2). congruence. }
  destruct fs as [|f0 fs0]; [discriminate|]. set (fs := f0 :: fs0) in *. set (L := fold_left Z.lcm (map snd fs) 1) in *. apply (f_equal (fun o => match o with Some p => p | None => ([], 0) end)) in H. injection H as <- <-.
  destruct (@lcm_fold (map snd fs) 1 ltac:(lia)) as (A & _ & C & _). { intros d Hd. apply in_map_iff in Hd. destruct Hd as (f & <- & Hf). apply In_nth_error in Hf. destruct Hf as (i & Hi). destruct (FS i f Hi) as (x & _ & R). pose proof (@C78_number maxd tol x HM) as N. rewrite R in N. destruct f. destruct N as [N _]. simpl. lia. }
  fold L in A, C. split; auto. split; [rewrite map_length; auto|]. intros i x Hx. destruct (nth_error fs i) as [f|] eqn:F. 2:{ apply nth_error_None in F. assert (i < length v)%nat by (apply nth_error_Some; congruence). lia. }
  destruct (FS i f F) as (x' & X' & R). rewrite Hx in X'. injection X' as <-. pose proof (@C78_number maxd tol x HM) as N. rewrite R in N. destruct f as [n d]. destruct N as (Nd & G & T & _). exists (qround (x * Qc_of_Z L)), n, d. split; [rewrite nth_error_map, Hx; auto|]. split; auto.
  assert (DL : (d | L)) by (apply C; apply in_map_iff; exists (n, d); split; auto; apply (nth_error_In _ _ F)). split; auto. split; auto.
  eapply Qcle_trans; [apply qround_closest with (z := n * (L / d))|]. rewrite <- (qfrac_mul n (d := d) (m := L)) by (auto; lia). assert (PL : (0 < Qc_of_Z L)%Qc) by (apply Qcnot_le_lt; intros Q; apply (proj2 (Qc_of_Z_le L 0)) in Q; lia).
  replace (x * Qc_of_Z L - qfrac n d * Qc_of_Z L)%Qc with (Qc_of_Z L * (x - qfrac n d))%Qc by ring. revert T. set (g := qfrac n d). set (c := Qc_of_Z L) in *. clearbody g c. clear - PL. intros T. unfold qabs in *.
  destruct (Qcltb_spec (g - x) 0) as [B|B]; try apply Qcnot_lt_le in B; destruct (Qcltb_spec (c * (x - g)) 0) as [D|D]; try apply Qcnot_lt_le in D; qcnra.
Qed.
(** Components with small denominators are not approximated, and the multiplier is the least that makes them integers. *)
Theorem C78_exact maxd tol v : 1 <= maxd -> (0 <= tol)%Qc -> v <> [] -> (forall x, In x v -> Zpos (Qden (this x)) <= maxd) ->
  exists ints m, integerize_vector maxd tol v = Some (ints, m) /\ 0 < m /\ map Qc_of_Z ints = map (fun x => x * Qc_of_Z m)%Qc v /\
    forall k, (forall x, In x v -> exists z, (x * Qc_of_Z k)%Qc = Qc_of_Z z) -> (m | k).
Proof.
  intros HM HT NE S. unfold integerize_vector.
  assert (E : opt_map (rationalize_number maxd tol) v = Some (map (fun x => (Qnum (this x), Zpos (Qden (this x)))) v)).
  { clear NE. induction v as [|x v IH]; auto. cbn [opt_map map]. rewrite IH by (intros y Hy; apply S; right; auto). replace (rationalize_number maxd tol x) with (Some (Qnum (this x), Zpos (Qden (this x)))); auto.
    unfold rationalize_number, limit_denominator. destruct (Z.leb_spec (Zpos (Qden (this x))) maxd) as [_|B]; [|specialize (S x (or_introl eq_refl)); lia]. cbn [option_bind]. replace (x - x)%Qc with 0%Qc by ring. unfold qabs. destruct (Qcltb_spec 0 0); [discriminate q|]. destruct (Qcltb_spec tol 0) as [B|]; auto. destruct (Qclt_not_le _ _ B HT). }
  rewrite E. cbn [option_bind]. destruct v as [|x0 v0]; [congruence|]. set (v := x0 :: v0) in *. change (map (fun x => (Qnum (this x), Zpos (Qden (this x)))) v) with ((Qnum (this x0), Zpos (Qden (this x0))) :: map (fun x => (Qnum (this x), Zpos (Qden (this x)))) v0).
  cbv iota. change ((Qnum (this x0), Zpos (Qden (this x0))) :: map (fun x => (Qnum (this x), Zpos (Qden (this x)))) v0) with (map (fun x => (Qnum (this x), Zpos (Qden (this x)))) v). rewrite map_map. cbn [snd]. set (L := fold_left Z.lcm (map (fun x => Zpos (Qden (this x))) v) 1).
  destruct (@lcm_fold (map (fun x => Zpos (Qden (this x))) v) 1 ltac:(lia)) as (A & _ & C & D). { intros d Hd. apply in_map_iff in Hd. destruct Hd as (x & <- & _). lia. }
  fold L in A, C, D. do 2 eexists. split; [reflexivity|]. split; auto. split.
  - rewrite map_map. apply map_ext_in. intros x Hx. rewrite (qfrac_this x) at 1 2. rewrite qfrac_mul; [|lia|apply C, in_map_iff; eauto]. rewrite qround_int. auto.
  - intros k Hk. apply D; [apply Z.divide_1_l|]. intros d Hd. apply in_map_iff in Hd. destruct Hd as (x & <- & Hx). destruct (Hk x Hx) as (z & Z). apply Z.gauss with (Qnum (this x)); [|rewrite Z.gcd_comm; apply coprime_this]. exists z.
    rewrite (qfrac_this x) in Z at 1. change (Qc_of_Z z) with (qfrac z 1) in Z. assert (Z' : (qfrac (Qnum (this x)) (Zpos (Qden (this x))) * Qc_of_Z k)%Qc = qfrac (Qnum (this x) * k) (Zpos (Qden (this x)))).
    { unfold qfrac, Qc_frac, Qc_of_Z. apply Qc_is_canon. rewrite this_mult, !this_Q2Qc. unfold Qeq, inject_Z. simpl. rewrite Pos.mul_1_r. auto. }
    rewrite Z' in Z. apply qfrac_eq in Z; lia.
Qed.
(** A matrix keeps its shape. *)
Lemma chunks_concat {A B} (f : A -> B) d vs : (forall v, In v vs -> length v = d) -> chunks (length vs) d (map f (concat vs)) = map (map f) vs.
Proof.
  induction vs as [|v vs IH]; intros H; auto. cbn [length chunks concat map]. assert (L : length v = d) by (apply H; left; auto). rewrite map_app, firstn_app, skipn_app, map_length, L, Nat.sub_diag. rewrite firstn_all2 by (rewrite map_length; lia). rewrite skipn_all2 by (rewrite map_length; lia). cbn [firstn skipn app]. rewrite app_nil_r, IH; auto. intros w Hw. apply H. right. auto.
Qed.
Theorem C78_multiple maxd tol d vs : 1 <= maxd -> (0 <= tol)%Qc -> concat vs <> [] -> (forall v, In v vs -> length v = d) -> (forall x, In x (concat vs) -> Zpos (Qden (this x)) <= maxd) ->
  exists rows m, integerize_multiple maxd tol d vs = Some (rows, m) /\ 0 < m /\ map (map Qc_of_Z) rows = map (map (fun x => x * Qc_of_Z m)%Qc) vs /\
    forall k, (forall x, In x (concat vs) -> exists z, (x * Qc_of_Z k)%Qc = Qc_of_Z z) -> (m | k).
Proof.
  intros HM HT NE LE S. unfold integerize_multiple. destruct (C78_exact HM HT NE S) as (ints & m & E & P & Q & K). rewrite E. cbn [option_bind]. do 2 eexists. split; [reflexivity|]. split; auto. split; auto.
  assert (E2 : ints = map (fun x => qround (x * Qc_of_Z m)%Qc) (concat vs)).
  { apply (f_equal (map qround)) in Q. rewrite !map_map in Q. rewrite <- Q. rewrite (map_ext _ (fun z => z)) by apply qround_int. rewrite map_id. auto. }
  rewrite E2, chunks_concat by auto. rewrite map_map. apply map_ext_in. intros v Hv. rewrite map_map. apply map_ext_in. intros x Hx.
  assert (I : In x (concat vs)) by (apply in_concat; exists v; auto). apply In_nth_error in I. destruct I as (i & Hi). apply (f_equal (fun l => nth_error l i)) in Q. rewrite !nth_error_map, Hi in Q. cbn [option_map] in Q. rewrite E2, nth_error_map, Hi in Q. cbn [option_map] in Q. apply (f_equal (fun o => match o with Some q => q | None => 0%Qc end)) in Q. exact Q.
Qed.
(** An eighth, a sixth and the float nearest to 1/3; a number without a close fraction. *)
Example C78_case : integerize_vector 1000 (Qc_frac 1 1000000) [Qc_frac 3 8; Qc_frac (-5) 6; Qc_frac 6004799503160661 18014398509481984] = Some ([9; -20; 8], 24) /\
  (forall x, In x [Qc_frac 3 8; Qc_frac (-5) 6] -> Zpos (Qden (this x)) <= 1000) /\ rationalize_number 1000 (Qc_frac 1 1000000) (Qc_frac 1 2500) = None.
Proof. split; [vm_compute; reflexivity|]. split; [intros x [<- | [<- | []]]; vm_compute; discriminate|vm_compute; reflexivity]. Qed.
Print Assumptions C78_closest.
Print Assumptions C78_number.
Print Assumptions C78_vector.
Print Assumptions C78_exact.
Print Assumptions C78_multiple.
