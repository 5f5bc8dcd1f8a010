(** Proofs about lengths and about the sites in a sphere around the centre of the cell. *)
From Verif Require Import LibProofs ExpansionProps.
From Verif Require Export OrbitSearchProofs.
From Coq Require Import Lia Permutation.
Set Implicit Arguments.
Unset Strict Implicit.
Local Open Scope Qc_scope.

Lemma mul_le a b c d : 0 <= a -> a <= b -> 0 <= c -> c <= d -> a * c <= b * d.
Proof.
  intros A AB C CD. apply Qcle_trans with (b * c); [apply Qcmult_le_compat_r; auto|]. rewrite (Qcmult_comm b c), (Qcmult_comm b d). apply Qcmult_le_compat_r; auto.
  apply Qcle_trans with a; auto.
Qed.

Lemma disc u b w : 0 <= u -> 0 <= w -> (forall s, 0 <= u + s * b + s * s * w) -> b * b <= Q2Qc 4 * u * w.
Proof.
  intros U W P. destruct (Qc_eq_dec w 0) as [-> |N].
  - destruct (Qc_eq_dec b 0) as [-> |Nb]; [rewrite !Qcmult_0_r; apply Qcle_refl|]. exfalso. specialize (P (- (u + 1) / b)).
    assert (E : - (u + 1) / b * b = - (u + 1)) by (unfold Qcdiv; rewrite <- Qcmult_assoc, (Qcmult_comm (/ b)), Qcmult_inv_r, Qcmult_1_r; auto).
    rewrite E, Qcmult_0_r in P. clear E. qclra.
  - set (s := - b / (w + w)). specialize (P s). assert (NN : w + w <> 0) by (intros X; apply N; qclra).
    assert (E : s * (w + w) = - b) by (unfold s, Qcdiv; rewrite <- Qcmult_assoc, (Qcmult_comm (/ (w + w))), Qcmult_inv_r, Qcmult_1_r; auto). clearbody s.
    assert (B : b = - (s * (w + w))) by (rewrite E; ring). subst b. clear E.
    assert (Q : 0 <= (u - s * s * w) * w) by (rewrite <- (Qcmult_0_l w); apply Qcmult_le_compat_r; auto; replace (u - s * s * w) with (u + s * - (s * (w + w)) + s * s * w) by ring; auto).
    replace (- (s * (w + w)) * - (s * (w + w))) with (Q2Qc 4 * u * w - Q2Qc 4 * ((u - s * s * w) * w)) by (replace (Q2Qc 4) with (1 + 1 + 1 + 1) by (apply Qc_is_canon; reflexivity); ring).
    set (z := (u - s * s * w) * w) in *. clearbody z. set (y := Q2Qc 4 * u * w). clearbody y. clear - Q. qclra.
Qed.

Section Form.
Variables (dim : nat) (G : list (list Qc)).
Hypothesis ME : metric dim G.
Definition entry (i j : nat) : Qc := nth j (nth i G []) 0.
Definition bil (f h : nat -> Qc) : Qc := qsum (map (fun i => qsum (map (fun j => f i * entry i j * h j) (seq 0 dim))) (seq 0 dim)).
Lemma dist2_bil x y : length x = dim -> length y = dim -> dist2 G x y = bil (fun i => comp x i - comp y i) (fun i => comp x i - comp y i).
Proof.
  intros Lx Ly. unfold dist2. set (v := qvsub x y). assert (Lv : length v = dim) by (unfold v, qvsub; rewrite length_qmap2; congruence).
  rewrite (qdot_seq (n := dim)); [|auto|rewrite map_length; apply (me_rows ME)]. unfold bil. apply qsum_map_ext. intros i Hi. apply in_seq in Hi.
  assert (Er : nth i (map (fun r => qdot r v) G) 0 = qdot (nth i G []) v).
  { rewrite nth_indep with (d' := qdot [] v) by (rewrite map_length, (me_rows ME); lia). apply (map_nth (fun r => qdot r v)). }
  rewrite Er. rewrite (qdot_seq (n := dim)); [|apply (me_cols ME); apply nth_In; rewrite (me_rows ME); lia|auto].
  rewrite <- qsum_map_scale. apply qsum_map_ext. intros j Hj. unfold v. rewrite !nth_qvsub by congruence. unfold entry. ring.
Qed.
Lemma bil_ext f f' h h' : (forall i, (i < dim)%nat -> f i = f' i) -> (forall i, (i < dim)%nat -> h i = h' i) -> bil f h = bil f' h'.
Proof. intros H1 H2. unfold bil. apply qsum_map_ext. intros i Hi. apply in_seq in Hi. apply qsum_map_ext. intros j Hj. apply in_seq in Hj. rewrite H1, H2 by lia. auto. Qed.
Lemma bil_add_r f h k : bil f (fun i => h i + k i) = bil f h + bil f k.
Proof. unfold bil. rewrite <- qsum_map_add. apply qsum_map_ext. intros i _. rewrite <- qsum_map_add. apply qsum_map_ext. intros j _. ring. Qed.
Lemma bil_add_l f h k : bil (fun i => f i + h i) k = bil f k + bil h k.
Proof. unfold bil. rewrite <- qsum_map_add. apply qsum_map_ext. intros i _. rewrite <- qsum_map_add. apply qsum_map_ext. intros j _. ring. Qed.
Lemma bil_scale_r s f h : bil f (fun i => s * h i) = s * bil f h.
Proof. unfold bil. rewrite <- qsum_map_scale. apply qsum_map_ext. intros i _. rewrite <- qsum_map_scale. apply qsum_map_ext. intros j _. ring. Qed.
Lemma bil_scale_l s f h : bil (fun i => s * f i) h = s * bil f h.
Proof. unfold bil. rewrite <- qsum_map_scale. apply qsum_map_ext. intros i _. rewrite <- qsum_map_scale. apply qsum_map_ext. intros j _. ring. Qed.
Lemma bil_pos f : 0 <= bil f f.
Proof.
  assert (L : length (map f (seq 0 dim)) = dim) by (rewrite map_length, seq_length; auto). assert (P := me_pos ME L). rewrite dist2_bil in P; auto; [|apply repeat_length].
  erewrite bil_ext; [exact P| |]; intros i Hi; cbn beta; rewrite nth_repeat; rewrite nth_indep with (d' := f 0%nat) by (rewrite L; auto); rewrite map_nth, seq_nth by auto; simpl; ring.
Qed.
Definition quad f := bil f f.
Definition cross f h := bil f h + bil h f.
Lemma quad_add f h : quad (fun i => f i + h i) = quad f + cross f h + quad h.
Proof. unfold quad, cross. rewrite bil_add_l, !bil_add_r. ring. Qed.
Lemma quad_ext f h : (forall i, (i < dim)%nat -> f i = h i) -> quad f = quad h.
Proof. intros H. unfold quad. apply bil_ext; auto. Qed.
Lemma quad_scale s h : quad (fun i => s * h i) = s * s * quad h.
Proof. unfold quad. rewrite bil_scale_l, bil_scale_r. ring. Qed.
Lemma cross_scale s f h : cross f (fun i => s * h i) = s * cross f h.
Proof. unfold cross. rewrite bil_scale_l, bil_scale_r. ring. Qed.
Lemma cauchy f h : cross f h * cross f h <= Q2Qc 4 * quad f * quad h.
Proof.
  assert (P : forall s, 0 <= quad f + s * cross f h + s * s * quad h).
  { intros s. assert (P := @bil_pos (fun i => f i + s * h i)). change (0 <= quad (fun i => f i + s * h i)) in P. rewrite quad_add, quad_scale, cross_scale in P. exact P. }
  exact (@disc (quad f) (cross f h) (quad h) (@bil_pos f) (@bil_pos h) P).
Qed.
Lemma triangle u v r m : 0 <= r -> quad u <= m -> quad v <= r * r -> sqrt_le (quad (fun i => u i + v i)) r m = true.
Proof.
  intros R U V. rewrite quad_add. unfold sqrt_le. assert (C := @cauchy u v). assert (Pu : 0 <= quad u) by exact (@bil_pos u). assert (Pv : 0 <= quad v) by exact (@bil_pos v).
  set (b := cross u v) in *. set (p := quad u) in *. set (q := quad v) in *. clearbody b p q. apply orb_true_iff.
  destruct (Qcleb_spec (p + b + q - r * r - m) 0) as [L|L]; [left; auto|right]. apply Qcnot_le_lt in L.
  match goal with |- Qcleb ?a ?c = true => destruct (Qcleb_spec a c) as [|N]; auto end. exfalso. apply N. clear N.
  set (l := p + b + q - r * r - m) in *. assert (Lb : l <= b) by (unfold l; qclra). assert (LL : l * l <= b * b) by (apply mul_le; auto; apply Qclt_le_weak; auto).
  assert (PQ : p * q <= m * (r * r)) by (apply mul_le; auto). clearbody l. apply Qcle_trans with (1 := LL). apply Qcle_trans with (1 := C). clear - PQ.
  replace (Q2Qc 4 * p * q) with (p * q * Q2Qc 4) by ring. replace (Q2Qc 4 * (r * r) * m) with (m * (r * r) * Q2Qc 4) by ring. apply Qcmult_le_compat_r; auto. discriminate.
Qed.

(** *** Distance from the centroid *)
Lemma qsum_le_const {A} (f : A -> Qc) l k : (forall x, In x l -> f x <= k) -> qsum (map f l) <= Qc_of_nat (length l) * k.
Proof.
  induction l as [|x l IH]; intros H; simpl; [rewrite Qc_of_nat_0; qclra|]. rewrite Qc_of_nat_S. assert (H1 := H x (or_introl eq_refl)). assert (H2 := IH (fun y Hy => H y (or_intror Hy))).
  replace ((1 + Qc_of_nat (length l)) * k) with (k + Qc_of_nat (length l) * k) by ring. qclra.
Qed.
Lemma bil_0_r f : bil f (fun _ => 0) = 0.
Proof. transitivity (0 * bil f (fun _ => 0)); [rewrite <- bil_scale_r; apply bil_ext; intros; [auto|ring]|ring]. Qed.
Lemma bil_0_l f : bil (fun _ => 0) f = 0.
Proof. transitivity (0 * bil (fun _ => 0) f); [rewrite <- bil_scale_l; apply bil_ext; intros; [ring|auto]|ring]. Qed.
Lemma cross_sum {A} u (w : A -> nat -> Qc) l : qsum (map (fun a => cross u (w a)) l) = cross u (fun i => qsum (map (fun a => w a i) l)).
Proof.
  induction l as [|a l IH]; simpl.
  - unfold cross. rewrite bil_0_r, bil_0_l. ring.
  - rewrite IH. unfold cross. rewrite bil_add_l, bil_add_r. ring.
Qed.
Lemma near_average (x : nat -> Qc) (Y : list (list Qc)) (m : nat -> Qc) k : Y <> [] ->
  (forall j, (j < dim)%nat -> Qc_of_nat (length Y) * m j = qsum (map (fun y => comp y j) Y)) ->
  (forall y, In y Y -> quad (fun i => x i - comp y i) <= k) -> quad (fun i => x i - m i) <= k.
Proof.
  intros N M H. assert (NZ : 0 < Qc_of_nat (length Y)) by (apply Qc_of_nat_pos; destruct Y; [congruence|simpl; lia]).
  assert (S : qsum (map (fun y => quad (fun i => x i - comp y i)) Y) <= Qc_of_nat (length Y) * k) by (apply qsum_le_const; auto).
  assert (E : qsum (map (fun y => quad (fun i => x i - m i) + cross (fun i => x i - m i) (fun i => m i - comp y i)) Y) <= qsum (map (fun y => quad (fun i => x i - comp y i)) Y)).
  { clear - ME. induction Y as [|y Y IH]; simpl; [qclra|]. assert (P := @bil_pos (fun i => m i - comp y i)). change (0 <= quad (fun i => m i - comp y i)) in P.
    assert (E : quad (fun i => x i - comp y i) = quad (fun i => (x i - m i) + (m i - comp y i))) by (apply quad_ext; intros; ring). rewrite E, quad_add. qclra. }
  rewrite qsum_map_add, cross_sum in E.
  assert (C : cross (fun i => x i - m i) (fun i => qsum (map (fun y => m i - comp y i) Y)) = 0).
  { assert (Z : forall i, (i < dim)%nat -> qsum (map (fun y => m i - comp y i) Y) = 0).
    { intros i Hi. rewrite qsum_map_sub, <- M by auto. replace (qsum (map (fun _ => m i) Y)) with (Qc_of_nat (length Y) * m i); [ring|]. clear. induction Y as [|y Y IH]; simpl; [rewrite Qc_of_nat_0; ring|rewrite Qc_of_nat_S, <- IH; ring]. }
    unfold cross. set (w := fun i => qsum (map (fun y => m i - comp y i) Y)) in *. assert (E1 : bil (fun i => x i - m i) w = 0) by (rewrite <- (bil_0_r (fun i => x i - m i)); apply bil_ext; auto).
    assert (E2 : bil w (fun i => x i - m i) = 0) by (rewrite <- (bil_0_l (fun i => x i - m i)); apply bil_ext; auto). rewrite E1, E2. ring. }
  rewrite C in E. assert (K : qsum (map (fun _ : list Qc => quad (fun i => x i - m i)) Y) = Qc_of_nat (length Y) * quad (fun i => x i - m i)).
  { clear. induction Y as [|y Y IH]; simpl; [rewrite Qc_of_nat_0; ring|rewrite Qc_of_nat_S, IH; ring]. }
  rewrite K in E. set (q := quad (fun i => x i - m i)) in *. clearbody q. set (n := Qc_of_nat (length Y)) in *. clearbody n.
  destruct (Qclt_le_dec k q) as [L|]; auto. exfalso. assert (n * k < n * q) by (rewrite (Qcmult_comm n k), (Qcmult_comm n q); apply Qcmult_lt_compat_r; auto). qclra.
Qed.
Lemma max_lp2_pos sites : 0 <= max_lp2 dim G sites.
Proof. exact (proj1 (proj1 (fold_qmax_le (map (dist2 G (centre dim)) sites) (max_lp2 dim G sites)) (Qcle_refl _))). Qed.
Lemma max_lp2_in sites s : In s sites -> dist2 G (centre dim) s <= max_lp2 dim G sites.
Proof.
  intros H. exact (proj2 (proj1 (fold_qmax_le (map (dist2 G (centre dim)) sites) (max_lp2 dim G sites)) (Qcle_refl _)) _ (in_map (dist2 G (centre dim)) sites s H)).
Qed.
End Form.

Section Crystal.
Variables (dim : nat) (tol : Qc) (G : list (list Qc)) (sites : list (list Qc)) (ops : list symop).
Hypothesis CR : crystal dim tol G sites ops.
Hypothesis ME : metric dim G.
Notation site := (site dim sites).
Notation is_site := (is_site dim sites).
Notation proper := (proper dim sites).
Lemma sphere_reaches nbs k d : 0 <= d -> (forall i x, is_site i x -> in_sphere dim tol G sites d x = true -> In (i, x) nbs) ->
  (forall c, proper c -> length (c_coords c) = k -> dist2 G (centre dim) (c_centroid c) <= max_lp2 dim G sites) -> reaches dim G sites nbs k d.
Proof.
  intros D0 HN HC c x Pc Lk (i & Hi) Hd. exists i. apply HN; auto. unfold in_sphere. assert (Sx : site x) by (exists i; auto). assert (Lx := site_len CR Sx). specialize (HC c Pc Lk).
  destruct (centroid_facts CR Pc) as [Lc Cc]. assert (Lh : length (centre dim) = dim) by apply repeat_length. rewrite (dist2_bil ME) by auto. rewrite (dist2_bil ME) in HC by auto.
  destruct (cr_tol CR) as [T0 _]. assert (SC := proper_coords CR Pc).
  change (sqrt_le (quad dim G (fun j => comp (centre dim) j - comp x j)) (d + tol) (max_lp2 dim G sites) = true).
  erewrite quad_ext with (h := fun j => (comp (centre dim) j - comp (c_centroid c) j) + (comp (c_centroid c) j - comp x j)) by (intros; ring).
  apply (triangle ME); [qclra|exact HC|].
  assert (Q : quad dim G (fun j => comp x j - comp (c_centroid c) j) <= d * d).
  { apply (near_average ME) with (Y := c_coords c).
    - apply SC.
    - intros j Hj. destruct (Cc j Hj) as (_ & _ & ->). rewrite nth_average by auto. field. apply Qc_of_nat_nz. destruct SC as [N _]. destruct (c_coords c); [congruence|discriminate].
    - intros y Hy. specialize (Hd y Hy). rewrite (dist2_bil ME) in Hd; auto. apply (site_len CR). apply SC; auto. }
  erewrite quad_ext with (h := fun j => - (1) * (comp x j - comp (c_centroid c) j)) by (intros; ring). rewrite quad_scale. assert (d * d <= (d + tol) * (d + tol)) by (apply mul_le; auto; qclra).
  replace (- (1) * - (1)) with (Q2Qc 1) by ring. rewrite Qcmult_1_l. apply Qcle_trans with (d * d); auto.
Qed.
End Crystal.
