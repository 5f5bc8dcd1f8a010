(** C57: cluster identity. *)
From Verif Require Export Cluster.
From Verif Require Import LibProofs.
From Coq Require Import Lqa.
Set Implicit Arguments.
Unset Strict Implicit.
Local Open Scope Qc_scope.

(** ** Specification *)
(** Two numbers differ by less than [tol]. *)
Definition within (tol a b : Qc) : Prop := - tol < a - b /\ a - b < tol.
(** Component [j] of a point. *)
Notation comp x j := (nth j x (Q2Qc 0)) (only parsing).
(** The same points moved by a lattice vector. *)
Definition translate (t : list Z) (A : list (list Qc)) : list (list Qc) := map (fun x => qvadd x (map Qc_of_Z t)) A.
(** A set of points of a [dim]-dimensional lattice. *)
Definition points (dim : nat) (A : list (list Qc)) : Prop := A <> [] /\ forall x, In x A -> length x = dim.
(** Every point of [A] is a point of [B] moved by the lattice vector [t], up to the tolerance. *)
Definition covered (tol : Qc) (dim : nat) (A B : list (list Qc)) (t : list Z) : Prop :=
  forall x, In x A -> exists y, In y B /\ forall j, (j < dim)%nat -> within tol (comp x j) (comp y j + Qc_of_Z (nth j t 0%Z)).
(** Different sites are further apart than twice the tolerance in some direction. *)
Definition separated (tol : Qc) (dim : nat) (A : list (list Qc)) : Prop :=
  forall i k x y, nth_error A i = Some x -> nth_error A k = Some y -> i <> k ->
    exists j, (j < dim)%nat /\ ~ within (tol + tol) (comp x j) (comp y j).

(** ** Rounding *)
Lemma qfloor_spec x : Qc_of_Z (qfloor x) <= x /\ x < Qc_of_Z (qfloor x) + 1.
Proof.
  unfold qfloor. pose proof (Qfloor_le x) as H1. pose proof (Qlt_floor x) as H2. rewrite inject_Z_plus in H2. split.
  - unfold Qc_of_Z. apply Qc_le_iff. rewrite this_Q2Qc. exact H1.
  - unfold Qc_of_Z. apply Qc_lt_iff. rewrite this_plus, this_Q2Qc. exact H2.
Qed.
Lemma Z_of_lt a b : Qc_of_Z a < Qc_of_Z b + 1 -> (a <= b)%Z.
Proof.
  intros H. destruct (Z_le_gt_dec a b) as [|G]; auto. exfalso. assert (L : (b + 1 <= a)%Z) by lia. apply Qc_of_Z_le in L.
  rewrite Qc_of_Z_add in L. change (Qc_of_Z 1) with 1 in L. qclra.
Qed.
Lemma qfloor_unique x z : Qc_of_Z z <= x -> x < Qc_of_Z z + 1 -> qfloor x = z.
Proof.
  intros H1 H2. destruct (qfloor_spec x) as [F1 F2]. assert ((z <= qfloor x)%Z) by (apply Z_of_lt; qclra).
  assert ((qfloor x <= z)%Z) by (apply Z_of_lt; qclra). lia.
Qed.
Lemma qround_unique x z : within (Qc_frac 1 2) x (Qc_of_Z z) -> qround x = z.
Proof.
  intros [H1 H2]. unfold qround. destruct (qfloor_spec x) as [F1 F2]. set (f := qfloor x) in *. clearbody f. unfold Qc_frac in *.
  assert (A1 : (f <= z)%Z) by (apply Z_of_lt; qclra).
  assert (A2 : (z <= f + 1)%Z) by (apply Z_of_lt; rewrite Qc_of_Z_add; change (Qc_of_Z 1) with 1; qclra).
  assert (z = f \/ z = f + 1)%Z as [-> | ->] by lia.
  - destruct (Qcltb_spec (x - Qc_of_Z f) (Q2Qc (1 # 2))) as [|N]; auto. exfalso. apply Qcnot_lt_le in N. qclra.
  - rewrite Qc_of_Z_add in *. change (Qc_of_Z 1) with 1 in *.
    destruct (Qcltb_spec (x - Qc_of_Z f) (Q2Qc (1 # 2))); [exfalso; qclra|].
    destruct (Qcltb_spec (Q2Qc (1 # 2)) (x - Qc_of_Z f)) as [|N]; auto. exfalso. apply Qcnot_lt_le in N. qclra.
Qed.
Lemma qabs_lt x t : qabs x < t <-> - t < x /\ x < t.
Proof. unfold qabs. destruct (Qcltb_spec x 0) as [N|N]; try (apply Qcnot_lt_le in N); split; try intros [? ?]; try intros ?; try split; qclra. Qed.

(** ** Components *)
Lemma nth_qmap2 f u v j : f 0 0 = 0 -> length u = length v -> nth j (qmap2 f u v) 0 = f (nth j u 0) (nth j v 0).
Proof.
  intros F. revert v j. induction u as [|a u IH]; intros [|b v] j H; try discriminate; unfold qmap2 in *; simpl in *.
  - destruct j; auto.
  - destruct j; auto.
Qed.
Lemma nth_qvsub u v j : length u = length v -> nth j (qvsub u v) 0 = nth j u 0 - nth j v 0.
Proof. apply nth_qmap2. ring. Qed.
Lemma nth_qvadd u v j : length u = length v -> nth j (qvadd u v) 0 = nth j u 0 + nth j v 0.
Proof. apply nth_qmap2. ring. Qed.
Lemma length_qmap2 f u v : length u = length v -> length (qmap2 f u v) = length u.
Proof. intros H. unfold qmap2. rewrite map_length, combine_length. lia. Qed.
Lemma nth_of_Z t j : nth j (map Qc_of_Z t) 0 = Qc_of_Z (nth j t 0%Z).
Proof. change (Q2Qc 0) with (Qc_of_Z 0). apply map_nth. Qed.
Lemma vec_ext (u v : list Qc) : length u = length v -> (forall j, (j < length u)%nat -> nth j u 0 = nth j v 0) -> u = v.
Proof. intros H1 H2. apply (@nth_ext _ u v 0 0); auto. Qed.

Lemma nth_map_seq_Z (f : nat -> Z) dim j : (j < dim)%nat -> nth j (map f (seq 0 dim)) 0%Z = f j.
Proof. intros H. rewrite nth_indep with (d' := f 0%nat) by (rewrite map_length, seq_length; auto). rewrite map_nth, seq_nth by auto. reflexivity. Qed.
Lemma length_average dim A : length (average dim A) = dim.
Proof. unfold average. rewrite map_length, seq_length. reflexivity. Qed.
Lemma nth_average dim A j : (j < dim)%nat -> nth j (average dim A) 0 = qsum (map (fun x => comp x j) A) / Qc_of_nat (length A).
Proof.
  intros H. unfold average. set (f := fun j => _ / _). rewrite nth_indep with (d' := f 0%nat) by (rewrite map_length, seq_length; auto).
  rewrite map_nth, seq_nth by auto. reflexivity.
Qed.

Lemma close_iff tol dim x y : length x = dim -> length y = dim ->
  (close tol x y = true <-> forall j, (j < dim)%nat -> within tol (comp x j) (comp y j)).
Proof.
  intros <- Hy. unfold close. rewrite forallb_forall. split.
  - intros H j Hj. specialize (H (nth j x 0, nth j y 0)). simpl in H.
    assert (I : In (nth j x 0, nth j y 0) (combine x y)). { rewrite <- combine_nth by auto. apply nth_In. rewrite combine_length. lia. }
    specialize (H I). destruct (Qcltb_spec (qabs (nth j x 0 - nth j y 0)) tol) as [L|]; [|discriminate]. apply qabs_lt in L. exact L.
  - intros H [a b] I. apply (In_nth _ _ (0, 0)) in I as (j & Hj & E). rewrite combine_length in Hj. rewrite combine_nth in E by auto. injection E as <- <-. simpl.
    destruct (Qcltb_spec (qabs (nth j x 0 - nth j y 0)) tol) as [|N]; auto. exfalso. apply N. apply qabs_lt. apply H. lia.
Qed.

Lemma mk_some dim A c : mk_cluster dim A = Some c -> points dim A /\
  c = mkCluster (qvsub (average dim A) (map (fun x => Qc_of_Z (qfloor x)) (average dim A)))
        (map (fun x => qvsub x (map (fun x => Qc_of_Z (qfloor x)) (average dim A))) A) A.
Proof.
  unfold mk_cluster. destruct (_ && _) eqn:E; [|discriminate]. intros [= <-]. split; auto. apply andb_true_iff in E as [E1 E2]. split.
  - intros ->. discriminate.
  - intros x Hx. rewrite forallb_forall in E2. apply Nat.eqb_eq. auto.
Qed.
Lemma mk_total dim A : points dim A -> exists c, mk_cluster dim A = Some c.
Proof.
  intros [H1 H2]. unfold mk_cluster. rewrite (proj2 (forallb_forall _ A)) by (intros x Hx; apply Nat.eqb_eq; auto).
  destruct A; [congruence|]. simpl. eauto.
Qed.

(** The vector [shift] of the constructor. *)
Definition floors dim A : list Z := map qfloor (average dim A).
Lemma floors_shift dim A : map (fun x => Qc_of_Z (qfloor x)) (average dim A) = map Qc_of_Z (floors dim A).
Proof. unfold floors. rewrite map_map. reflexivity. Qed.
Lemma length_floors dim A : length (floors dim A) = dim.
Proof. unfold floors. rewrite map_length. apply length_average. Qed.
Lemma nth_floors dim A j : (j < dim)%nat -> nth j (floors dim A) 0%Z = qfloor (comp (average dim A) j).
Proof. intros H. unfold floors. rewrite nth_indep with (d' := qfloor 0) by (rewrite map_length, length_average; auto). apply map_nth. Qed.

(** ** Matchings *)
Section Match.
Variables (tol : Qc) (dim : nat) (A B : list (list Qc)) (t : list Z).
Hypothesis HA : separated tol dim A.
Hypothesis Hlen : length A = length B.
Hypothesis Hcov : covered tol dim A B t.

Definition pairs (x : list Qc) (k : nat) : Prop :=
  exists y, nth_error B k = Some y /\ forall j, (j < dim)%nat -> within tol (comp x j) (comp y j + Qc_of_Z (nth j t 0%Z)).

Lemma matching : exists js, Forall2 pairs A js /\ Permutation js (seq 0 (length B)).
Proof using HA Hlen Hcov.
  assert (exists js, Forall2 pairs A js) as (js & F).
  { clear HA Hlen. induction A as [|x A' IH]; [exists []; constructor|]. destruct IH as (js & F); [intros y Hy; apply Hcov; right; auto|].
    destruct (@Hcov x) as (y & Hy & W); [left; auto|]. apply In_nth_error in Hy as (k & Hk). exists (k :: js). constructor; auto. exists y. auto. }
  exists js. split; auto. assert (L : length A = length js) by (eapply Forall2_length; eauto).
  assert (N : forall i x k, nth_error A i = Some x -> nth_error js i = Some k -> pairs x k).
  { clear - F. induction F; intros [|i] a k E1 E2; simpl in *; try discriminate; [injection E1 as <-; injection E2 as <-; auto|eauto]. }
  apply NoDup_Permutation_bis.
  - apply NoDup_nth_error. intros i k Hi E. destruct (Nat.eq_dec i k) as [|D]; auto. exfalso.
    destruct (nth_error js i) as [m|] eqn:Ei; [|apply nth_error_None in Ei; lia]. symmetry in E.
    assert (Hk : (k < length js)%nat) by (apply nth_error_Some; congruence).
    destruct (nth_error A i) as [x|] eqn:Ex; [|apply nth_error_None in Ex; lia].
    destruct (nth_error A k) as [x'|] eqn:Ex'; [|apply nth_error_None in Ex'; lia].
    destruct (N i x m Ex Ei) as (y & Ey & W). destruct (N k x' m Ex' E) as (y' & Ey' & W'). rewrite Ey in Ey'. injection Ey' as <-.
    destruct (HA Ex Ex' D) as (j & Hj & NW). apply NW. specialize (W j Hj) as [W1 W2]. specialize (W' j Hj) as [W3 W4]. split; qclra.
  - rewrite seq_length. lia.
  - intros k Hk. apply In_nth_error in Hk as (i & Ei). assert ((i < length js)%nat) by (apply nth_error_Some; congruence).
    destruct (nth_error A i) as [x|] eqn:Ex; [|apply nth_error_None in Ex; lia]. destruct (N i x k Ex Ei) as (y & Ey & _).
    apply in_seq. assert ((k < length B)%nat) by (apply nth_error_Some; congruence). lia.
Qed.

Lemma covered_back : forall y, In y B -> exists x, In x A /\ forall j, (j < dim)%nat -> within tol (comp x j) (comp y j + Qc_of_Z (nth j t 0%Z)).
Proof using HA Hlen Hcov.
  intros y Hy. apply In_nth_error in Hy as (k & Ek). destruct matching as (js & F & P).
  assert (Ik : In k js). { apply Permutation_sym in P. apply (Permutation_in _ P). apply in_seq. assert ((k < length B)%nat) by (apply nth_error_Some; congruence). lia. }
  clear P. induction F as [|x m A' js' Pm F' IH] in Ik |- *; [contradiction|]. destruct Ik as [->|Ik].
  - destruct Pm as (y' & E & W). rewrite Ek in E. injection E as <-. exists x. split; [left; auto|auto].
  - destruct (IH Ik) as (x' & I' & W). exists x'. split; [right; auto|auto].
Qed.

Lemma sums_bound (s : list (list Qc)) js j : (j < dim)%nat -> Forall2 pairs s js -> 0 <= tol ->
  let D := qsum (map (fun x => comp x j) s) - (qsum (map (fun k => comp (nth k B []) j) js) + Qc_of_nat (length s) * Qc_of_Z (nth j t 0%Z)) in
  (s = [] \/ (- (Qc_of_nat (length s) * tol) < D /\ D < Qc_of_nat (length s) * tol)) /\
  - (Qc_of_nat (length s) * tol) <= D /\ D <= Qc_of_nat (length s) * tol.
Proof.
  intros Hj F T. induction F as [|x k s js (y & Ey & W) F IH]; cbn [length map qsum].
  - rewrite Qc_of_nat_0. simpl. split; [left; auto|]. split; qclra.
  - destruct IH as (_ & I1 & I2). rewrite (nth_error_nth _ _ [] Ey). destruct (W j Hj) as [W1 W2]. rewrite Qc_of_nat_S.
    cbn zeta in *. set (a := comp x j) in *. set (b := comp y j) in *. set (n := Qc_of_nat (length s)) in *.
    set (z := Qc_of_Z (nth j t 0%Z)) in *. set (S1 := qsum (map (fun x => comp x j) s)) in *. set (S2 := qsum (map _ js)) in *.
    clearbody a b n z S1 S2. replace ((1 + n) * tol) with (tol + n * tol) by ring. replace ((1 + n) * z) with (z + n * z) by ring.
    set (nt := n * tol) in *. set (nz := n * z) in *. clearbody nt nz. split; [right; split; qclra|split; qclra].
Qed.

Lemma averages_close j : (j < dim)%nat -> A <> [] -> within tol (comp (average dim A) j) (comp (average dim B) j + Qc_of_Z (nth j t 0%Z)).
Proof using HA Hlen Hcov.
  intros Hj HN. destruct matching as (js & F & P). assert (T : 0 <= tol).
  { destruct A as [|x A']; [congruence|]. destruct (Hcov (or_introl eq_refl)) as (y & _ & W). destruct (W j Hj). qclra. }
  destruct (sums_bound Hj F T) as ([E|[B1 B2]] & _); [congruence|].
  rewrite !nth_average by auto. assert (E : qsum (map (fun k => comp (nth k B []) j) js) = qsum (map (fun x => comp x j) B)).
  { rewrite (@qsum_perm _ (map (fun k => comp (nth k B []) j) (seq 0 (length B)))) by (apply Permutation_map; auto).
    f_equal. rewrite <- (map_map (fun k => nth k B []) (fun y => comp y j)). f_equal.
    clear. induction B as [|y B' IH]; auto. cbn [length seq map nth]. rewrite <- seq_shift, map_map. f_equal. exact IH. }
  rewrite E in B1, B2. rewrite <- Hlen. assert (Hn : 0 < Qc_of_nat (length A)) by (apply Qc_of_nat_pos; destruct A; [congruence|simpl; lia]).
  set (n := Qc_of_nat (length A)) in *. set (z := Qc_of_Z _) in *. set (S1 := qsum (map _ A)) in *. set (S2 := qsum (map _ B)) in *. clearbody n z S1 S2.
  assert (n <> 0) by (intros ->; qclra).
  replace (S1 / n) with ((S1 - (S2 + n * z)) / n + S2 / n + z) by (field; auto). set (D := S1 - (S2 + n * z)) in *. clearbody D.
  assert (D / n < tol) by (apply Qcdiv_lt_iff; auto; replace (tol * n) with (n * tol) by ring; auto).
  assert (- tol < D / n) by (apply Qcdiv_gt_iff; auto; replace (- tol * n) with (- (n * tol)) by ring; auto).
  set (q := D / n) in *. set (q2 := S2 / n) in *. clearbody q q2. split; qclra.
Qed.
End Match.

(** ** C57 *)
(** Any non-empty list of points makes a cluster; its coordinates are the points moved by one lattice vector, its
    centroid is their average and lies in the unit cell. *)
Theorem C57_normal : forall dim A, points dim A -> exists c t, mk_cluster dim A = Some c /\ length t = dim /\
  c_coords c = translate t A /\ length (c_centroid c) = dim /\
  forall j, (j < dim)%nat -> 0 <= comp (c_centroid c) j /\ comp (c_centroid c) j < 1 /\
    comp (c_centroid c) j * Qc_of_nat (length A) = qsum (map (fun x => comp x j) (c_coords c)).
Proof.
  intros dim A HP. destruct (mk_total HP) as (c & Hc). exists c, (map Z.opp (floors dim A)). split; auto.
  destruct (mk_some Hc) as [[HN HL] ->]. cbn [c_coords c_centroid]. rewrite floors_shift. split; [rewrite map_length; apply length_floors|]. split; [|split].
  - unfold translate. apply map_ext_in. intros x Hx. assert (Lx := HL x Hx). apply vec_ext.
    + unfold qvsub, qvadd. rewrite !length_qmap2; rewrite ?map_length, ?map_length, ?length_floors; auto.
    + intros j _. rewrite nth_qvsub, nth_qvadd by (rewrite ?map_length, ?map_length, ?length_floors; auto). rewrite !nth_of_Z.
      rewrite (map_nth Z.opp (floors dim A) 0%Z j : nth j (map Z.opp (floors dim A)) 0%Z = _). replace (Qc_of_Z (- nth j (floors dim A) 0%Z)) with (- Qc_of_Z (nth j (floors dim A) 0%Z)); [reflexivity|].
      assert (E := Qc_of_Z_add (nth j (floors dim A) 0%Z) (- nth j (floors dim A) 0%Z)). rewrite Z.add_opp_diag_r in E. change (Qc_of_Z 0) with 0 in E. qclra.
  - unfold qvsub. rewrite length_qmap2; [apply length_average|]. rewrite map_length, length_floors, length_average. reflexivity.
  - intros j Hj. rewrite nth_qvsub by (rewrite map_length, length_floors, length_average; reflexivity). rewrite nth_of_Z, nth_floors by auto.
    destruct (qfloor_spec (comp (average dim A) j)) as [F1 F2]. split; [qclra|]. split; [qclra|]. rewrite map_map.
    rewrite (qsum_map_ext _ (fun x => comp x j - Qc_of_Z (qfloor (comp (average dim A) j))) A).
    2:{ intros x Hx. rewrite nth_qvsub by (rewrite map_length, length_floors; auto). rewrite nth_of_Z, nth_floors by auto. reflexivity. }
    rewrite qsum_map_sub, qsum_const. rewrite nth_average by auto. assert (Qc_of_nat (length A) <> 0) by (apply Qc_of_nat_nz; destruct A; [congruence|discriminate]).
    unfold Qcminus at 1. rewrite Qcmult_plus_distr_l, Qcdiv_cancel by auto. ring.
Qed.

(** Moving all points by a lattice vector gives the same centroid and the same coordinates. *)
Theorem C57_translation : forall dim A t c, length t = dim -> mk_cluster dim A = Some c ->
  mk_cluster dim (translate t A) = Some (mkCluster (c_centroid c) (c_coords c) (translate t A)).
Proof.
  intros dim A t c Ht Hc. destruct (mk_some Hc) as [[HN HL] ->]. cbn [c_coords c_centroid].
  assert (HP : points dim (translate t A)).
  { split; [unfold translate; destruct A; [congruence|discriminate]|]. intros x Hx. apply in_map_iff in Hx as (y & <- & Hy).
    unfold qvadd. rewrite length_qmap2; auto. rewrite map_length. rewrite (HL y Hy). auto. }
  destruct (mk_total HP) as (c' & Hc'). rewrite Hc'. destruct (mk_some Hc') as [_ ->]. rewrite !floors_shift.
  assert (EA : forall j, (j < dim)%nat -> comp (average dim (translate t A)) j = comp (average dim A) j + Qc_of_Z (nth j t 0%Z)).
  { intros j Hj. rewrite !nth_average by auto. unfold translate. rewrite map_length, map_map.
    rewrite (qsum_map_ext _ (fun x => comp x j + Qc_of_Z (nth j t 0%Z)) A).
    2:{ intros x Hx. rewrite nth_qvadd by (rewrite map_length; rewrite (HL x Hx); auto). rewrite nth_of_Z. reflexivity. }
    rewrite qsum_map_add, qsum_const. assert (Qc_of_nat (length A) <> 0) by (apply Qc_of_nat_nz; destruct A; [congruence|discriminate]). field. auto. }
  assert (EF : forall j, (j < dim)%nat -> nth j (floors dim (translate t A)) 0%Z = (nth j (floors dim A) 0 + nth j t 0)%Z).
  { intros j Hj. rewrite !nth_floors, EA by auto. destruct (qfloor_spec (comp (average dim A) j)). apply qfloor_unique; rewrite Qc_of_Z_add; qclra. }
  f_equal. f_equal.
  - apply vec_ext.
    + unfold qvsub. rewrite !length_qmap2; rewrite ?map_length, ?length_floors, ?length_average; auto.
    + unfold qvsub at 1. rewrite length_qmap2 by (rewrite ?map_length, ?length_floors, ?length_average; auto). rewrite length_average. intros j Hj.
      rewrite !nth_qvsub by (rewrite ?map_length, ?length_floors, ?length_average; auto). rewrite !nth_of_Z, EA, EF, Qc_of_Z_add by auto. ring.
  - unfold translate. rewrite map_map. apply map_ext_in. intros x Hx. assert (Lx := HL x Hx). apply vec_ext.
    + unfold qvsub, qvadd. rewrite !length_qmap2; rewrite ?length_qmap2; rewrite ?map_length, ?length_floors; congruence.
    + unfold qvsub at 1. rewrite length_qmap2; unfold qvadd; rewrite ?length_qmap2; rewrite ?map_length, ?length_floors; try congruence.
      rewrite Lx. intros j Hj. fold (qvadd x (map Qc_of_Z t)). fold (translate t A).
      rewrite !nth_qvsub by (unfold qvadd; rewrite ?length_qmap2; rewrite ?map_length, ?length_floors; congruence).
      rewrite nth_qvadd by (rewrite map_length; congruence). rewrite !nth_of_Z, EF, Qc_of_Z_add by auto. ring.
Qed.

(** A copy, or a cluster rebuilt from its sites, is the same cluster. *)
Theorem C57_copy : forall dim A c, mk_cluster dim A = Some c -> rebuild dim c = Some c.
Proof. intros dim A c H. destruct (mk_some H) as [_ E]. unfold rebuild. rewrite E. cbn [c_sites]. rewrite <- E. exact H. Qed.

(** What the comparison computes, in terms of the points that were passed. *)
Lemma eq_iff tol dim A B a b : mk_cluster dim A = Some a -> mk_cluster dim B = Some b ->
  let T j := qround ((comp (average dim A) j - Qc_of_Z (nth j (floors dim A) 0%Z)) - (comp (average dim B) j - Qc_of_Z (nth j (floors dim B) 0%Z))) in
  (cluster_eq tol a b = true <-> length A = length B /\
    forall x, In x A -> exists y, In y B /\ forall j, (j < dim)%nat ->
      within tol (comp x j) (comp y j + Qc_of_Z (T j + nth j (floors dim A) 0%Z - nth j (floors dim B) 0%Z))).
Proof.
  intros Ha Hb T. destruct (mk_some Ha) as [[NA LA] ->]. destruct (mk_some Hb) as [[NB LB] ->]. unfold cluster_eq. cbn [c_coords c_centroid]. rewrite !floors_shift.
  unfold shape. cbn [fst snd]. rewrite !map_length.
  set (sa := map Qc_of_Z (floors dim A)). set (sb := map Qc_of_Z (floors dim B)).
  assert (Lsa : length sa = dim) by (unfold sa; rewrite map_length; apply length_floors).
  assert (Lsb : length sb = dim) by (unfold sb; rewrite map_length; apply length_floors).
  assert (E1 : length (hd [] (map (fun x => qvsub x sa) A)) = dim).
  { destruct A as [|x A']; [congruence|]. simpl. unfold qvsub. rewrite length_qmap2; rewrite (LA x) by (left; auto); auto. }
  assert (E2 : length (hd [] (map (fun x => qvsub x sb) B)) = dim).
  { destruct B as [|x B']; [congruence|]. simpl. unfold qvsub. rewrite length_qmap2; rewrite (LB x) by (left; auto); auto. }
  rewrite E1, E2, Nat.eqb_refl, andb_true_r. destruct (Nat.eqb_spec (length A) (length B)) as [HL|HL]; [|split; [discriminate|intros [? _]; congruence]].
  set (dc := qvsub (qvsub (average dim A) sa) (qvsub (average dim B) sb)).
  assert (Ldc : length dc = dim). { unfold dc, qvsub. rewrite !length_qmap2; rewrite ?length_qmap2; rewrite ?length_average; congruence. }
  set (sh := map (fun x => Qc_of_Z (qround x)) dc).
  assert (Lsh : length sh = dim) by (unfold sh; rewrite map_length; auto).
  assert (Hsh : forall j, (j < dim)%nat -> nth j sh 0 = Qc_of_Z (T j)).
  { intros j Hj. unfold sh. rewrite nth_indep with (d' := (fun x => Qc_of_Z (qround x)) 0) by (rewrite map_length; lia). rewrite (map_nth (fun x => Qc_of_Z (qround x))). unfold T. do 2 f_equal.
    unfold dc. rewrite !nth_qvsub by (unfold qvsub; rewrite ?length_qmap2; rewrite ?length_average; congruence). unfold sa, sb. rewrite !nth_of_Z. reflexivity. }
  assert (C : forall x y, In x A -> In y B -> (close tol (qvsub x sa) (qvadd (qvsub y sb) sh) = true <-> forall j, (j < dim)%nat ->
      within tol (comp x j) (comp y j + Qc_of_Z (T j + nth j (floors dim A) 0%Z - nth j (floors dim B) 0%Z)))).
  { intros x y Hx Hy. specialize (LA x Hx). specialize (LB y Hy).
    rewrite (@close_iff tol dim) by (unfold qvsub, qvadd; rewrite ?length_qmap2; rewrite ?length_qmap2; congruence).
    assert (W : forall j, (j < dim)%nat -> within tol (comp (qvsub x sa) j) (comp (qvadd (qvsub y sb) sh) j) <->
        within tol (comp x j) (comp y j + Qc_of_Z (T j + nth j (floors dim A) 0%Z - nth j (floors dim B) 0%Z))).
    { intros j Hj. rewrite nth_qvadd by (unfold qvsub; rewrite ?length_qmap2; congruence). rewrite !nth_qvsub by congruence. rewrite Hsh by auto.
      unfold sa, sb. rewrite !nth_of_Z. replace (T j + nth j (floors dim A) 0 - nth j (floors dim B) 0)%Z with (T j + nth j (floors dim A) 0 + - nth j (floors dim B) 0)%Z by ring.
      rewrite !Qc_of_Z_add. replace (Qc_of_Z (- nth j (floors dim B) 0%Z)) with (- Qc_of_Z (nth j (floors dim B) 0%Z)).
      2:{ assert (E := Qc_of_Z_add (nth j (floors dim B) 0%Z) (- nth j (floors dim B) 0%Z)). rewrite Z.add_opp_diag_r in E. change (Qc_of_Z 0) with 0 in E. qclra. }
      set (fa := Qc_of_Z (nth j (floors dim A) 0%Z)). set (fb := Qc_of_Z (nth j (floors dim B) 0%Z)). set (tj := Qc_of_Z (T j)). clearbody fa fb tj.
      unfold within. split; intros [? ?]; split; qclra. }
    split; intros H j Hj; apply W; auto. }
  unfold coord_subset. rewrite forallb_forall. split.
  - intros H. split; auto. intros x Hx. specialize (H _ (in_map _ _ _ Hx)). apply existsb_exists in H as (y' & Hy' & Hc). apply in_map_iff in Hy' as (y'' & <- & Hy').
    apply in_map_iff in Hy' as (y & <- & Hy). exists y. split; auto. apply C; auto.
  - intros [_ H] x' Hx'. apply in_map_iff in Hx' as (x & <- & Hx). destruct (H x Hx) as (y & Hy & W). apply existsb_exists. exists (qvadd (qvsub y sb) sh). split.
    + apply in_map_iff. exists (qvsub y sb). split; auto. apply in_map_iff. eauto.
    + apply C; auto.
Qed.

Lemma eq_of_match tol dim A B a b t : tol <= Qc_frac 1 2 -> mk_cluster dim A = Some a -> mk_cluster dim B = Some b -> length A = length B ->
  (forall j, (j < dim)%nat -> within tol (comp (average dim A) j) (comp (average dim B) j + Qc_of_Z (nth j t 0%Z))) ->
  covered tol dim A B t -> cluster_eq tol a b = true.
Proof.
  intros Ht Ha Hb HL HC Hcov. apply (eq_iff tol Ha Hb). split; auto. intros x Hx. destruct (@Hcov x Hx) as (y & Hy & W). exists y. split; auto. intros j Hj.
  rewrite (@qround_unique _ (nth j t 0 - nth j (floors dim A) 0 + nth j (floors dim B) 0)%Z).
  - replace (nth j t 0 - nth j (floors dim A) 0 + nth j (floors dim B) 0 + nth j (floors dim A) 0 - nth j (floors dim B) 0)%Z with (nth j t 0%Z) by ring. auto.
  - destruct (HC j Hj) as [C1 C2]. replace (nth j t 0 - nth j (floors dim A) 0 + nth j (floors dim B) 0)%Z with (nth j t 0 + nth j (floors dim B) 0 + - nth j (floors dim A) 0)%Z by ring.
    rewrite !Qc_of_Z_add. replace (Qc_of_Z (- nth j (floors dim A) 0%Z)) with (- Qc_of_Z (nth j (floors dim A) 0%Z)).
    2:{ assert (E := Qc_of_Z_add (nth j (floors dim A) 0%Z) (- nth j (floors dim A) 0%Z)). rewrite Z.add_opp_diag_r in E. change (Qc_of_Z 0) with 0 in E. qclra. }
    unfold Qc_frac in *. split; qclra.
Qed.

(** Two clusters are equal exactly when they have the same number of sites and a lattice vector moves the sites of the
    second onto the sites of the first, in any order. *)
Theorem C57_equal_iff : forall tol dim A B a b, tol <= Qc_frac 1 2 -> separated tol dim A ->
  mk_cluster dim A = Some a -> mk_cluster dim B = Some b ->
  (cluster_eq tol a b = true <-> length A = length B /\ exists t, length t = dim /\ covered tol dim A B t).
Proof.
  intros tol dim A B a b Ht HS Ha Hb. split.
  - intros H. apply (eq_iff tol Ha Hb) in H as [HL H]. split; auto.
    set (T := fun j => qround (comp (average dim A) j - Qc_of_Z (nth j (floors dim A) 0%Z) - (comp (average dim B) j - Qc_of_Z (nth j (floors dim B) 0%Z)))) in *.
    exists (map (fun j => T j + nth j (floors dim A) 0 - nth j (floors dim B) 0)%Z (seq 0 dim)). split; [rewrite map_length, seq_length; auto|].
    intros x Hx. destruct (H x Hx) as (y & Hy & W). exists y. split; auto. intros j Hj. rewrite nth_map_seq_Z by auto. apply W; auto.
  - intros [HL (t & Lt & Hc)]. apply (@eq_of_match tol dim A B a b t); auto. intros j Hj. apply averages_close; auto. apply (mk_some Ha).
Qed.

(** Equality is reflexive. *)
Theorem C57_reflexive : forall tol dim A a, 0 < tol -> tol <= Qc_frac 1 2 -> mk_cluster dim A = Some a -> cluster_eq tol a a = true.
Proof.
  intros tol dim A a T0 T1 Ha. apply (@eq_of_match tol dim A A a a (repeat 0%Z dim)); auto.
  - intros j Hj. rewrite nth_repeat. change (Qc_of_Z 0) with 0. split; qclra.
  - intros x Hx. exists x. split; auto. intros j Hj. rewrite nth_repeat. change (Qc_of_Z 0) with 0. split; qclra.
Qed.

(** Equality is symmetric when the sites of the left cluster are separated. *)
Theorem C57_symmetric : forall tol dim A B a b, tol <= Qc_frac 1 2 -> separated tol dim A ->
  mk_cluster dim A = Some a -> mk_cluster dim B = Some b -> cluster_eq tol a b = true -> cluster_eq tol b a = true.
Proof.
  intros tol dim A B a b Ht HS Ha Hb H. apply (C57_equal_iff Ht HS Ha Hb) in H as [HL (t & Lt & Hc)].
  assert (O : forall j, Qc_of_Z (nth j (map Z.opp t) 0%Z) = - Qc_of_Z (nth j t 0%Z)).
  { intros j. rewrite (map_nth Z.opp t 0%Z j : nth j (map Z.opp t) 0%Z = _).
    assert (E := Qc_of_Z_add (nth j t 0%Z) (- nth j t 0%Z)). rewrite Z.add_opp_diag_r in E. change (Qc_of_Z 0) with 0 in E. qclra. }
  apply (@eq_of_match tol dim B A b a (map Z.opp t)); auto.
  - intros j Hj. assert (NA : A <> []) by apply (mk_some Ha). destruct (averages_close HS HL Hc Hj NA). rewrite O. split; qclra.
  - intros y Hy. destruct (covered_back HS HL Hc Hy) as (x & Hx & W). exists x. split; auto. intros j Hj. destruct (W j Hj). rewrite O. split; qclra.
Qed.

(** Equality follows a lattice translation, whatever the order of the sites. *)
Theorem C57_moved : forall tol dim A B t a b, 0 < tol -> tol <= Qc_frac 1 2 -> separated tol dim A -> length t = dim ->
  Permutation B (translate t A) -> mk_cluster dim A = Some a -> mk_cluster dim B = Some b ->
  cluster_eq tol a b = true /\ cluster_eq tol b a = true.
Proof.
  intros tol dim A B t a b T0 T1 HS Lt P Ha Hb.
  assert (H : cluster_eq tol a b = true).
  { apply (C57_equal_iff T1 HS Ha Hb). split; [apply Permutation_length in P; rewrite P; unfold translate; rewrite map_length; auto|].
    exists (map Z.opp t). split; [rewrite map_length; auto|]. intros x Hx. exists (qvadd x (map Qc_of_Z t)). split.
    - apply Permutation_sym in P. apply (Permutation_in _ P). apply (in_map (fun x => qvadd x (map Qc_of_Z t))). auto.
    - intros j Hj. destruct (mk_some Ha) as [[_ LA] _]. rewrite nth_qvadd by (rewrite map_length, (LA x Hx); auto). rewrite nth_of_Z.
      rewrite (map_nth Z.opp t 0%Z j : nth j (map Z.opp t) 0%Z = _).
      assert (E := Qc_of_Z_add (nth j t 0%Z) (- nth j t 0%Z)). rewrite Z.add_opp_diag_r in E. change (Qc_of_Z 0) with 0 in E. split; qclra. }
  split; auto. apply (@C57_symmetric tol dim A B a b); auto.
Qed.

(** ** Concrete cases *)
Definition ex_tol := Qc_frac 1 1000000.
Definition ex_pair : list (list Qc) := [[Qc_frac 1 2; 0; 0]; [0; 0; Qc_frac 3 2]].
(** The same pair of sites in another order and another cell; the centroid sits on the boundary of the cell and is
    off by less than the tolerance. *)
Definition ex_moved : list (list Qc) := [[Qc_of_Z 3; Qc_frac (-1) 4000000; Qc_frac (-1) 2]; [Qc_frac 7 2; Qc_frac (-1) 4000000; Qc_of_Z (-2)]].
Example C57_case : separated ex_tol 3 ex_pair /\ exists a b, mk_cluster 3 ex_pair = Some a /\ mk_cluster 3 ex_moved = Some b /\
  map (map this) [c_centroid a; c_centroid b] = [[1 # 4; 0 # 1; 3 # 4]; [1 # 4; 3999999 # 4000000; 3 # 4]]%Q /\
  cluster_eq ex_tol a b = true /\ cluster_eq ex_tol b a = true.
Proof.
  split.
  - intros i k x y Ei Ek D. exists 2%nat. split; [lia|]. intros [W1 W2].
    destruct i as [|[|i]]; destruct k as [|[|k]]; simpl in Ei, Ek; try discriminate; try congruence;
      try (destruct i; discriminate); try (destruct k; discriminate); injection Ei as <-; injection Ek as <-; vm_compute in W1, W2; discriminate.
  - destruct (mk_cluster 3 ex_pair) as [a|] eqn:Ea; [|vm_compute in Ea; discriminate].
    destruct (mk_cluster 3 ex_moved) as [b|] eqn:Eb; [|vm_compute in Eb; discriminate].
    exists a, b. split; auto. split; auto. destruct (mk_some Ea) as [_ ->]. destruct (mk_some Eb) as [_ ->]. split; [|split]; vm_compute; reflexivity.
Qed.

(** Without the separation, equality is not symmetric: two sites closer than twice the tolerance. *)
Example C57_separation_needed : exists a b,
  mk_cluster 1 [[0]; [Qc_frac 1 1000000]] = Some a /\ mk_cluster 1 [[Qc_frac 1 2000000]; [Qc_frac 1 4]] = Some b /\
  cluster_eq ex_tol a b = true /\ cluster_eq ex_tol b a = false.
Proof.
  destruct (mk_cluster 1 [[0]; [Qc_frac 1 1000000]]) as [a|] eqn:Ea; [|vm_compute in Ea; discriminate].
  destruct (mk_cluster 1 [[Qc_frac 1 2000000]; [Qc_frac 1 4]]) as [b|] eqn:Eb; [|vm_compute in Eb; discriminate].
  exists a, b. split; auto. split; auto. destruct (mk_some Ea) as [_ ->]. destruct (mk_some Eb) as [_ ->]. split; vm_compute; reflexivity.
Qed.

Print Assumptions C57_normal.
Print Assumptions C57_translation.
Print Assumptions C57_copy.
Print Assumptions C57_equal_iff.
Print Assumptions C57_reflexive.
Print Assumptions C57_symmetric.
Print Assumptions C57_moved.
