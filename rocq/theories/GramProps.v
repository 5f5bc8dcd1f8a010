(** C109 and C111: Gram and similarity matrices of features. *)
From Verif Require Import Lib LibProofs.
From Verif Require Export Gram.
From Coq Require Import Lra Lia Sorted Permutation.
Set Implicit Arguments.
Unset Strict Implicit.
Open Scope R_scope.

(** ** Specification *)
Definition value (matrix : list (list R)) (r c : nat) : R := nth c (nth r matrix []) 0.
Definition over (rows : list nat) (f : nat -> R) : R := fold_right Rplus 0 (map f rows).
Definition inner (matrix : list (list R)) (rows : list nat) (c c' : nat) : R := over rows (fun r => value matrix r c * value matrix r c').
Definition close (atol rtol a b : R) : Prop := Rabs (a - b) <= atol + rtol * Rabs b.
(** [k] of the rows satisfy [P]. *)
Inductive counts (P : nat -> Prop) : list nat -> nat -> Prop :=
| counts_nil : counts P [] 0
| counts_yes r rows k : P r -> counts P rows k -> counts P (r :: rows) (S k)
| counts_no r rows k : ~ P r -> counts P rows k -> counts P (r :: rows) k.
Definition at_ (m : list (list R)) (i j : nat) : R := nth j (nth i m []) 0.
Definition square (m : list (list R)) (n : nat) : Prop := length m = n /\ forall row, In row m -> length row = n.
(** The feature matrix has [d] columns, and the indices are in range. *)
Definition indices_ok (matrix : list (list R)) (d : nat) (rows cols : list nat) : Prop :=
  (forall row, In row matrix -> length row = d) /\ (forall r, In r rows -> (r < length matrix)%nat) /\ (forall c, In c cols -> (c < d)%nat).

(** ** Proofs *)
Lemma submatrix_ok matrix d rows cols : indices_ok matrix d rows cols -> submatrix matrix rows cols = Some (map (fun r => map (fun c => value matrix r c) cols) rows).
Proof.
  intros (H1 & H2 & H3). unfold submatrix. rewrite (opt_map_map (nth_error matrix) (fun r => nth r matrix [])) by (intros r Hr; apply nth_error_nth'; auto). cbn [option_bind].
  rewrite (opt_map_map _ (fun row => map (fun c => nth c row 0) cols)).
  - rewrite map_map. reflexivity.
  - intros row Hrow. apply in_map_iff in Hrow as (r & <- & Hr). apply (opt_map_map _ (fun c => nth c (nth r matrix []) 0)). intros c Hc. apply nth_error_nth'. rewrite (H1 (nth r matrix [])); auto. apply nth_In. auto.
Qed.
Lemma column_sub matrix rows cols i : (i < length cols)%nat -> column (map (fun r => map (fun c => value matrix r c) cols) rows) i = map (fun r => value matrix r (nth i cols 0%nat)) rows.
Proof.
  intros H. unfold column. rewrite map_map. apply map_ext. intros r. rewrite (nth_indep _ 0 (value matrix r 0)) by (rewrite map_length; auto). apply (map_nth (fun c => value matrix r c)).
Qed.
Lemma product_map (f g : nat -> R) rows : product_of (map f rows) (map g rows) = over rows (fun r => f r * g r).
Proof. unfold product_of, over, rsum. induction rows as [|r rows IH]; cbn; [auto|]. rewrite IH. auto. Qed.
Lemma over_ext rows f g : (forall r, In r rows -> f r = g r) -> over rows f = over rows g.
Proof. intros H. unfold over. f_equal. apply map_ext_in. auto. Qed.
Lemma over_scale rows a f : over rows (fun r => a * f r) = a * over rows f.
Proof. unfold over. induction rows as [|r rows IH]; cbn; [ring|]. rewrite IH. ring. Qed.
Lemma over_plus rows f g : over rows (fun r => f r + g r) = over rows f + over rows g.
Proof. unfold over. induction rows as [|r rows IH]; cbn; [ring|]. rewrite IH. ring. Qed.
Lemma over_nonneg rows f : (forall r, In r rows -> 0 <= f r) -> 0 <= over rows f.
Proof. intros H. unfold over. induction rows as [|r rows IH]; cbn; [lra|]. pose proof (H r (or_introl eq_refl)). assert (0 <= fold_right Rplus 0 (map f rows)) by (apply IH; intros; apply H; simpl; auto). lra. Qed.
Lemma over_zero rows f : (forall r, In r rows -> 0 <= f r) -> over rows f = 0 -> forall r, In r rows -> f r = 0.
Proof.
  unfold over. induction rows as [|x rows IH]; cbn; intros H E r Hr; [contradiction|]. pose proof (H x (or_introl eq_refl)). pose proof (@over_nonneg rows f (fun r Hr => H r (or_intror Hr))) as N. unfold over in N.
  destruct Hr as [<-|Hr]; [lra|]. apply IH; auto. lra.
Qed.
Section Pair.
Variables (rows : list nat) (u v : nat -> R).
Let A := over rows (fun r => u r * u r).
Let B := over rows (fun r => u r * v r).
Let C := over rows (fun r => v r * v r).
Lemma gap : over rows (fun r => (C * u r - B * v r) * (C * u r - B * v r)) = C * (A * C - B * B).
Proof.
  rewrite (over_ext (g := fun r => C * C * (u r * u r) + ((- (2) * B * C) * (u r * v r) + B * B * (v r * v r)))) by (intros; ring).
  rewrite !over_plus, !over_scale. fold A B C. ring.
Qed.
Hypotheses (HA : A <> 0) (HC : C <> 0).
Lemma pos_A : 0 < A. Proof using HA. pose proof (@over_nonneg rows (fun r => u r * u r) (fun r _ => Rle_0_sqr (u r))) as H. fold A in H. lra. Qed.
Lemma pos_C : 0 < C. Proof using HC. pose proof (@over_nonneg rows (fun r => v r * v r) (fun r _ => Rle_0_sqr (v r))) as H. fold C in H. lra. Qed.
Lemma schwarz : B * B <= A * C.
Proof using HC.
  pose proof gap as G. pose proof (@over_nonneg rows (fun r => (C * u r - B * v r) * (C * u r - B * v r)) (fun r _ => Rle_0_sqr _)) as H. rewrite G in H. pose proof pos_C. nra.
Qed.
Lemma cosine_bound : -1 <= B / (sqrt A * sqrt C) <= 1.
Proof using HA HC.
  pose proof pos_A as PA. pose proof pos_C as PC. pose proof schwarz as S. rewrite <- sqrt_mult by lra. assert (P : 0 < sqrt (A * C)) by (apply sqrt_lt_R0; nra).
  assert (Q : sqrt (A * C) * sqrt (A * C) = A * C) by (apply sqrt_sqrt; nra). set (s := sqrt (A * C)) in *. assert (- s <= B <= s) by (split; nra).
  split; apply Rmult_le_reg_r with s; auto; unfold Rdiv; rewrite Rmult_assoc, Rinv_l by lra; lra.
Qed.
Lemma cosine_one : B / (sqrt A * sqrt C) = 1 <-> exists a, 0 < a /\ forall r, In r rows -> u r = a * v r.
Proof using HA HC.
  pose proof pos_A as PA. pose proof pos_C as PC. rewrite <- sqrt_mult by lra. assert (P : 0 < sqrt (A * C)) by (apply sqrt_lt_R0; nra).
  assert (Q : sqrt (A * C) * sqrt (A * C) = A * C) by (apply sqrt_sqrt; nra). set (s := sqrt (A * C)) in *. split.
  - intros E. assert (EB : B = s) by (replace B with (B / s * s) by (field; lra); rewrite E; ring). assert (Z : over rows (fun r => (C * u r - B * v r) * (C * u r - B * v r)) = 0) by (rewrite gap, EB, Q; ring).
    exists (B / C). split; [rewrite EB; apply Rdiv_lt_0_compat; auto|]. intros r Hr. pose proof (over_zero (fun r _ => Rle_0_sqr _) Z Hr) as X. cbn beta in X. apply Rsqr_0_uniq in X. replace (u r) with (C * u r / C) by (field; lra). replace (C * u r) with (B * v r) by lra. field. lra.
  - intros (a & Pa & H). assert (EB : B = a * C) by (unfold B, C; rewrite <- over_scale; apply over_ext; intros r Hr; rewrite (H r Hr); ring).
    assert (EA : A = a * a * C) by (unfold A, C; rewrite <- over_scale; apply over_ext; intros r Hr; rewrite (H r Hr); ring). assert (s = a * C). { assert ((s - a * C) * (s + a * C) = 0) by (ring_simplify; nra). assert (0 < a * C) by nra. nra. }
    rewrite EB, H0. field. split; nra.
Qed.
End Pair.
Lemma table_at (f : nat -> nat -> R) n i j : (i < n)%nat -> (j < n)%nat -> at_ (map (fun i => map (f i) (seq 0 n)) (seq 0 n)) i j = f i j.
Proof.
  intros Hi Hj. unfold at_. rewrite (nth_indep _ [] (map (f 0%nat) (seq 0 n))) by (rewrite map_length, seq_length; auto). rewrite (map_nth (fun i => map (f i) (seq 0 n))), seq_nth by auto. cbn [Nat.add].
  rewrite (nth_indep _ 0 (f i 0%nat)) by (rewrite map_length, seq_length; auto). rewrite map_nth, seq_nth by auto. auto.
Qed.
Lemma table_square (f : nat -> nat -> R) n : square (map (fun i => map (f i) (seq 0 n)) (seq 0 n)) n.
Proof. split; [rewrite map_length, seq_length; auto|]. intros row H. apply in_map_iff in H as (i & <- & _). rewrite map_length, seq_length. auto. Qed.

(** Without normalisation the elements are inner products of the chosen columns over the chosen rows. *)
Theorem C109_gram_plain matrix d rows cols : indices_ok matrix d rows cols -> exists g, get_gram_matrix matrix rows cols false = Some g /\ square g (length cols) /\
  forall i j, (i < length cols)%nat -> (j < length cols)%nat -> at_ g i j = inner matrix rows (nth i cols 0%nat) (nth j cols 0%nat).
Proof.
  intros H. unfold get_gram_matrix. rewrite (submatrix_ok H). cbn [option_map]. eexists. split; [reflexivity|]. split; [apply table_square|]. intros i j Hi Hj. unfold gram_matrix. rewrite table_at by auto. cbn [normalise]. rewrite !column_sub by auto. apply product_map.
Qed.
(** With normalisation, for columns that are not zero: cosines of angles between columns, so symmetric, one on the diagonal, between -1 and 1, and equal to 1 exactly for proportional columns. *)
Theorem C109_gram matrix d rows cols : indices_ok matrix d rows cols -> (forall c, In c cols -> inner matrix rows c c <> 0) -> exists g, get_gram_matrix matrix rows cols true = Some g /\ square g (length cols) /\
  forall i j, (i < length cols)%nat -> (j < length cols)%nat -> let c := nth i cols 0%nat in let c' := nth j cols 0%nat in
    at_ g i j = inner matrix rows c c' / (sqrt (inner matrix rows c c) * sqrt (inner matrix rows c' c')) /\
    at_ g i j = at_ g j i /\ at_ g i i = 1 /\ -1 <= at_ g i j <= 1 /\ (at_ g i j = 1 <-> exists a, 0 < a /\ forall r, In r rows -> value matrix r c = a * value matrix r c').
Proof.
  intros H NZ. unfold get_gram_matrix. rewrite (submatrix_ok H). cbn [option_map]. eexists. split; [reflexivity|]. split; [apply table_square|].
  assert (F : forall i j, (i < length cols)%nat -> (j < length cols)%nat -> let c := nth i cols 0%nat in let c' := nth j cols 0%nat in
    at_ (gram_matrix (map (fun r => map (fun c => value matrix r c) cols) rows) (length cols) true) i j = inner matrix rows c c' / (sqrt (inner matrix rows c c) * sqrt (inner matrix rows c' c'))).
  { intros i j Hi Hj. cbv zeta. unfold gram_matrix. rewrite table_at by auto. cbn [normalise]. rewrite !column_sub by auto. rewrite !product_map. rewrite !map_map. rewrite product_map. fold (inner matrix rows (nth i cols 0%nat) (nth i cols 0%nat)) (inner matrix rows (nth j cols 0%nat) (nth j cols 0%nat)).
    set (a := inner matrix rows (nth i cols 0%nat) (nth i cols 0%nat)). set (b := inner matrix rows (nth j cols 0%nat) (nth j cols 0%nat)).
    assert (Pa : 0 < a) by (apply pos_A; apply NZ, nth_In; auto). assert (Pb : 0 < b) by (apply pos_A; apply NZ, nth_In; auto). apply sqrt_lt_R0 in Pa, Pb.
    rewrite (over_ext (g := fun r => / (sqrt a * sqrt b) * (value matrix r (nth i cols 0%nat) * value matrix r (nth j cols 0%nat)))) by (intros r _; field; lra). rewrite over_scale. unfold inner. field. lra. }
  intros i j Hi Hj. cbv zeta. rewrite (F i j Hi Hj), (F j i Hj Hi), (F i i Hi Hi). set (c := nth i cols 0%nat). set (c' := nth j cols 0%nat).
  assert (Nc : inner matrix rows c c <> 0) by (apply NZ, nth_In; auto). assert (Nc' : inner matrix rows c' c' <> 0) by (apply NZ, nth_In; auto).
  split; auto. split; [|split; [|split]].
  - replace (inner matrix rows c' c) with (inner matrix rows c c') by (apply over_ext; intros; ring). rewrite Rmult_comm with (r1 := sqrt (inner matrix rows c' c')). auto.
  - assert (P : 0 < inner matrix rows c c) by (apply pos_A; auto). rewrite sqrt_sqrt by lra. field. auto.
  - apply cosine_bound; auto.
  - apply cosine_one; auto.
Qed.
Lemma isclose_spec atol rtol a b : isclose atol rtol a b = true <-> close atol rtol a b.
Proof. unfold isclose, close. destruct (Rle_dec _ _); split; auto; discriminate || (intros; contradiction). Qed.
Lemma identical_counts atol rtol (f g : nat -> R) rows : counts (fun r => close atol rtol (f r) (g r)) rows (num_identical atol rtol (map f rows) (map g rows)).
Proof.
  unfold num_identical. induction rows as [|r rows IH]; cbn [map combine filter fst snd]; [constructor|]. destruct (isclose atol rtol (f r) (g r)) eqn:E.
  - apply counts_yes; auto. apply isclose_spec. auto.
  - apply counts_no; auto. intros H. apply isclose_spec in H. congruence.
Qed.
Lemma counts_fun P rows k k' : counts P rows k -> counts P rows k' -> k = k'.
Proof. intros H. revert k'. induction H as [|r rows k Hr H IH|r rows k Hr H IH]; intros k' H'; inversion H'; subst; auto; try contradiction. Qed.
Lemma counts_iff P Q rows k : (forall r, P r <-> Q r) -> counts P rows k -> counts Q rows k.
Proof. intros E H. induction H; [constructor|apply counts_yes|apply counts_no]; auto; rewrite <- ?E; auto. Qed.
Lemma counts_le P rows k : counts P rows k -> (k <= length rows)%nat.
Proof. intros H. induction H; cbn; lia. Qed.
(** Similarities are symmetric, one on the diagonal and between 0 and 1.  Those of two places are the fraction of rows in which the first column is close to the second one in the order of the list. *)
Theorem C109_similarity atol rtol matrix d rows cols : indices_ok matrix d rows cols -> rows <> [] -> exists s, get_similarity_matrix atol rtol matrix rows cols = Some s /\ square s (length cols) /\
  forall i j, (i < length cols)%nat -> (j < length cols)%nat ->
    at_ s i i = 1 /\ at_ s i j = at_ s j i /\ 0 <= at_ s i j <= 1 /\
    ((i < j)%nat -> exists k, counts (fun r => close atol rtol (value matrix r (nth i cols 0%nat)) (value matrix r (nth j cols 0%nat))) rows k /\ at_ s i j = INR k / INR (length rows)).
Proof.
  intros H NR. unfold get_similarity_matrix. rewrite (submatrix_ok H). cbn [option_map]. eexists. split; [reflexivity|]. split; [apply table_square|]. intros i j Hi Hj. unfold similarity_matrix. rewrite !table_at by auto.
  rewrite Nat.eqb_refl, map_length. split; auto. rewrite (Nat.eqb_sym j i), (Nat.min_comm j i), (Nat.max_comm j i). split; auto.
  assert (P : 0 < INR (length rows)) by (apply lt_0_INR; destruct rows; [congruence|cbn; lia]). rewrite !column_sub by lia. set (k := num_identical _ _ _ _).
  assert (K : counts (fun r => close atol rtol (value matrix r (nth (Nat.min i j) cols 0%nat)) (value matrix r (nth (Nat.max i j) cols 0%nat))) rows k) by apply identical_counts.
  pose proof (counts_le K) as L. apply le_INR in L. pose proof (pos_INR k) as P0. split.
  - destruct (Nat.eqb i j); [lra|]. split; apply Rmult_le_reg_r with (INR (length rows)); auto; unfold Rdiv; rewrite ?Rmult_assoc, ?Rinv_l by lra; lra.
  - intros Hij. destruct (Nat.eqb_spec i j); [lia|]. exists k. split; auto. replace (Nat.min i j) with i in K by lia. replace (Nat.max i j) with j in K by lia. auto.
Qed.
(** Without a relative tolerance the order of columns does not matter.  Missing: relative tolerances (refuted below). *)
Theorem C111_order_partial atol matrix d rows cols cols' s s' : indices_ok matrix d rows cols -> indices_ok matrix d rows cols' -> rows <> [] ->
  get_similarity_matrix atol 0 matrix rows cols = Some s -> get_similarity_matrix atol 0 matrix rows cols' = Some s' ->
  forall i j i' j', (i < length cols)%nat -> (j < length cols)%nat -> (i' < length cols')%nat -> (j' < length cols')%nat -> i <> j -> i' <> j' ->
    nth i cols 0%nat = nth i' cols' 0%nat -> nth j cols 0%nat = nth j' cols' 0%nat -> at_ s i j = at_ s' i' j'.
Proof.
  intros H H' NR E E'.
  assert (G : forall cs t, indices_ok matrix d rows cs -> get_similarity_matrix atol 0 matrix rows cs = Some t -> forall i j, (i < length cs)%nat -> (j < length cs)%nat -> i <> j ->
    exists k, counts (fun r => close atol 0 (value matrix r (nth i cs 0%nat)) (value matrix r (nth j cs 0%nat))) rows k /\ at_ t i j = INR k / INR (length rows)).
  { intros cs t Hc Et i j Hi Hj N. destruct (@C109_similarity atol 0 matrix d rows cs Hc NR) as (t' & Et' & _ & X). rewrite Et in Et'. injection Et' as <-. destruct (Nat.lt_total i j) as [L|[L|L]]; [apply X; auto|contradiction|].
    destruct (X j i Hj Hi) as (_ & Sy & _ & Y). destruct (Y L) as (k & K & V). exists k. split; [|congruence]. eapply counts_iff; [|exact K]. intros r. unfold close. cbn beta. rewrite Rabs_minus_sym. rewrite !Rmult_0_l. tauto. }
  intros i j i' j' Hi Hj Hi' Hj' N N' Ei Ej. destruct (G _ _ H E i j Hi Hj N) as (k & K & ->). destruct (G _ _ H' E' i' j' Hi' Hj' N') as (k' & K' & ->). rewrite Ei, Ej in K. rewrite (counts_fun K K'). auto.
Qed.
(** The columns of an orbit are those of its functions, in increasing order. *)
Theorem C109_orbit_columns ids orbit : StronglySorted lt (orbit_columns ids orbit) /\ forall i, In i (orbit_columns ids orbit) <-> nth_error ids i = Some orbit.
Proof.
  unfold orbit_columns. enough (X : forall k, StronglySorted lt (map fst (filter (fun p : nat * nat => Nat.eqb (snd p) orbit) (combine (seq k (length ids)) ids))) /\
    forall i, In i (map fst (filter (fun p : nat * nat => Nat.eqb (snd p) orbit) (combine (seq k (length ids)) ids))) <-> (k <= i)%nat /\ nth_error ids (i - k) = Some orbit).
  { destruct (X 0%nat) as (X1 & X2). split; auto. intros i. rewrite X2, Nat.sub_0_r. intuition lia. }
  induction ids as [|x ids IH]; intros k; cbn [length seq combine filter map snd].
  - split; [constructor|]. intros i. split; [intros []|]. intros (_ & E). destruct (i - k)%nat; discriminate.
  - destruct (IH (S k)) as (A & B). assert (D : forall i, (k <= i)%nat /\ nth_error (x :: ids) (i - k) = Some orbit <-> (i = k /\ x = orbit) \/ (S k <= i)%nat /\ nth_error ids (i - S k) = Some orbit).
    { intros i. destruct (Nat.eq_dec i k) as [->|N]; [rewrite Nat.sub_diag; cbn; intuition (try lia; congruence)|]. split.
      - intros (L & E). right. split; [lia|]. replace (i - k)%nat with (S (i - S k)) in E by lia. auto.
      - intros [(? & _)|(L & E)]; [contradiction|]. split; [lia|]. replace (i - k)%nat with (S (i - S k)) by lia. auto. }
    destruct (Nat.eqb_spec x orbit) as [->|N]; cbn [map fst].
    + split; [constructor; auto; apply Forall_forall; intros i Hi; apply B in Hi; lia|]. intros i. rewrite D. cbn [In]. rewrite B. intuition.
    + split; auto. intros i. rewrite B, D. intuition.
Qed.
(** With the default tolerances two columns are similar or not depending on which comes first. *)
Definition near_matrix : list (list R) := [[100000; 100001 + / 200000]].
Theorem C111_order_refuted : let atol := / 100000000 in let rtol := / 100000 in exists s s',
  get_similarity_matrix atol rtol near_matrix [0%nat] [0%nat; 1%nat] = Some s /\ get_similarity_matrix atol rtol near_matrix [0%nat] [1%nat; 0%nat] = Some s' /\ at_ s 0 1 = 1 /\ at_ s' 1 0 = 0.
Proof.
  cbv zeta. assert (OK : forall cols, (forall c, In c cols -> (c < 2)%nat) -> indices_ok near_matrix 2 [0%nat] cols) by (intros cols Hc; split; [intros row [<-|[]]; auto|split; auto; intros r [<-|[]]; cbn; lia]).
  assert (O1 : indices_ok near_matrix 2 [0%nat] [0%nat; 1%nat]) by (apply OK; intros c [<-|[<-|[]]]; lia). assert (O2 : indices_ok near_matrix 2 [0%nat] [1%nat; 0%nat]) by (apply OK; intros c [<-|[<-|[]]]; lia).
  destruct (@C109_similarity (/ 100000000) (/ 100000) _ _ _ _ O1) as (s & E & _ & X); [discriminate|]. destruct (@C109_similarity (/ 100000000) (/ 100000) _ _ _ _ O2) as (s' & E' & _ & X'); [discriminate|]. exists s, s'. split; auto. split; auto.
  destruct (X 0%nat 1%nat) as (_ & _ & _ & Y); [cbn; lia|cbn; lia|]. destruct (X' 0%nat 1%nat) as (_ & Sy & _ & Y'); [cbn; lia|cbn; lia|]. destruct (Y ltac:(lia)) as (k & K & ->). destruct (Y' ltac:(lia)) as (k' & K' & V'). rewrite <- Sy, V'. clear - K K'.
  cbn [nth length] in *. unfold value, near_matrix, close in *. cbn [nth] in *. split.
  - inversion K as [|r rows k0 P K0|r rows k0 P K0]; subst; inversion K0; subst; [cbn; field|]. exfalso. apply P. cbn [nth]. rewrite Rabs_minus_sym, !Rabs_pos_eq by lra. lra.
  - inversion K' as [|r rows k0 P K0|r rows k0 P K0]; subst; inversion K0; subst; [|cbn; field]. exfalso. cbn [nth] in P. rewrite !Rabs_pos_eq in P by lra. lra.
Qed.
(** Non-vacuity: three rows and three columns, of which the first and the last are proportional. *)
Definition ex_matrix : list (list R) := [[1; 2; 2]; [0; 1; 0]; [3; 0; 6]].
Example C109_case : indices_ok ex_matrix 3 [0%nat; 2%nat] [0%nat; 2%nat] /\ (forall c, In c [0%nat; 2%nat] -> inner ex_matrix [0%nat; 2%nat] c c <> 0) /\ exists g, get_gram_matrix ex_matrix [0%nat; 2%nat] [0%nat; 2%nat] true = Some g /\ at_ g 0 1 = 1.
Proof.
  assert (A : indices_ok ex_matrix 3 [0%nat; 2%nat] [0%nat; 2%nat]) by (split; [intros row [<-|[<-|[<-|[]]]]; auto|split; intros r [<-|[<-|[]]]; cbn; lia]).
  assert (B : forall c, In c [0%nat; 2%nat] -> inner ex_matrix [0%nat; 2%nat] c c <> 0) by (intros c [<-|[<-|[]]]; unfold inner, over, value, ex_matrix; cbn; lra).
  split; auto. split; auto. destruct (C109_gram A B) as (g & E & _ & X). exists g. split; auto. destruct (X 0%nat 1%nat) as (_ & _ & _ & _ & Y); [cbn; lia|cbn; lia|]. apply Y. exists (/ 2). split; [lra|]. intros r [<-|[<-|[]]]; unfold value, ex_matrix; cbn; lra.
Qed.
Print Assumptions C109_gram_plain.
Print Assumptions C109_gram.
Print Assumptions C109_similarity.
Print Assumptions C111_order_partial.
Print Assumptions C109_orbit_columns.
Print Assumptions C111_order_refuted.
