(** C104: the site rotation matrix maps the correlations before a rotation to those after it. *)
From Verif Require Import LibProofs SubspaceSpec OrbitProps.
From Verif Require Import LinProofs BasisProofs.
From Verif Require Export SiteRotation BasisProps SiteRotationSpec SiteRotationProofs.
From Coq Require Import Permutation Lra Lia.
Import Basis.
Set Implicit Arguments.
Unset Strict Implicit.
Open Scope R_scope.

(** ** Bases *)
Lemma orthonormal_orthogonal b : orthonormal_basis b -> orthogonal b.
Proof.
  intros (H1 & H2 & H3 & H4). split; auto. split; auto. split; auto. intros i j Hi Hj. rewrite H4 by auto.
  destruct (Nat.eqb_spec i j); split; intros; try lra; try contradiction; auto.
Qed.
Lemma orthonormal_after b c : orthonormal_basis b -> b_space c = b_space b -> orthogonal c ->
  (forall i j, (i < length (b_space b))%nat -> (j < length (b_space b))%nat -> inner (b_space b) (nth i (b_f c) []) (nth j (b_f c) []) = inner (b_space b) (nth i (b_f b) []) (nth j (b_f b) [])) ->
  orthonormal_basis c.
Proof. intros (_ & _ & _ & H) S (O1 & O2 & O3 & _) I. unfold orthonormal_basis. rewrite S in *. repeat split; auto; try apply O1. intros. rewrite I, H by auto. auto. Qed.
Lemma fresh_turned calls b : fresh_basis calls b -> turned b (turn calls b).
Proof.
  intros [U O R C]. unfold turn. destruct C as [(N & D)|(N & D)].
  - destruct (C81_rotations_partial U (orthonormal_orthogonal O) N R D) as (S & O' & I & A & T). constructor; auto. apply (orthonormal_after O); auto.
  - destruct (C81_binary_partial (calls (b_space b)) U (orthonormal_orthogonal O) N R) as (S & O' & I & T & A). rewrite <- N in I, A, T. constructor; auto. apply (orthonormal_after O); auto.
Qed.
Lemma made_rot fl space b : good_space space -> made fl space b -> b_rot b = eye (length space).
Proof.
  intros (N & L & _) M. induction M as [b E|b qr M IH Q].
  - rewrite (factory fl N L) in E. injection E as <-. reflexivity.
  - unfold orthonormalize. destruct (qr _). auto.
Qed.
Lemma built_fresh fl space b0 qr calls : good_space space -> uniform space -> qsum (map snd space) = 1%Qc -> made fl space b0 -> qr_ok qr b0 ->
  (3 <= length space)%nat /\ (forall c, In c (calls space) -> distinct_functions (length space) c) \/
  length space = 2%nat /\ (calls space = [] \/ Nat.Odd (length (calls space))) ->
  fresh_basis calls (orthonormalize qr b0).
Proof.
  intros G U T M Q C. assert (M' : made fl space (orthonormalize qr b0)) by (apply made_orth; auto).
  destruct (made_proper G M') as (P & S). destruct (C80_orthonormal_partial G T M Q) as (_ & I & _). rewrite (proper_all P) in I. destruct P as (P1 & P2 & P3 & _).
  constructor; rewrite ?S in *; auto; [|apply (made_rot G M')]. unfold orthonormal_basis. rewrite S. repeat split; auto; try apply P1.
  apply (nth_ext _ _ 0 0).
  - rewrite repeat_length. apply P1. apply nth_In. destruct P1 as (-> & _). auto.
  - intros j Hj. assert (Hj' : (j < length space)%nat) by (rewrite <- (proj2 P1 (nth 0 (b_f (orthonormalize qr b0)) [])); auto; apply nth_In; destruct P1 as (-> & _); auto).
    fold (entry (b_f (orthonormalize qr b0)) 0 j). rewrite P3 by auto. rewrite (nth_indep _ 0 1) by (rewrite repeat_length; auto). symmetry. apply nth_repeat.
Qed.

(** ** Orbits *)
Section OneOrbit.
Variables (calls : site_space -> list call) (o : rorbit).
Hypothesis HF : Forall (fresh_basis calls) (ro_bases o).
Lemma turned_all : Forall2 turned (ro_bases o) (map (turn calls) (ro_bases o)).
Proof using HF. induction HF; cbn [map]; constructor; auto. apply fresh_turned. auto. Qed.
Lemma sym_turned ps : sym_bases (ro_bases o) ps -> sym_bases (map (turn calls) (ro_bases o)) ps.
Proof. intros H p i j Hp E. rewrite !nth_error_map, (H p i j); auto. Qed.
Lemma orbit_rows rows occu : full_orbit o -> valid_rows o rows occu ->
  mat_vec (rotation_array (turn_orbit calls o)) (map (corr_value (ro_bases o) rows occu) (ro_combos o)) =
  map (corr_value (ro_bases (turn_orbit calls o)) rows occu) (ro_combos o).
Proof using HF.
  intros (ps & HG & HS & HC) HV. unfold mat_vec, rotation_array, turn_orbit. cbn [ro_bases ro_combos]. rewrite map_map. apply map_ext_in. intros ci Hi.
  rewrite (corr_expand turned_all HG HS (sym_turned HS) HC Hi HV). unfold dotp. f_equal. generalize (ro_combos o). intros l. induction l as [|c l IH]; cbn [map combine fst snd]; auto. rewrite IH. auto.
Qed.
End OneOrbit.

(** ** Blocks *)
Lemma dotp_app r1 r2 v w : length r1 = length v -> dotp (r1 ++ r2) (v ++ w) = dotp r1 v + dotp r2 w.
Proof.
  revert v. unfold dotp. induction r1 as [|x r1 IH]; intros [|y v] L; try discriminate; cbn [app combine map rsum]; [lra|]. rewrite IH by (simpl in L; lia). lra.
Qed.
Lemma dotp_zero k v : dotp (repeat 0 k) v = 0.
Proof. revert v. unfold dotp. induction k as [|k IH]; intros [|y v]; cbn [repeat combine map rsum fst snd]; auto. rewrite IH. lra. Qed.
Lemma block_step m r v w : (forall row, In row m -> length row = length v) -> (m = [] -> v = []) -> width r = length w ->
  mat_vec (map (fun row => row ++ repeat 0 (width r)) m ++ map (fun row => repeat 0 (width m) ++ row) r) (v ++ w) = mat_vec m v ++ mat_vec r w.
Proof.
  intros Hm He Hr. assert (Hw : width m = length v) by (destruct m as [|row m]; [rewrite He; auto|apply Hm; simpl; auto]).
  unfold mat_vec. rewrite map_app, !map_map. f_equal; apply map_ext_in; intros row Hrow.
  - rewrite dotp_app, dotp_zero by auto. lra.
  - rewrite dotp_app, dotp_zero by (rewrite repeat_length; auto). lra.
Qed.
Lemma width_step m r : width (map (fun row => row ++ repeat 0 (width r)) m ++ map (fun row => repeat 0 (width m) ++ row) r) = (width m + width r)%nat.
Proof.
  destruct m as [|row m]; cbn [map app].
  - unfold width. cbn [hd length repeat]. destruct r; auto.
  - unfold width at 1. cbn [hd]. rewrite app_length, repeat_length. auto.
Qed.
Lemma width_array o : width (rotation_array o) = length (ro_combos o).
Proof. unfold width, rotation_array. destruct (ro_combos o); auto. cbn [map hd length]. rewrite map_length. auto. Qed.
Lemma blocks (os : list (rorbit * list (list nat))) f :
  width (block_diag (map (fun q => rotation_array (f (fst q))) os)) = length (flat_map (fun q => ro_combos (f (fst q))) os).
Proof. induction os as [|q os IH]; auto. cbn [map block_diag flat_map]. cbv zeta. rewrite width_step, IH, width_array, app_length. auto. Qed.

(** ** The whole subspace *)
Definition subspace_ok (calls : site_space -> list call) (os : list (rorbit * list (list nat))) (occu : list nat) : Prop :=
  forall q, In q os -> Forall (fresh_basis calls) (ro_bases (fst q)) /\ full_orbit (fst q) /\ valid_rows (fst q) (snd q) occu.
(** For orthonormal bases over uniform measures and all functions kept: the matrix of the rotated subspace times the correlations before is the correlations
    after, for every sequence of rotations of the site bases and every configuration.
    Missing: two species rotated an even number of times, and subspaces from which functions were removed (both refuted below). *)
Theorem C104_correlations_partial calls os occu : subspace_ok calls os occu ->
  mat_vec (site_rotation_matrix (map (fun q => turn_orbit calls (fst q)) os)) (corr_vector os occu) =
  corr_vector (map (fun q => (turn_orbit calls (fst q), snd q)) os) occu.
Proof.
  intros H. unfold site_rotation_matrix, corr_vector.
  assert (E : mat_vec (block_diag (map (fun q => rotation_array (turn_orbit calls (fst q))) os)) (flat_map (fun q => map (corr_value (ro_bases (fst q)) (snd q) occu) (ro_combos (fst q))) os) =
    flat_map (fun q => map (corr_value (ro_bases (fst q)) (snd q) occu) (ro_combos (fst q))) (map (fun q => (turn_orbit calls (fst q), snd q)) os)).
  { induction os as [|q os IH]; auto. cbn [map block_diag flat_map fst snd]. cbv zeta. destruct (H q) as (H1 & H2 & H3); [simpl; auto|]. rewrite block_step.
    - rewrite IH by (intros q' Hq'; apply H; simpl; auto). apply (f_equal2 (@app R)); auto. exact (orbit_rows H1 H2 H3).
    - intros row Hrow. unfold rotation_array in Hrow. apply in_map_iff in Hrow as (ci & <- & _). rewrite !map_length. auto.
    - unfold rotation_array, turn_orbit. cbn [ro_combos]. destruct (ro_combos (fst q)); auto. discriminate.
    - rewrite blocks. clear. induction os as [|q os IH]; auto. cbn [flat_map]. rewrite !app_length, IH, map_length. auto. }
  cbn [block_diag]. cbv zeta. rewrite map_map.
  change (1 :: flat_map (fun q => map (corr_value (ro_bases (fst q)) (snd q) occu) (ro_combos (fst q))) os)
    with ([1] ++ flat_map (fun q => map (corr_value (ro_bases (fst q)) (snd q) occu) (ro_combos (fst q))) os).
  rewrite block_step.
  - rewrite E. unfold mat_vec, dotp. cbn [map combine rsum fst snd app]. f_equal. lra.
  - intros row [<-|[]]. auto.
  - discriminate.
  - rewrite blocks. clear. induction os as [|q os IH]; auto. cbn [flat_map]. rewrite !app_length, IH, map_length. auto.
Qed.

(** The block of an orbit is orthogonal up to the numbers of products of its functions (those of rows over those of columns). *)
Lemma map_nth_seq {A} (l : list A) d : map (fun i => nth i l d) (seq 0 (length l)) = l.
Proof. apply (nth_ext _ _ d d); rewrite map_length, seq_length; auto. intros i Hi. rewrite (nth_map' _ 0%nat) by (rewrite seq_length; auto). rewrite seq_nth by auto. auto. Qed.
Definition products_of (o : rorbit) (i : nat) : R := INR (length (nth i (ro_combos o) [])).
Theorem C104_orthogonal_partial calls o : Forall (fresh_basis calls) (ro_bases o) -> full_orbit o ->
  let n := length (ro_combos o) in let M := entry (rotation_array (turn_orbit calls o)) in
  forall i k, (i < n)%nat -> (k < n)%nat ->
  sum n (fun j => M i j * M k j * (products_of o i / products_of o j)) = if Nat.eqb i k then 1 else 0.
Proof.
  intros HF (ps & HG & HS & HC) n M i k Hi Hk.
  assert (EM : forall a j, (a < n)%nat -> (j < n)%nat -> M a j = rot_element (map (turn calls) (ro_bases o)) (nth a (ro_combos o) []) (nth j (ro_combos o) [])).
  { intros a j Ha Hj. unfold M, entry, rotation_array, turn_orbit. cbn [ro_bases ro_combos]. rewrite (nth_map' _ []) by auto. rewrite (nth_map' _ []) by auto. auto. }
  pose proof (element_unitary (turned_all HF) HG HS (sym_turned calls HS) HC (nth_In (ro_combos o) [] Hi) (nth_In (ro_combos o) [] Hk)) as E.
  assert (X : forall f, rsum (map f (ro_combos o)) = rsum (map (fun j => f (nth j (ro_combos o) [])) (seq 0 n))) by (intros f; rewrite <- (map_nth_seq (ro_combos o) []) at 1; rewrite map_map; auto). rewrite X in E.
  unfold sum. rewrite (rs_ext (g := fun x => rot_element (map (turn calls) (ro_bases o)) (nth i (ro_combos o) []) (nth x (ro_combos o) []) *
     rot_element (map (turn calls) (ro_bases o)) (nth k (ro_combos o) []) (nth x (ro_combos o) []) * (INR (length (nth i (ro_combos o) [])) / INR (length (nth x (ro_combos o) []))))).
  2:{ intros j Hj. apply in_seq in Hj. rewrite !EM by lia. auto. }
  rewrite E. destruct (combos_part HG HS HC) as (Nd & _ & Ne & _).
  destruct (Nat.eqb_spec i k) as [->|N]; destruct (list_eq_dec _ _ _) as [E'|E']; auto; [congruence|]. exfalso.
  assert (Nc : NoDup (ro_combos o)).
  { clear - Nd Ne. induction (ro_combos o) as [|g l IH]; constructor.
    - intros Hg. destruct g as [|a g]; [apply (Ne []); simpl; auto|]. cbn [concat] in Nd. inversion Nd as [|? ? Ha _]; subst. apply Ha. apply in_app_iff. right. apply in_concat. exists (a :: g). simpl. auto.
    - cbn [concat] in Nd. apply NoDup_app_remove_l in Nd. apply IH; auto. intros; apply Ne; simpl; auto. }
  apply N. apply (proj1 (NoDup_nth (ro_combos o) []) Nc); auto.
Qed.

(** Bases that the code makes and orthonormalises meet the hypotheses on bases. *)
Theorem C104_built fl space b0 qr calls : good_space space -> uniform space -> qsum (map snd space) = 1%Qc -> made fl space b0 -> qr_ok qr b0 ->
  (3 <= length space)%nat /\ (forall c, In c (calls space) -> distinct_functions (length space) c) \/
  length space = 2%nat /\ (calls space = [] \/ Nat.Odd (length (calls space))) ->
  fresh_basis calls (orthonormalize qr b0) /\ is_orthonormal (orthonormalize qr b0) = true.
Proof. intros. split; [eapply built_fresh; eauto|]. apply (C80_orthonormal_partial (fl := fl) (space := space)); auto. Qed.

(** ** What fails *)
Lemma one_site (b : basis) (s : nat) : corr_vector [(MkR [b] [[[0%nat]]], [[0%nat]])] [s] = [1; entry (b_f b) 1 s].
Proof. unfold corr_vector, corr_value, combo_value. cbn -[INR]. fold (entry (function_array b) 0 s). rewrite fa_entry. cbn [INR]. f_equal. f_equal. field. Qed.
Lemma one_matrix b v : mat_vec (site_rotation_matrix [MkR [b] [[[0%nat]]]]) [1; v] = [1; rot_factor b 0 0 * v].
Proof. unfold site_rotation_matrix, rotation_array, rot_element, mat_vec, dotp. cbn -[INR rot_factor]. cbn [INR]. f_equal; [lra|]. f_equal. field. Qed.
Lemma function_somewhere b i : orthonormal_basis b -> (i < length (b_space b))%nat -> exists s, (s < length (b_space b))%nat /\ entry (b_f b) i s <> 0.
Proof.
  intros O Hi. pose proof (orthonormal_entries O Hi Hi) as E. rewrite Nat.eqb_refl in E.
  assert (X : forall m, (forall s, (s < m)%nat -> entry (b_f b) i s = 0) \/ exists s, (s < m)%nat /\ entry (b_f b) i s <> 0).
  { induction m as [|m IH]; [left; lia|]. destruct IH as [A|(s & Hs & A)]; [|right; exists s; split; auto; lia]. destruct (Req_EM_T (entry (b_f b) i m) 0) as [Z|Z].
    - left. intros s Hs. assert (D : (s < m \/ s = m)%nat) by lia. destruct D as [D| ->]; auto.
    - right. exists m. split; auto. }
  destruct (X (length (b_space b))) as [A|A]; auto. exfalso. rewrite (sum_ext (g := fun _ => 0)) in E by (intros; rewrite A by auto; lra). rewrite sum_zero in E. lra.
Qed.
(** Two species rotated an even number of times (at least twice): the correlations are what they were, the matrix negates them. *)
Theorem C104_even_refuted calls b : uniform (b_space b) -> orthonormal_basis b -> length (b_space b) = 2%nat -> b_rot b = eye (length (b_space b)) ->
  calls (b_space b) <> [] -> Nat.Even (length (calls (b_space b))) ->
  exists s, (s < 2)%nat /\ let o := MkR [b] [[[0%nat]]] in
    full_orbit o /\
    mat_vec (site_rotation_matrix [turn_orbit calls o]) (corr_vector [(o, [[0%nat]])] [s]) <> corr_vector [(turn_orbit calls o, [[0%nat]])] [s].
Proof.
  intros U O N R C1 C2. destruct (C81_binary_refuted U (orthonormal_orthogonal O) N R C1 C2) as (EF & _).
  assert (U' := U). destruct U' as (x & X & U'). assert (R' := R). rewrite N in R'. destruct (binary_all X U' (orthonormal_orthogonal O) N (calls (b_space b)) R') as (S & _ & _ & Rt).
  destruct (@function_somewhere b 1 O) as (s & Hs & Ns); [lia|]. rewrite N in Hs. exists s. split; auto. cbv zeta. split.
  - exists [[0%nat]]. cbn [ro_bases ro_combos]. split; [|split].
    + constructor; try (simpl; auto; fail).
      * intros p [<-|[]]. split; auto. split; [repeat constructor; simpl; auto|]. intros i [<-|[]]. simpl. lia.
      * intros p q r [<-|[]] [<-|[]] E. cbn in E. injection E as <-. simpl. auto.
      * intros p [<-|[]]. exists [0%nat]. split; simpl; auto.
    + intros p i j [<-|[]] E. destruct i as [|i]; [injection E as <-; auto|destruct i; discriminate].
    + unfold bits_lists, nfun. cbn [map]. rewrite N. reflexivity.
  - unfold turn_orbit. cbn [ro_bases ro_combos map]. rewrite !one_site, one_matrix. unfold turn. rewrite EF. intros E. injection E as E.
    assert (F : rot_factor (rotate_all (calls (b_space b)) b) 0 0 = -1).
    { unfold rot_factor. rewrite S, N. rewrite (sum_ext (g := fun k => - 1 * (mu (b_space b) k * entry (b_f b) 1 k * entry (b_f b) 1 k))).
      - rewrite sum_scal. pose proof (@orthonormal_entries b 1 1 O) as I. rewrite N in I. rewrite I by lia. cbn. lra.
      - intros k Hk. rewrite two_sum, !Rt by lia. rewrite !fa_entry, EF. destruct (calls (b_space b)); [congruence|]. cbn [length Nat.eqb].
        destruct k as [|[|]]; [| |lia]; cbn [Nat.eqb]; lra. }
    rewrite F in E. lra.
Qed.

(** Three species and a point orbit from which the second function was removed, rotated by a right angle: the new function is the removed one up to sign, the matrix has 0. *)
Theorem C104_removed_refuted (b : basis) (calls := fun _ : site_space => [(PI / 2, (0%Z, 1%Z))]) : uniform (b_space b) -> orthonormal_basis b -> length (b_space b) = 3%nat -> b_rot b = eye (length (b_space b)) ->
  fresh_basis calls b /\
  exists s, (s < 3)%nat /\ let o := MkR [b] [[[0%nat]]] in
    mat_vec (site_rotation_matrix [turn_orbit calls o]) (corr_vector [(o, [[0%nat]])] [s]) <> corr_vector [(turn_orbit calls o, [[0%nat]])] [s].
Proof.
  intros U O N R. assert (HF : fresh_basis calls b).
  { constructor; auto. left. split; [lia|]. intros c [<-|[]]. rewrite N. unfold distinct_functions. simpl. discriminate. }
  split; auto. pose proof (fresh_turned HF) as HT.
  assert (N3 : (3 <= length (b_space b))%nat) by lia. pose proof (orthonormal_orthogonal O) as Og.
  destruct (rotate (PI / 2) 0 1 b) as [c|] eqn:E.
  2:{ apply C81_accepted in E; auto. rewrite N in E. destruct E as (_ & [H|[H|H]]); simpl in H; lia. }
  assert (Et : turn calls b = c) by (unfold turn, calls, rotate_all, rotate_call; cbn [fold_left fst snd]; rewrite E; auto).
  destruct (rotate_shape Og N3 E) as (_ & _ & _ & _ & _ & Fi & _).
  destruct U as (x & X & U). assert (Xp : 0 < Qc2R x) by (apply Qc2R_pos; auto).
  assert (Hmu : forall k, (k < 3)%nat -> mu (b_space b) k = Qc2R x).
  { intros k Hk. destruct (nth_error (b_space b) k) as [p|] eqn:Ep; [|apply nth_error_None in Ep; lia]. rewrite (mu_nth Ep), (U p); auto. eapply nth_error_In; eauto. }
  assert (D : forall i j, (i < 3)%nat -> (j < 3)%nat -> sum 3 (fun k => entry (b_f b) i k * entry (b_f b) j k) = if Nat.eqb i j then / Qc2R x else 0).
  { intros i j Hi Hj. pose proof (@orthonormal_entries b i j O) as I. rewrite N in I. specialize (I Hi Hj).
    rewrite (sum_ext (g := fun k => Qc2R x * (entry (b_f b) i k * entry (b_f b) j k))) in I by (intros; rewrite Hmu by auto; lra). rewrite sum_scal in I.
    apply (Rmult_eq_reg_l (Qc2R x)); [|lra]. rewrite I. destruct (Nat.eqb i j); field; lra. }
  rewrite N in Fi. assert (L2 : length (function_array b) = 2%nat) by (unfold function_array; destruct O as ((L & _) & _); rewrite N in L; destruct (b_f b); simpl in *; lia).
  rewrite L2 in Fi. change (py_index 2 0) with 0%nat in Fi. change (py_index 2 1) with 1%nat in Fi.
  assert (Nm : forall i, (i < 2)%nat -> norm 3 (entry (function_array b) i) = sqrt (/ Qc2R x)).
  { intros i Hi. unfold norm. f_equal.
    rewrite (sum_ext (g := fun k => entry (b_f b) (S i) k * entry (b_f b) (S i) k)) by (intros; rewrite fa_entry; auto). rewrite D by lia. rewrite Nat.eqb_refl. auto. }
  assert (G1 : forall j, (j < 3)%nat -> entry (b_f c) 1 j = - entry (b_f b) 2 j).
  { intros j Hj. rewrite Fi by lia. set (a := sqrt (/ Qc2R x)) in *. assert (Ha : a * a = / Qc2R x) by (apply sqrt_sqrt; left; apply Rinv_0_lt_compat; auto).
    assert (Hi : / Qc2R x <> 0) by (apply Rinv_neq_0_compat; lra). assert (Na : a <> 0) by (intros Z; rewrite Z in Ha; lra).
    rewrite (sum_ext (g := fun k => (if Nat.eqb k j then entry (b_f b) 1 k else 0) + ((entry (b_f b) 1 j - entry (b_f b) 2 j) / (a * a) * (entry (b_f b) 1 k * entry (b_f b) 2 k) +
       - ((entry (b_f b) 1 j + entry (b_f b) 2 j) / (a * a)) * (entry (b_f b) 1 k * entry (b_f b) 1 k)))).
    2:{ intros k Hk. unfold rotation. rewrite entry_build by auto. rewrite !Nm by lia. rewrite sin_PI2, cos_PI2, !fa_entry, (Nat.eqb_sym j k). destruct (Nat.eqb k j); field; auto. }
    rewrite !LinProofs.sum_plus, !sum_scal, !D by lia. cbn [Nat.eqb]. rewrite (sum_delta (entry (b_f b) 1)) by auto. rewrite <- Ha. field. auto. }
  destruct (@function_somewhere b 2 O) as (s & Hs & Ns); [lia|]. rewrite N in Hs. exists s. split; auto. cbv zeta.
  unfold turn_orbit. cbn [ro_bases ro_combos map]. rewrite !one_site, one_matrix. rewrite Et in *. rewrite G1 by auto. intros Eq. injection Eq as Eq.
  assert (F : rot_factor c 0 0 = 0).
  { rewrite (rot_factor_inner HT) by (unfold nfun; lia). rewrite N. rewrite (sum_ext (g := fun k => - Qc2R x * (entry (b_f b) 1 k * entry (b_f b) 2 k))).
    - rewrite sum_scal, D by lia. cbn [Nat.eqb]. lra.
    - intros k Hk. rewrite G1, Hmu by auto. lra. }
  rewrite F in Eq. lra.
Qed.

(** ** Non-vacuity: a pair of equivalent ternary sites and its point orbit, rotated twice. *)
Definition tern : basis := MkBasis three Sinusoid
  [[1; 1; 1]; [sqrt (3 / 2); 0; - sqrt (3 / 2)]; [sqrt (1 / 2); -2 * sqrt (1 / 2); sqrt (1 / 2)]] RNone (eye 3).
Lemma third_R : Qc2R third = / 3.
Proof. unfold Qc2R, third. rewrite (Qeq_eqR _ (1 # 3)) by reflexivity. unfold Q2R. simpl. lra. Qed.
Lemma tern_on : orthonormal_basis tern.
Proof.
  split; [split; auto; intros row [<-|[<-|[<-|[]]]]; auto|]. split; [simpl; lia|]. split; [auto|].
  assert (A : sqrt (3 / 2) * sqrt (3 / 2) = 3 / 2) by (apply sqrt_sqrt; lra). assert (B : sqrt (1 / 2) * sqrt (1 / 2) = 1 / 2) by (apply sqrt_sqrt; lra).
  intros i j Hi Hj. cbn in Hi, Hj. unfold inner, tern, three. cbn [b_space b_f].
  destruct i as [|[|[|]]]; [| | |lia]; (destruct j as [|[|[|]]]; [| | |lia]); cbn [nth combine map rsum fst snd Nat.eqb]; rewrite third_R; nra.
Qed.
Definition calls2 (s : site_space) : list call := [(1, (0, 1)%Z); (PI / 7, (1, 0)%Z)].
Lemma tern_fresh : fresh_basis calls2 tern.
Proof. constructor; [apply three_uniform|apply tern_on|reflexivity|]. left. split; [simpl; lia|]. intros c [<-|[<-|[]]]; unfold distinct_functions; simpl; discriminate. Qed.
Definition swap2 : list (list nat) := [[0; 1]; [1; 0]]%nat.
Definition pair_orbit : rorbit := MkR [tern; tern] [[[0; 0]]; [[0; 1]; [1; 0]]; [[1; 1]]]%nat.
Definition point_orbit : rorbit := MkR [tern] [[[0]]; [[1]]]%nat.
Lemma pair_full : full_orbit pair_orbit.
Proof.
  exists swap2. split; [|split].
  - constructor.
    + intros p [<-|[<-|[]]]; (split; [auto|split; [repeat constructor; simpl; intuition lia|simpl; intuition lia]]).
    + simpl. auto.
    + intros p q r [<-|[<-|[]]] [<-|[<-|[]]] E; cbn in E; injection E as <-; simpl; auto.
    + intros p [<-|[<-|[]]]; [exists [0; 1]%nat|exists [1; 0]%nat]; simpl; auto.
  - intros p i j [<-|[<-|[]]] E; destruct i as [|[|i]]; cbn in E; try (injection E as <-; auto); destruct i; discriminate.
  - reflexivity.
Qed.
Lemma point_full : full_orbit point_orbit.
Proof.
  exists [[0%nat]]. split; [|split].
  - constructor; try (simpl; auto; fail).
    + intros p [<-|[]]. split; auto. split; [repeat constructor; simpl; auto|]. intros i [<-|[]]. simpl. lia.
    + intros p q r [<-|[]] [<-|[]] E. cbn in E. injection E as <-. simpl. auto.
    + intros p [<-|[]]. exists [0%nat]. split; simpl; auto.
  - intros p i j [<-|[]] E. destruct i as [|i]; [injection E as <-; auto|destruct i; discriminate].
  - reflexivity.
Qed.
Example C104_case : subspace_ok calls2 [(point_orbit, [[0]; [1]; [2]]); (pair_orbit, [[0; 1]; [1; 2]; [2; 0]])]%nat [0; 2; 1]%nat.
Proof.
  intros q [<-|[<-|[]]]; cbn [fst snd]; (split; [repeat (apply Forall_cons; [apply tern_fresh|]); apply Forall_nil|split; [first [apply point_full|apply pair_full]|]]).
  - intros row [<-|[<-|[<-|[]]]]; repeat constructor.
  - intros row [<-|[<-|[<-|[]]]]; repeat constructor.
Qed.
(** A binary basis that meets the hypotheses of the first refutation. *)
Definition half2 : Qc := Q2Qc (1 # 2).
Definition binb : basis := MkBasis (two half2 half2) Sinusoid [[1; 1]; [-1; 1]] RNone (eye 2).
Example C104_even_case : uniform (b_space binb) /\ orthonormal_basis binb /\ length (b_space binb) = 2%nat /\ b_rot binb = eye (length (b_space binb)).
Proof.
  split; [exists half2; split; [reflexivity|intros p [<-|[<-|[]]]; reflexivity]|]. split; [|split; reflexivity].
  split; [split; auto; intros row [<-|[<-|[]]]; auto|]. split; [simpl; lia|]. split; [auto|].
  assert (H : Qc2R half2 = / 2) by (unfold Qc2R, half2; rewrite (Qeq_eqR _ (1 # 2)) by reflexivity; unfold Q2R; simpl; lra).
  intros i j Hi Hj. cbn in Hi, Hj. unfold inner, binb, two. cbn [b_space b_f].
  destruct i as [|[|]]; [| |lia]; (destruct j as [|[|]]; [| |lia]); cbn [nth combine map rsum fst snd Nat.eqb]; rewrite H; lra.
Qed.
Print Assumptions C104_correlations_partial.
Print Assumptions C104_orthogonal_partial.
Print Assumptions C104_built.
Print Assumptions C104_even_refuted.
Print Assumptions C104_removed_refuted.
