(** C105: selection of rows of full rank.  C106: selection by composition. *)
From Verif Require Import LibProofs.
From Verif Require Export Select SelectProofs.
From Coq Require Import Sorted Permutation.
Set Implicit Arguments.
Unset Strict Implicit.
Open Scope Qc_scope.

(** ** Specification *)
Definition feature (f : list (list Qc)) (i j : nat) : Qc := nth j (nth i f []) 0.
(** The combination of chosen rows with given coefficients, at feature [j]. *)
Definition combine_rows (f : list (list Qc)) (ids : list nat) (cs : list Qc) (j : nat) : Qc :=
  qsum (map (fun p => snd p * feature f (fst p) j) (combine ids cs)).
Definition independent_rows (d : nat) (f : list (list Qc)) (ids : list nat) : Prop :=
  forall cs, length cs = length ids -> (forall j, (j < d)%nat -> combine_rows f ids cs j = 0) -> Forall (fun x => x = 0) cs.
Definition spanned_by (d : nat) (f : list (list Qc)) (ids : list nat) (i : nat) : Prop :=
  exists cs, length cs = length ids /\ forall j, (j < d)%nat -> feature f i j = combine_rows f ids cs j.
Definition features_ok (d : nat) (f : list (list Qc)) : Prop := forall r, In r f -> length r = d.

(** ** Coefficients as functions *)
Definition spread (ids : list nat) (cs : list Qc) (i : nat) : Qc := qsum (map (fun p => if Nat.eqb (fst p) i then snd p else 0) (combine ids cs)).
Lemma qsum_one n g : forall s, qsum (map (fun i => g i * (if Nat.eqb s i then 1 else 0)) (seq 0 n)) = if Nat.ltb s n then g s else 0.
Proof.
  intros s. induction n as [|n IH]; [reflexivity|]. rewrite seq_S, map_app, qsum_app, IH. cbn [map qsum Nat.add].
  destruct (Nat.ltb_spec s n), (Nat.ltb_spec s (S n)), (Nat.eqb_spec s n); subst; try lia; ring.
Qed.
Lemma spread_sum n g ids cs : Forall (fun i => (i < n)%nat) ids -> qsum (map (fun i => g i * spread ids cs i) (seq 0 n)) = qsum (map (fun p => snd p * g (fst p)) (combine ids cs)).
Proof.
  intros H. revert cs. induction H as [|i ids Hi H IH]; intros [|x cs]; try (cbn; apply qsum_map_0; intros; unfold spread; cbn; ring).
  cbn [combine map qsum fst snd]. rewrite <- IH. rewrite <- (qsum_one n (fun i => x * g i) i) at 1 || idtac.
  rewrite (qsum_map_ext _ (fun l => x * g l * (if Nat.eqb i l then 1 else 0) + g l * spread ids cs l)).
  - rewrite qsum_map_add. rewrite (qsum_one n (fun l => x * g l) i). destruct (Nat.ltb_spec i n); [ring|lia].
  - intros l _. unfold spread. cbn [combine map qsum fst snd]. destruct (Nat.eqb i l); ring.
Qed.
Lemma spread_out ids cs i : ~ In i ids -> spread ids cs i = 0.
Proof.
  intros H. unfold spread. apply qsum_map_0. intros (k, x) Hp. cbn [fst snd]. destruct (Nat.eqb_spec k i) as [->|]; auto. exfalso. apply H. eapply in_combine_l; eauto.
Qed.
Lemma spread_zero ids : NoDup ids -> forall cs, length cs = length ids -> (forall i, spread ids cs i = 0) -> Forall (fun x => x = 0) cs.
Proof.
  induction 1 as [|i ids Hi N IH]; intros [|x cs] L H; try discriminate; constructor.
  - specialize (H i). unfold spread in H. cbn [combine map qsum fst snd] in H. rewrite Nat.eqb_refl in H. change (x + spread ids cs i = 0) in H. rewrite spread_out in H by auto. rewrite <- H. ring.
  - apply IH; [cbn in L; lia|]. intros l. destruct (Nat.eq_dec i l) as [->|Ne]; [apply spread_out; auto|]. specialize (H l). unfold spread in *. cbn [combine map qsum fst snd] in H. destruct (Nat.eqb_spec i l); [contradiction|]. etransitivity; [|exact H]. ring.
Qed.
Lemma transpose_row j f i : col i (map (col j) f) = feature f i j.
Proof. unfold col, feature. change 0 with (nth j ([] : list Qc) 0) at 1 || idtac. revert i. induction f as [|r f IH]; intros [|i]; cbn [map nth]; auto; destruct j; auto. Qed.
Lemma app_transpose f ids cs j : Forall (fun i => (i < length f)%nat) ids -> app_row (length f) (map (col j) f) (spread ids cs) = combine_rows f ids cs j.
Proof. intros H. unfold app_row. rewrite (qsum_map_ext _ (fun i => feature f i j * spread ids cs i)) by (intros; rewrite transpose_row; auto). apply (spread_sum (fun i => feature f i j)). auto. Qed.
Lemma shaped_transpose d f : shaped (length f) (transpose d f).
Proof. intros r Hr. apply in_map_iff in Hr as (j & <- & _). apply map_length. Qed.
Lemma kills_transpose d f ids cs : Forall (fun i => (i < length f)%nat) ids ->
  (kills (length f) (transpose d f) (spread ids cs) <-> forall j, (j < d)%nat -> combine_rows f ids cs j = 0).
Proof.
  intros H. split.
  - intros K j Hj. rewrite <- app_transpose by auto. apply K. apply in_map_iff. exists j. split; auto. apply in_seq. lia.
  - intros K r Hr. apply in_map_iff in Hr as (j & <- & Hj). apply in_seq in Hj. rewrite app_transpose by auto. apply K. lia.
Qed.
Lemma upper_lu d f : shaped (length f) (lu_upper d f) /\
  (forall i r, nth_error (lu_upper d f) i = Some r -> forall j, (j < i)%nat -> col j r = 0) /\
  (forall c, kills (length f) (transpose d f) c <-> kills (length f) (lu_upper d f) c).
Proof.
  destruct (@upper_ok (length f) d 0 (transpose d f)) as (A & B & C).
  - unfold transpose. rewrite map_length, seq_length. auto.
  - apply shaped_transpose.
  - intros r j _ Hj. lia.
  - auto.
Qed.

(** ** Tolerances that separate zero from the entries of the factor *)
Definition separates (tol : Qc) (rows : list (list Qc)) : Prop := 0 <= tol /\ forall r x, In r rows -> In x r -> x <> 0 -> tol < sel_abs x.
Lemma smallest (l : list Qc) : exists t, 0 < t /\ forall x, In x l -> x <> 0 -> t <= sel_abs x.
Proof.
  induction l as [|x l (t & Ht & H)]; [exists 1; split; [reflexivity|intros x []]|]. destruct (Qceqb_spec x 0) as [->|N].
  - exists t. split; auto. intros y [<-|Hy]; [congruence|auto].
  - assert (P : 0 < sel_abs x). { pose proof (@sel_abs_nonneg x) as G. destruct (Qcle_lt_or_eq _ _ G) as [|E]; auto. symmetry in E. apply (proj1 (sel_abs_0 x)) in E. contradiction. }
    destruct (Qcltb_spec t (sel_abs x)) as [C|C].
    + exists t. split; auto. intros y [<-|Hy] Ny; auto. qclra.
    + apply Qcnot_lt_le in C. exists (sel_abs x). split; auto. intros y [<-|Hy] Ny; [apply Qcle_refl|]. specialize (H y Hy Ny). qclra.
Qed.
Lemma separates_exists rows : exists t, 0 < t /\ forall tol, 0 <= tol -> tol < t -> separates tol rows.
Proof.
  destruct (smallest (concat rows)) as (t & Ht & H). exists t. split; auto. intros tol H0 H1. split; auto. intros r x Hr Hx Nx.
  assert (t <= sel_abs x) by (apply H; auto; apply in_concat; eauto). qclra.
Qed.
Lemma lead_ok tol rows r n : separates tol rows -> In r rows -> length r = n ->
  (forall j, col j r = 0) /\ first_above tol 0 r = 0%nat \/
  (first_above tol 0 r < n)%nat /\ col (first_above tol 0 r) r <> 0 /\ forall l, (l < first_above tol 0 r)%nat -> col l r = 0.
Proof.
  intros (H0 & H) Hr <-. destruct (above_dec tol r) as [E|E].
  - destruct (first_above_ok (tol := tol) (row := r) 0 E) as (j & Hj & Ej & A & B). right. rewrite Ej. cbn [Nat.add]. split; auto. unfold col. split.
    + intros Z. rewrite Z in A. change (sel_abs 0) with 0 in A. qclra.
    + intros l Hl. destruct (Qceqb_spec (nth l r 0) 0) as [|N]; auto. exfalso. specialize (B l Hl). assert (tol < sel_abs (nth l r 0)) by (apply (H r); auto; apply nth_In; lia). qclra.
  - left. split; [|apply first_above_none; auto]. intros j. unfold col. destruct (Nat.lt_ge_cases j (length r)) as [Hj|Hj]; [|apply nth_overflow; auto].
    destruct (Qceqb_spec (nth j r 0) 0) as [|N]; auto. exfalso. specialize (E j Hj). assert (tol < sel_abs (nth j r 0)) by (apply (H r); auto; apply nth_In; lia). qclra.
Qed.
Lemma first_pivot d f : features_ok d f -> (exists j, feature f 0 j <> 0) -> exists r, In r (lu_upper d f) /\ col 0 r <> 0.
Proof.
  intros HF (j & Hj). unfold lu_upper. assert (Hn : f <> []) by (intros ->; apply Hj; unfold feature; destruct j; auto).
  assert (Hd : (j < d)%nat).
  { destruct (Nat.lt_ge_cases j d); auto. exfalso. apply Hj. unfold feature. apply nth_overflow. rewrite HF; auto. apply nth_In. destruct f; [congruence|cbn; lia]. }
  assert (Hin : In (map (col j) f) (transpose d f)) by (apply in_map_iff; exists j; split; auto; apply in_seq; lia).
  destruct (transpose d f) as [|r0 rs] eqn:Et; [contradiction|]. destruct d as [|d]; [lia|]. cbn [upper].
  destruct (Nat.leb_spec (length f) 0) as [Z|_]; [destruct f; [congruence|cbn in Z; lia]|].
  destruct (Qceqb_spec (col 0 (nth (pivot 0 r0 rs) (r0 :: rs) [])) 0) as [E|E].
  - exfalso. apply Hj. rewrite <- (transpose_row j f 0). apply (pivot_zero E). auto.
  - eexists. split; [left; reflexivity|]. auto.
Qed.

(** The features of the first structure are not all zero (the correlation of the constant is one): for small tolerances the indices are increasing, at most
    as many as asked for, and their rows are linearly independent.
    Missing: matrices whose first row is zero, and that the set is as large as possible (both refuted below). *)
Theorem C105_independent_partial d f : features_ok d f -> (exists j, feature f 0 j <> 0) ->
  exists t, 0 < t /\ forall tol nrows, 0 <= tol -> tol < t ->
    let ids := full_row_rank_select d f tol nrows in
    StronglySorted lt ids /\ Forall (fun i => (i < length f)%nat) ids /\ (forall m, nrows = Some m -> (length ids <= m)%nat) /\ independent_rows d f ids.
Proof.
  intros HF H0. destruct (separates_exists (lu_upper d f)) as (t & Ht & HS). exists t. split; auto. intros tol nrows T0 T1. specialize (HS tol T0 T1). cbv zeta. unfold full_row_rank_select.
  set (k := match nrows with Some n => n | None => length f end). set (un := unique _ _). destruct (upper_lu d f) as (U1 & U2 & U3).
  assert (Hlt : Forall (fun i => (i < length f)%nat) (firstn k un)) by (apply Forall_forall; intros i Hi; apply firstn_in in Hi; apply unique_in in Hi; tauto).
  assert (Hso : StronglySorted lt (firstn k un)) by (apply firstn_sorted, unique_sorted).
  split; auto. split; auto. split; [intros m ->; unfold k; rewrite firstn_length; lia|].
  intros cs L Hc. apply (spread_zero (sorted_nodup Hso)); auto. apply (proj2 (kills_transpose d cs Hlt)) in Hc. apply U3 in Hc.
  apply (leads_independent (n := length f) (U := lu_upper d f) (J := fun j => In j (firstn k un))); auto.
  - intros j Hj. split; [rewrite Forall_forall in Hlt; auto|]. apply firstn_in in Hj. apply unique_in in Hj as (_ & Hj). apply in_map_iff in Hj as (r & <- & Hr).
    destruct (lead_ok HS Hr (U1 r Hr)) as [(_ & E)|(_ & A & B)]; [|exists r; auto]. rewrite E. destruct (first_pivot HF H0) as (r' & Hr' & N). exists r'. split; auto. split; auto. intros; lia.
  - intros j Hj. apply spread_out. auto.
  - intros j. destruct (in_dec Nat.eq_dec j (firstn k un)); auto.
Qed.

(** ** When the first rows span all *)
Definition bump (c : nat -> Qc) (l : nat) (x : Qc) : nat -> Qc := fun j => c j + (if Nat.eqb l j then x else 0).
Lemma app_bump n r c l x : (l < n)%nat -> app_row n r (bump c l x) = app_row n r c + x * col l r.
Proof.
  intros H. unfold app_row, bump. rewrite (qsum_map_ext _ (fun j => col j r * c j + x * col j r * (if Nat.eqb l j then 1 else 0))) by (intros j _; destruct (Nat.eqb l j); ring).
  rewrite qsum_map_add. f_equal. rewrite (qsum_one n (fun j => x * col j r) l). destruct (Nat.ltb_spec l n); [auto|lia].
Qed.
Lemma back_substitution n (row : nat -> list Qc) i : (i < n)%nat -> (forall l, (l < i)%nat -> col l (row l) <> 0 /\ forall j, (j < l)%nat -> col j (row l) = 0) ->
  exists c, c i = 1 /\ (forall j, (i < j)%nat -> c j = 0) /\ forall l, (l < i)%nat -> app_row n (row l) c = 0.
Proof.
  intros Hi H. assert (X : forall m, (m <= i)%nat -> exists c, c i = 1 /\ (forall j, (i < j)%nat -> c j = 0) /\ forall l, (i - m <= l < i)%nat -> app_row n (row l) c = 0).
  { induction m as [|m IH]; intros Hm.
    - exists (fun j => if Nat.eqb j i then 1 else 0). rewrite Nat.eqb_refl. split; auto. split; [|intros; lia]. intros j Hj. destruct (Nat.eqb_spec j i); auto. lia.
    - destruct IH as (c & C1 & C2 & C3); [lia|]. set (l0 := (i - S m)%nat). destruct (H l0) as (Nz & Zb); [unfold l0; lia|].
      exists (bump c l0 (- app_row n (row l0) c / col l0 (row l0))). split; [|split].
      + unfold bump. destruct (Nat.eqb_spec l0 i); [unfold l0 in *; lia|]. rewrite C1. ring.
      + intros j Hj. unfold bump. destruct (Nat.eqb_spec l0 j); [unfold l0 in *; lia|]. rewrite C2 by auto. ring.
      + intros l Hl. rewrite app_bump by (unfold l0; lia). destruct (Nat.eq_dec l l0) as [->|Ne]; [field; auto|].
        destruct (H l) as (_ & Zl); [lia|]. rewrite Zl by (unfold l0 in *; lia). rewrite C3 by (unfold l0 in *; lia). ring. }
  destruct (X i (le_n i)) as (c & C1 & C2 & C3). exists c. split; auto. split; auto. intros l Hl. apply C3. lia.
Qed.
Lemma spread_seq r c j : (j < r)%nat -> spread (seq 0 r) (map c (seq 0 r)) j = c j.
Proof.
  intros Hj. unfold spread. assert (E : forall l, combine l (map c l) = map (fun i => (i, c i)) l) by (induction l; cbn; congruence). rewrite E, map_map. cbn [fst snd].
  rewrite (qsum_map_ext _ (fun i => c i * (if Nat.eqb j i then 1 else 0))) by (intros i _; rewrite (Nat.eqb_sym j i); destruct (Nat.eqb i j); ring). rewrite qsum_one. destruct (Nat.ltb_spec j r); [auto|lia].
Qed.
Lemma spread_seq_out r cs j : (r <= j)%nat -> spread (seq 0 r) cs j = 0.
Proof. intros H. apply spread_out. intros Hi. apply in_seq in Hi. lia. Qed.
Lemma app_ext n r c c' : (forall j, (j < n)%nat -> c j = c' j) -> app_row n r c = app_row n r c'.
Proof. intros H. unfold app_row. apply qsum_map_ext. intros j Hj. apply in_seq in Hj. rewrite H by lia. auto. Qed.
(** The first [r] rows are independent and the others depend on them: exactly these are selected, so the selection has full rank. *)
Theorem C105_maximal_partial d f r : features_ok d f -> (0 < r <= length f)%nat -> independent_rows d f (seq 0 r) -> (forall i, (i < length f)%nat -> spanned_by d f (seq 0 r) i) ->
  exists t, 0 < t /\ forall tol nrows, 0 <= tol -> tol < t -> full_row_rank_select d f tol nrows = match nrows with Some m => firstn m (seq 0 r) | None => seq 0 r end.
Proof.
  intros HF Hr HI HS. destruct (separates_exists (lu_upper d f)) as (t & Ht & Hsep). exists t. split; auto. intros tol nrows T0 T1. specialize (Hsep tol T0 T1). destruct (upper_lu d f) as (U1 & U2 & U3).
  set (N := length f) in *. set (U := lu_upper d f) in *. set (row := fun i => nth i U []).
  assert (Zr : forall i j, (j < i)%nat -> col j (row i) = 0).
  { intros i j Hj. unfold row. destruct (nth_error U i) as [u|] eqn:E; [rewrite (nth_error_nth U i [] E); apply (U2 i u E); auto|]. apply nth_error_None in E. rewrite nth_overflow by auto. unfold col. destruct j; auto. }
  assert (Hall : Forall (fun i => (i < N)%nat) (seq 0 r)) by (apply Forall_forall; intros i Hi; apply in_seq in Hi; lia).
  assert (Hker : forall c, (forall j, (r <= j)%nat -> c j = 0) -> (forall i, app_row N (row i) c = 0) -> forall j, (j < r)%nat -> c j = 0).
  { intros c Hc Hk. assert (K : kills N U (spread (seq 0 r) (map c (seq 0 r)))).
    { intros u Hu. destruct (In_nth U u [] Hu) as (i & Hi & <-). rewrite <- (Hk i). apply app_ext. intros j _. destruct (Nat.lt_ge_cases j r); [apply spread_seq; auto|rewrite spread_seq_out, Hc by auto; auto]. }
    apply U3 in K. assert (K2 := proj1 (kills_transpose d (map c (seq 0 r)) Hall) K). assert (K3 := HI (map c (seq 0 r)) (map_length _ _) K2). clear K. rename K3 into K. intros j Hj. rewrite Forall_forall in K. apply K. apply in_map. apply in_seq. lia. }
  assert (Diag : forall i, (i < r)%nat -> col i (row i) <> 0).
  { intros i. induction i as [i IH] using lt_wf_ind. intros Hi Z. destruct (@back_substitution N row i) as (c & C1 & C2 & C3); [lia|intros l Hl; split; [apply IH; lia|auto]|].
    assert (E : c i = 0); [|rewrite C1 in E; discriminate]. apply Hker; [intros; apply C2; lia| |auto]. intros l. destruct (Nat.lt_ge_cases l i) as [Hl|Hl]; [auto|].
    unfold app_row. apply qsum_map_0. intros j Hj. destruct (Nat.lt_ge_cases i j) as [H|H]; [rewrite C2 by auto; ring|]. destruct (Nat.eq_dec l j) as [->|Ne]; [assert (j = i) by lia; subst j; rewrite Z; ring|].
    rewrite Zr by lia. ring. }
  assert (Zero : forall i, (r <= i)%nat -> forall j, col j (row i) = 0).
  { intros i Hi j. destruct (Nat.lt_ge_cases j r) as [Hj|Hj]; [apply Zr; lia|]. destruct (Nat.lt_ge_cases j N) as [Hj'|Hj'].
    - destruct (HS j Hj') as (cs & L & E). set (c := bump (spread (seq 0 r) cs) j (-(1))).
      assert (K : kills N (transpose d f) c).
      { intros u Hu. apply in_map_iff in Hu as (l & <- & Hl). apply in_seq in Hl. unfold c. rewrite app_bump by auto. rewrite transpose_row. fold N. unfold N. rewrite app_transpose by auto. rewrite E by lia. ring. }
      apply U3 in K. assert (A : app_row N (row i) c = 0).
      { unfold row. destruct (Nat.lt_ge_cases i (length U)); [apply K; apply nth_In; auto|]. rewrite nth_overflow by auto. apply qsum_map_0. intros m _. unfold col. destruct m; cbn [nth]; ring. }
      unfold c in A. rewrite app_bump in A by auto. assert (B : app_row N (row i) (spread (seq 0 r) cs) = 0).
      { apply qsum_map_0. intros m _. destruct (Nat.lt_ge_cases m r); [rewrite Zr by lia; ring|rewrite spread_seq_out by auto; ring]. }
      rewrite B in A. replace (col j (row i)) with (- (0 + -(1) * col j (row i))) by ring. rewrite A. ring.
    - unfold row. destruct (Nat.lt_ge_cases i (length U)) as [Hl|Hl].
      + unfold col. apply nth_overflow. rewrite U1 by (apply nth_In; auto). auto.
      + rewrite nth_overflow by auto. unfold col. destruct j; auto. }
  assert (Len : (r <= length U)%nat).
  { destruct (Nat.lt_ge_cases (length U) r) as [H|H]; auto. exfalso. apply (Diag (length U) H). unfold row. rewrite nth_overflow by auto. unfold col. destruct (length U); auto. }
  assert (Lead : forall i, (i < length U)%nat -> first_above tol 0 (row i) = if Nat.ltb i r then i else 0%nat).
  { intros i Hi. pose proof (nth_In U [] Hi) as Hin. fold (row i) in Hin. destruct (lead_ok Hsep Hin (U1 _ Hin)) as [(Z & E)|(A & B & C)]; destruct (Nat.ltb_spec i r) as [H|H]; auto.
    - exfalso. apply (Diag i H). auto.
    - destruct (Nat.lt_trichotomy (first_above tol 0 (row i)) i) as [G|[G|G]]; auto; exfalso; [apply B, Zr; auto|apply (Diag i H), C; auto].
    - exfalso. apply B, Zero. auto. }
  assert (Un : unique N (map (first_above tol 0) U) = seq 0 r).
  { assert (Eq : forall i, existsb (Nat.eqb i) (map (first_above tol 0) U) = Nat.ltb i r).
    { intros i. destruct (Nat.ltb_spec i r) as [H|H].
      - apply existsb_exists. exists i. split; [|apply Nat.eqb_refl]. apply in_map_iff. exists (row i). rewrite Lead by lia. split; [destruct (Nat.ltb_spec i r); auto; lia|apply nth_In; lia].
      - apply not_true_is_false. intros X. apply existsb_exists in X as (j & Hj & E). apply Nat.eqb_eq in E. subst j. apply in_map_iff in Hj as (u & Eu & Hu). destruct (In_nth U u [] Hu) as (l & Hl & <-). fold (row l) in Eu. rewrite Lead in Eu by auto. destruct (Nat.ltb_spec l r); lia. }
    unfold unique. rewrite (filter_ext _ (fun i => Nat.ltb i r)) by apply Eq. replace N with (r + (N - r))%nat by lia. rewrite seq_app, filter_app. cbn [Nat.add].
    assert (F1 : filter (fun i => Nat.ltb i r) (seq 0 r) = seq 0 r).
    { assert (G : forall l, (forall x, In x l -> (x < r)%nat) -> filter (fun i => Nat.ltb i r) l = l) by (induction l as [|x l IHl]; intros Hx; cbn [filter]; auto; destruct (Nat.ltb_spec x r) as [Hlt|Hge]; [rewrite IHl; auto; intros; apply Hx; simpl; auto|exfalso; specialize (Hx x (or_introl eq_refl)); lia]).
      apply G. intros x Hx. apply in_seq in Hx. lia. }
    assert (F2 : filter (fun i => Nat.ltb i r) (seq r (N - r)) = []).
    { assert (G : forall l, (forall x, In x l -> (r <= x)%nat) -> filter (fun i => Nat.ltb i r) l = []) by (induction l as [|x l IHl]; intros Hx; cbn [filter]; auto; destruct (Nat.ltb_spec x r) as [Hlt|Hge]; [exfalso; specialize (Hx x (or_introl eq_refl)); lia|apply IHl; intros; apply Hx; simpl; auto]).
      apply G. intros x Hx. apply in_seq in Hx. lia. }
    rewrite F1, F2, app_nil_r. auto. }
  unfold full_row_rank_select. fold U N. rewrite Un. destruct nrows; auto. apply firstn_all2. rewrite seq_length. lia.
Qed.

(** Non-vacuity: structures with the constant first; the third depends on the first two. *)
Definition qz (z : Z) : Qc := Qc_of_Z z.
Definition ex_features : list (list Qc) := [[qz 1; qz 0; qz 1]; [qz 1; qz 1; qz 0]; [qz 1; qz 2; qz (-1)]].
Example C105_case : features_ok 3 ex_features /\ feature ex_features 0 0 <> 0 /\ independent_rows 3 ex_features (seq 0 2) /\ (forall i, (i < 3)%nat -> spanned_by 3 ex_features (seq 0 2) i) /\
  full_row_rank_select 3 ex_features 0 None = [0; 1]%nat.
Proof.
  split; [intros r [<-|[<-|[<-|[]]]]; reflexivity|]. split; [discriminate|]. split; [|split; [|vm_compute; reflexivity]].
  - intros [|x [|y [|]]] L H; try discriminate. pose proof (H 1%nat ltac:(lia)) as H1. pose proof (H 2%nat ltac:(lia)) as H2.
    unfold combine_rows, feature, ex_features in H1, H2. cbn [seq combine map qsum nth fst snd] in H1, H2. change (qz 0) with 0 in *. change (qz 1) with 1 in *. repeat constructor; qclra.
  - intros i Hi. destruct i as [|[|[|]]]; [exists [qz 1; qz 0]|exists [qz 0; qz 1]|exists [qz (-1); qz 2]|lia]; (split; [reflexivity|]);
      intros j Hj; destruct j as [|[|[|]]]; try lia; apply Qc_is_canon; reflexivity.
Qed.

(** The second structure has the features of the first: the fourth is not selected, although the rank is three. *)
Definition dup_features : list (list Qc) := [[qz 1; qz 0; qz 0]; [qz 1; qz 0; qz 0]; [qz 1; qz 1; qz 1]; [qz 1; qz 0; qz 1]].
Theorem C105_maximal_refuted : features_ok 3 dup_features /\ (forall tol, 0 <= tol -> tol < 1 -> full_row_rank_select 3 dup_features tol None = [0; 2]%nat) /\
  independent_rows 3 dup_features [0; 2; 3]%nat.
Proof.
  split; [intros r [<-|[<-|[<-|[<-|[]]]]]; reflexivity|]. split.
  - intros tol H0 H1. unfold full_row_rank_select. assert (E : lu_upper 3 dup_features = [[qz 1; qz 1; qz 1; qz 1]; [qz 0; qz 0; qz 1; qz 0]; [qz 0; qz 0; qz 1; qz 1]]) by (vm_compute; reflexivity).
    rewrite E. cbn [map first_above]. change (sel_abs (qz 1)) with 1. change (sel_abs (qz 0)) with 0.
    destruct (Qcltb_spec tol 1) as [_|N]; [|contradiction]. destruct (Qcltb_spec tol 0) as [N|_]; [exfalso; qclra|]. reflexivity.
  - intros [|x [|y [|z [|]]]] L H; try discriminate. pose proof (H 0%nat ltac:(lia)) as H0. pose proof (H 1%nat ltac:(lia)) as H1. pose proof (H 2%nat ltac:(lia)) as H2.
    unfold combine_rows, feature, dup_features in H0, H1, H2. cbn [combine map qsum nth fst snd] in H0, H1, H2. change (qz 0) with 0 in *. change (qz 1) with 1 in *. repeat constructor; qclra.
Qed.
(** The first structure has no features: it is selected. *)
Definition zero_features : list (list Qc) := [[qz 0; qz 0]; [qz 1; qz 0]].
Theorem C105_zero_refuted : features_ok 2 zero_features /\ (forall tol, 0 <= tol -> tol < 1 -> full_row_rank_select 2 zero_features tol None = [0; 1]%nat) /\
  ~ independent_rows 2 zero_features [0; 1]%nat.
Proof.
  split; [intros r [<-|[<-|[]]]; reflexivity|]. split.
  - intros tol H0 H1. unfold full_row_rank_select. assert (E : lu_upper 2 zero_features = [[qz 0; qz 1]; [qz 0; qz 0]]) by (vm_compute; reflexivity).
    rewrite E. cbn [map first_above]. change (sel_abs (qz 1)) with 1. change (sel_abs (qz 0)) with 0.
    destruct (Qcltb_spec tol 1) as [_|N]; [|contradiction]. destruct (Qcltb_spec tol 0) as [N|_]; [exfalso; qclra|]. reflexivity.
  - intros H. specialize (H [1; 0] eq_refl). assert (X : Forall (fun x => x = 0) [1; 0]); [|inversion X; discriminate]. apply H. intros j Hj. destruct j as [|[|]]; [| |lia]; apply Qc_is_canon; reflexivity.
Qed.

(** ** Selection by composition *)
Lemma insert_perm x l : Permutation (insert x l) (x :: l).
Proof. induction l as [|y l IH]; cbn [insert]; auto. destruct (Nat.leb x y); auto. eapply perm_trans; [apply perm_skip, IH|apply perm_swap]. Qed.
Lemma sort_perm l : Permutation (sort_ids l) l.
Proof. induction l as [|x l IH]; cbn [sort_ids fold_right]; auto. eapply perm_trans; [apply insert_perm|]. apply perm_skip. auto. Qed.
Lemma insert_sorted x l : StronglySorted le l -> StronglySorted le (insert x l).
Proof.
  induction 1 as [|y l H IH F]; cbn [insert]; [repeat constructor|]. destruct (Nat.leb_spec x y) as [C|C].
  - constructor; [constructor; auto|]. constructor; auto. eapply Forall_impl; [|exact F]. cbn. intros; lia.
  - constructor; auto. eapply Permutation_Forall; [apply Permutation_sym, insert_perm|]. constructor; [lia|auto].
Qed.
Lemma sort_sorted l : StronglySorted le (sort_ids l).
Proof. induction l; cbn [sort_ids fold_right]; [constructor|]. apply insert_sorted. auto. Qed.
Lemma strict l : NoDup l -> StronglySorted le l -> StronglySorted lt l.
Proof.
  intros N H. induction H as [|x l H IH F]; constructor; inversion N; subst; auto. rewrite Forall_forall in *. intros y Hy. specialize (F y Hy). assert (x <> y) by congruence. lia.
Qed.
Definition accepted (prob limit draw : nat -> Qc) (i : nat) : bool := Qcleb (limit i * draw i) (prob i).
Definition accepted_by (prob limit : nat -> Qc) (draws : list (nat -> Qc)) (i : nat) : bool := existsb (fun draw => accepted prob limit draw i) draws.
Lemma round_in prob limit draw taken n i : In i (accept_round prob limit draw taken n) <-> (i < n)%nat /\ accepted prob limit draw i = true /\ ~ In i taken.
Proof.
  unfold accept_round. rewrite filter_In, in_seq, andb_true_iff, negb_true_iff. fold (accepted prob limit draw i). split.
  - intros (H1 & H2 & H3). split; [lia|]. split; auto. intros Hi. assert (X : existsb (Nat.eqb i) taken = true) by (apply existsb_exists; exists i; split; auto; apply Nat.eqb_refl). congruence.
  - intros (H1 & H2 & H3). split; [lia|]. split; auto. apply not_true_is_false. intros X. apply existsb_exists in X as (j & Hj & E). apply Nat.eqb_eq in E. subst j. auto.
Qed.
Lemma round_nodup prob limit draw taken n : NoDup taken -> NoDup (taken ++ accept_round prob limit draw taken n).
Proof.
  intros N. assert (M : NoDup (accept_round prob limit draw taken n)) by (apply NoDup_filter, seq_NoDup).
  assert (D : forall i, In i taken -> ~ In i (accept_round prob limit draw taken n)) by (intros i Hi Hr; apply round_in in Hr; tauto).
  revert M D. generalize (accept_round prob limit draw taken n). intros l M D. induction N as [|x t Hx N IH]; cbn [app]; auto. constructor.
  - intros Hi. apply in_app_iff in Hi as [Hi|Hi]; auto. apply (D x); simpl; auto.
  - apply IH. intros i Hi. apply D. simpl. auto.
Qed.
(** What was taken after the rounds [past]. *)
Definition taken_ok prob limit n past taken : Prop := NoDup taken /\ forall i, In i taken <-> (i < n)%nat /\ accepted_by prob limit past i = true.
Lemma taken_step prob limit n past taken draw : taken_ok prob limit n past taken -> taken_ok prob limit n (past ++ [draw]) (taken ++ accept_round prob limit draw taken n).
Proof.
  intros (N & H). split; [apply round_nodup; auto|]. intros i. rewrite in_app_iff, round_in, H. unfold accepted_by. rewrite existsb_app, orb_true_iff. cbn [existsb]. rewrite orb_false_r.
  destruct (accepted prob limit draw i), (existsb (fun draw => accepted prob limit draw i) past); intuition congruence.
Qed.
Definition how_many prob limit n draws : nat := length (filter (accepted_by prob limit draws) (seq 0 n)).
Lemma taken_length prob limit n past taken : taken_ok prob limit n past taken -> length taken = how_many prob limit n past.
Proof.
  intros (N & H). apply Permutation_length. apply NoDup_Permutation; auto; [apply NoDup_filter, seq_NoDup|]. intros i. rewrite H, filter_In, in_seq. split; intros (A & B); split; auto; lia.
Qed.
Lemma how_many_mono prob limit n a b : (how_many prob limit n a <= how_many prob limit n (a ++ b))%nat.
Proof.
  unfold how_many. induction (seq 0 n) as [|i l IH]; cbn [filter]; auto. replace (accepted_by prob limit (a ++ b) i) with (accepted_by prob limit a i || accepted_by prob limit b i) by (unfold accepted_by; rewrite existsb_app; auto). destruct (accepted_by prob limit a i); cbn [orb length]; [lia|]. destruct (accepted_by prob limit b i); cbn [length]; lia.
Qed.
Lemma rounds_ok prob limit n num draws : forall past taken, taken_ok prob limit n past taken ->
  (rounds prob limit n num draws taken = None <-> (how_many prob limit n (past ++ draws) <= num)%nat) /\
  (forall ids, rounds prob limit n num draws taken = Some ids -> (num < length ids)%nat /\ exists l r, draws = l ++ r /\ taken_ok prob limit n (past ++ l) ids).
Proof.
  induction draws as [|draw draws IH]; intros past taken H; cbn [rounds]; pose proof (taken_length H) as L; destruct (Nat.leb_spec (length taken) num) as [C|C].
  - rewrite app_nil_r. split; [split; auto; lia|discriminate].
  - rewrite app_nil_r. split; [split; [discriminate|lia]|]. intros ids [= <-]. split; auto. exists [], []. split; [reflexivity|]. rewrite app_nil_r. exact H.
  - destruct (IH _ _ (taken_step draw H)) as (A & B). rewrite <- app_assoc in A. split; [exact A|]. intros ids E. destruct (B ids E) as (G & l & r & -> & K). split; [exact G|]. exists (draw :: l), r. split; [reflexivity|].
    rewrite <- app_assoc in K. exact K.
  - split; [split; [discriminate|]|]. { pose proof (how_many_mono prob limit n past (draw :: draws)). lia. } intros ids [= <-]. split; auto. exists [], (draw :: draws). split; [reflexivity|]. rewrite app_nil_r. exact H.
Qed.
Lemma start_ok prob limit n draw0 : taken_ok prob limit n [draw0] (accept_round prob limit draw0 [] n).
Proof. apply (taken_step (past := []) (taken := []) draw0). split; [constructor|]. intros i. cbn. intuition discriminate. Qed.
(** The indices are as many as asked for, increasing and in range, and each was accepted in one of the rounds; the loop goes on exactly as long as
    at most [num] different samples were accepted. *)
Theorem C106_selected prob limit n num draw0 draws :
  (forall ids, composition_select_with prob limit n num draw0 draws = Some ids ->
     length ids = num /\ StronglySorted lt ids /\ Forall (fun i => (i < n)%nat /\ exists draw, In draw (draw0 :: draws) /\ limit i * draw i <= prob i) ids) /\
  (composition_select_with prob limit n num draw0 draws = None <->
     (length (filter (fun i => existsb (fun draw => Qcleb (limit i * draw i) (prob i)) (draw0 :: draws)) (seq 0 n)) <= num)%nat).
Proof.
  unfold composition_select_with. destruct (@rounds_ok prob limit n num draws [draw0] _ (start_ok prob limit n draw0)) as (A & B). split.
  - intros ids E. destruct (rounds _ _ _ _ _ _) as [all|]; [|discriminate]. injection E as <-. destruct (B all eq_refl) as (L & l & r & -> & (N & H)).
    assert (Nf : NoDup (firstn num all)) by (rewrite <- (firstn_skipn num all) in N; apply NoDup_app_remove_r in N; auto).
    split; [rewrite (Permutation_length (sort_perm _)), firstn_length; lia|]. split; [apply strict; [|apply sort_sorted]; apply (Permutation_NoDup (Permutation_sym (sort_perm _))); auto|].
    apply Forall_forall. intros i Hi. apply (Permutation_in _ (sort_perm _)) in Hi. apply firstn_in in Hi. apply H in Hi as (Hn & Hi). split; auto. unfold accepted_by in Hi. apply existsb_exists in Hi as (dr & Hd & Ha).
    exists dr. split; [cbn in Hd |- *; rewrite in_app_iff; tauto|]. unfold accepted in Ha. destruct (Qcleb_spec (limit i * dr i) (prob i)); [auto|discriminate].
  - destruct (rounds _ _ _ _ _ _); cbn [option_map]; split; intros X; try discriminate; auto; [apply A in X; discriminate|apply A; auto].
Qed.
(** All samples, or more, are asked for: the loop never ends. *)
Theorem C106_all_refuted prob limit n num draw0 : (n <= num)%nat -> forall draws, composition_select_with prob limit n num draw0 draws = None.
Proof.
  intros H draws. apply C106_selected. etransitivity; [|exact H]. rewrite <- (seq_length n 0) at 2. generalize (seq 0 n). intros l. induction l as [|i l IH]; cbn [filter length]; auto. destruct (existsb _ _); cbn [length]; lia.
Qed.

(** *** The largest probability *)
(** Rows of [m] components whose columns are different and in lexicographic order. *)
Fixpoint increasing (l : list (list Qc)) : Prop :=
  match l with
  | a :: (b :: _) as l' => lex_ltb a b = true /\ increasing l'
  | _ => True
  end.
Lemma insert_front c l : (match l with [] => True | x :: _ => lex_ltb c x = true end) -> insert_col c l = c :: l.
Proof. destruct l as [|x l]; cbn [insert_col]; auto. intros ->. auto. Qed.
Lemma increasing_kept l : increasing l -> fold_right insert_col [] l = l.
Proof.
  induction l as [|a l IH]; intros H; cbn [fold_right]; auto. destruct l as [|b l]; [reflexivity|]. destruct H as (H1 & H2). rewrite IH by exact H2. apply insert_front. exact H1.
Qed.
Lemma columns_back m comps : (forall r, In r comps -> length r = m) -> map (fun i => map (col i) (columns m comps)) (seq 0 (length comps)) = comps.
Proof.
  intros H. apply (nth_ext _ _ [] []); [rewrite map_length, seq_length; auto|]. intros i Hi. rewrite map_length, seq_length in Hi.
  rewrite (nth_indep _ [] (map (col 0) (columns m comps))) by (rewrite map_length, seq_length; auto). rewrite (map_nth (fun i => map (col i) (columns m comps))), seq_nth by auto. cbn [Nat.add].
  assert (L : length (nth i comps []) = m) by (apply H, nth_In; auto). apply (nth_ext _ _ 0 0); unfold columns; [rewrite !map_length, seq_length; auto|]. intros j Hj. rewrite !map_length, seq_length in Hj.
  rewrite map_map. rewrite (nth_indep _ 0 (col i (map (col 0) comps))) by (rewrite map_length, seq_length; auto). rewrite (map_nth (fun j => col i (map (col j) comps))), seq_nth by auto. cbn [Nat.add].
  rewrite transpose_row. reflexivity.
Qed.
Lemma qmax_bound l x : In x l -> x <= qmax l.
Proof.
  induction l as [|y l IH]; intros Hx; [contradiction|]. cbn [qmax fold_right]. change (fold_right (fun x0 y0 => if Qcleb x0 y0 then y0 else x0) 0 l) with (qmax l). destruct (Qcleb_spec y (qmax l)) as [C|C].
  - destruct Hx as [<-|Hx]; auto.
  - apply Qcnot_le_lt in C. destruct Hx as [<-|Hx]; [apply Qcle_refl|]. specialize (IH Hx). qclra.
Qed.
Lemma qmax_nonneg l : 0 <= qmax l.
Proof. induction l as [|y l IH]; [apply Qcle_refl|]. cbn [qmax fold_right]. change (fold_right (fun x0 y0 => if Qcleb x0 y0 then y0 else x0) 0 l) with (qmax l). destruct (Qcleb_spec y (qmax l)) as [C|C]; auto. apply Qcnot_le_lt in C. qclra. Qed.
(** Compositions whose columns are different and in lexicographic order: the limit is the largest probability of all compositions, so the most probable sample
    is taken at once, whatever is drawn from the unit interval.  Missing: other orders of the components (refuted below). *)
Theorem C106_limit_partial pmf m comps sizes draw0 i : (forall r, In r comps -> length r = m) -> increasing (columns m comps) -> (i < length comps)%nat ->
  let prob size j := pmf size (qvscale (Qc_of_nat size) (nth j comps [])) in let size := nth i sizes 0%nat in
  (forall j, (j < length comps)%nat -> prob size j <= limits pmf m comps size) /\
  ((forall j, (j < length comps)%nat -> prob size j <= prob size i) -> 0 <= prob size i -> draw0 i <= 1 ->
   In i (accept_round (fun i => prob (nth i sizes 0%nat) i) (fun i => limits pmf m comps (nth i sizes 0%nat)) draw0 [] (length comps))).
Proof.
  intros Hm Hinc Hi prob size. unfold limits at 1, unique_columns. rewrite increasing_kept, columns_back by auto. split.
  - intros j Hj. apply qmax_bound. unfold prob. apply (in_map (fun c => pmf size (qvscale (Qc_of_nat size) c))). apply nth_In. auto.
  - intros Hb H0 Hd. apply round_in. split; auto. split; [|intros []]. unfold accepted. fold size. destruct (Qcleb_spec (limits pmf m comps size * draw0 i) (prob size i)) as [|N]; auto. exfalso. apply N. clear N.
    assert (E : limits pmf m comps size <= prob size i).
    { unfold limits, unique_columns. rewrite increasing_kept, columns_back by auto. assert (X : forall l, (forall c, In c l -> exists j, (j < length comps)%nat /\ c = nth j comps []) -> qmax (map (fun c => pmf size (qvscale (Qc_of_nat size) c)) l) <= prob size i).
      { induction l as [|c l IHl]; intros Hl; [exact H0|]. cbn [map qmax fold_right]. change (fold_right (fun x0 y0 => if Qcleb x0 y0 then y0 else x0) 0 (map (fun c => pmf size (qvscale (Qc_of_nat size) c)) l)) with (qmax (map (fun c => pmf size (qvscale (Qc_of_nat size) c)) l)).
        destruct (Qcleb _ _); [apply IHl; intros; apply Hl; simpl; auto|]. destruct (Hl c) as (j & Hj & ->); [simpl; auto|]. apply (Hb j Hj). }
      apply X. intros c Hc. destruct (In_nth comps c [] Hc) as (j & Hj & <-). exists j. auto. }
    assert (P : 0 <= limits pmf m comps size) by apply qmax_nonneg. apply Qcle_trans with (limits pmf m comps size * 1); [|rewrite Qcmult_1_r; auto].
    rewrite !(Qcmult_comm (limits pmf m comps size)). apply Qcmult_le_compat_r; auto.
Qed.

(** The multinomial distribution (scipy.stats.multinomial). *)
Definition whole (x : Qc) : bool := Qceqb x (Qc_of_nat (Z.to_nat (Qnum x))).
Definition count_of (x : Qc) : nat := Z.to_nat (Qnum x).
Definition multinomial (p : list Qc) (size : nat) (xs : list Qc) : Qc :=
  if forallb whole xs && Nat.eqb (list_sum (map count_of xs)) size then
    Qc_of_nat (fact size) / fold_right Qcmult 1 (map (fun x => Qc_of_nat (fact (count_of x))) xs) *
    fold_right Qcmult 1 (map (fun q => Qcpower (fst q) (count_of (snd q))) (combine p xs))
  else 0.
(** One sample, with three quarters of the first component, is the most probable one, but its probability is compared with that of the composition with the components
    exchanged: it is not taken. *)
Definition one_comp : list (list Qc) := [[Qc_frac 3 4; Qc_frac 1 4]].
Definition centre : list Qc := [Qc_frac 1 4; Qc_frac 3 4].
Theorem C106_limit_refuted :
  multinomial centre 4 (qvscale (Qc_of_nat 4) [Qc_frac 3 4; Qc_frac 1 4]) = Qc_frac 3 64 /\
  limits (multinomial centre) 2 one_comp 4 = Qc_frac 27 64 /\
  accept_round (fun i => multinomial centre 4 (qvscale (Qc_of_nat 4) (nth i one_comp []))) (fun _ => limits (multinomial centre) 2 one_comp 4) (fun _ => Qc_frac 1 2) [] 1 = [].
Proof. split; [|split]; vm_compute; try reflexivity; apply Qc_is_canon; reflexivity. Qed.

(** Non-vacuity: three samples of size four, two are asked for; the last is accepted in the second round. *)
Definition some_comps : list (list Qc) := [[Qc_frac 1 4; Qc_frac 3 4]; [Qc_frac 1 2; Qc_frac 1 2]; [Qc_frac 0 1; Qc_frac 1 1]].
Example C106_case : (forall r, In r some_comps -> length r = 2%nat) /\ increasing (columns 2 some_comps) /\
  composition_select (multinomial centre) 2 some_comps [4; 4; 4]%nat 2 (fun _ => Qc_frac 9 10) [(fun _ => Qc_frac 4 5); (fun _ => Qc_frac 1 10)] = Some [0; 1]%nat.
Proof. split; [intros r [<-|[<-|[<-|[]]]]; reflexivity|]. split; [vm_compute; auto|]. vm_compute. reflexivity. Qed.
Print Assumptions C105_independent_partial.
Print Assumptions C105_maximal_partial.
Print Assumptions C105_maximal_refuted.
Print Assumptions C105_zero_refuted.
Print Assumptions C106_selected.
Print Assumptions C106_all_refuted.
Print Assumptions C106_limit_partial.
Print Assumptions C106_limit_refuted.
