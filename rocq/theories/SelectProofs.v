(** Proofs for the selection of rows. *)
From Verif Require Export Select.
From Coq Require Import Sorted Permutation.
Set Implicit Arguments.
Unset Strict Implicit.
Open Scope Qc_scope.

(** ** Rows as functionals on vectors of [n] numbers *)
Definition app_row (n : nat) (r : list Qc) (c : nat -> Qc) : Qc := qsum (map (fun j => col j r * c j) (seq 0 n)).
Lemma col_sub j r u : length r = length u -> col j (qvsub r u) = col j r - col j u.
Proof.
  unfold col, qvsub, qmap2. revert u j. induction r as [|x r IH]; intros [|y u] j L; try discriminate; cbn [combine map nth fst snd].
  - destruct j; ring.
  - destruct j; auto.
Qed.
Lemma col_scale j k u : col j (qvscale k u) = k * col j u.
Proof. unfold col, qvscale. revert j. induction u as [|y u IH]; intros [|j]; cbn [map nth]; auto; ring. Qed.
Lemma len_eliminate k u r : length r = length u -> length (eliminate k u r) = length r.
Proof. intros L. unfold eliminate, qvsub, qmap2, qvscale. rewrite map_length, combine_length, map_length. lia. Qed.
Lemma col_eliminate j k u r : length r = length u -> col j (eliminate k u r) = col j r - col k r / col k u * col j u.
Proof. intros L. unfold eliminate. rewrite col_sub, col_scale; auto. unfold qvscale. rewrite map_length. auto. Qed.
Lemma app_eliminate n k u r c : length r = length u -> app_row n (eliminate k u r) c = app_row n r c - col k r / col k u * app_row n u c.
Proof.
  intros L. unfold app_row. rewrite <- qsum_map_scale, <- qsum_map_sub. apply qsum_map_ext. intros j _. rewrite col_eliminate by auto. ring.
Qed.

(** ** The pivot *)
Lemma sel_abs_0 x : sel_abs x = 0 <-> x = 0.
Proof. unfold sel_abs. destruct (Qcltb_spec x 0) as [N|N]; split; intros H; try (apply Qcnot_lt_le in N); qclra. Qed.
Lemma sel_abs_nonneg x : 0 <= sel_abs x.
Proof. unfold sel_abs. destruct (Qcltb_spec x 0) as [N|N]; try (apply Qcnot_lt_le in N); qclra. Qed.
Lemma best_row_ok k rows : forall best v i, (best < i)%nat ->
  let p := best_row k best v i rows in
  (p = best \/ (i <= p < i + length rows)%nat) /\
  (p = best -> forall r, In r rows -> sel_abs (col k r) <= v) /\
  (p <> best -> v < sel_abs (col k (nth (p - i) rows [])) /\ forall r, In r rows -> sel_abs (col k r) <= sel_abs (col k (nth (p - i) rows []))).
Proof.
  induction rows as [|r rows IH]; intros best v i Hb; cbn [best_row length].
  - split; [auto|]. split; [intros _ r []|]. intros H. contradiction.
  - destruct (Qcltb_spec v (sel_abs (col k r))) as [C|C].
    + destruct (IH i (sel_abs (col k r)) (S i)) as (H1 & H2 & H3); [lia|]. set (p := best_row k i (sel_abs (col k r)) (S i) rows) in *. cbv zeta.
      split; [right; lia|]. split; [intros ->; lia|]. intros _. destruct (Nat.eq_dec p i) as [E|E].
      * rewrite E, Nat.sub_diag. cbn [nth]. split; auto. intros r' [<-|Hr]; [apply Qcle_refl|auto].
      * destruct (H3 E) as (A & B). replace (p - i)%nat with (S (p - S i)) by lia. cbn [nth]. split; [qclra|]. intros r' [<-|Hr]; [qclra|auto].
    + apply Qcnot_lt_le in C. destruct (IH best v (S i)) as (H1 & H2 & H3); [lia|]. set (p := best_row k best v (S i) rows) in *. cbv zeta.
      split; [lia|]. split; [intros E r' [<-|Hr]; auto|]. intros E. destruct (H3 E) as (A & B). replace (p - i)%nat with (S (p - S i)) by lia. cbn [nth]. split; auto.
      intros r' [<-|Hr]; [qclra|auto].
Qed.
Lemma pivot_ok k r0 rs : let p := pivot k r0 rs in
  (p <= length rs)%nat /\ forall r, In r (r0 :: rs) -> sel_abs (col k r) <= sel_abs (col k (nth p (r0 :: rs) [])).
Proof.
  unfold pivot. destruct (@best_row_ok k rs 0%nat (sel_abs (col k r0)) 1) as (H1 & H2 & H3); [lia|]. set (p := best_row k 0 (sel_abs (col k r0)) 1 rs) in *. cbv zeta.
  split; [lia|]. destruct p as [|p].
  - cbn [nth]. intros r [<-|Hr]; [apply Qcle_refl|]. apply H2; auto.
  - cbn [nth]. destruct H3 as (A & B); [lia|]. replace (S p - 1)%nat with p in * by lia. intros r [<-|Hr]; [qclra|auto].
Qed.
Lemma pivot_zero k r0 rs : col k (nth (pivot k r0 rs) (r0 :: rs) []) = 0 -> forall r, In r (r0 :: rs) -> col k r = 0.
Proof.
  intros E r Hr. destruct (pivot_ok k r0 rs) as (_ & H). specialize (H r Hr). apply sel_abs_0. rewrite E in H. change (sel_abs 0) with 0 in H. pose proof (@sel_abs_nonneg (col k r)). qclra.
Qed.
Lemma put_perm {A} (x d : A) l p : (p < length l)%nat -> Permutation (x :: l) (nth p l d :: put p x l).
Proof.
  revert p. induction l as [|y l IH]; intros [|p] H; cbn in H; try lia; cbn [nth put].
  - apply perm_swap.
  - eapply perm_trans; [apply perm_swap|]. eapply perm_trans; [apply perm_skip, (IH p); lia|]. apply perm_swap.
Qed.
Lemma below_perm k r0 rs : Permutation (r0 :: rs) (nth (pivot k r0 rs) (r0 :: rs) [] :: below (pivot k r0 rs) r0 rs).
Proof.
  destruct (pivot_ok k r0 rs) as (H & _). destruct (pivot k r0 rs) as [|p]; [apply Permutation_refl|]. cbn [nth below]. apply put_perm. lia.
Qed.

(** ** The upper factor *)
Section Upper.
Variable n : nat.
Definition zero_before (k : nat) (rows : list (list Qc)) : Prop := forall r j, In r rows -> (j < k)%nat -> col j r = 0.
Definition shaped (rows : list (list Qc)) : Prop := forall r, In r rows -> length r = n.
Definition kills (rows : list (list Qc)) (c : nat -> Qc) : Prop := forall r, In r rows -> app_row n r c = 0.
Lemma step_zero k r0 rs (u := nth (pivot k r0 rs) (r0 :: rs) []) : shaped (r0 :: rs) -> zero_before k (r0 :: rs) -> col k u <> 0 ->
  In u (r0 :: rs) /\ shaped (map (eliminate k u) (below (pivot k r0 rs) r0 rs)) /\ zero_before (S k) (map (eliminate k u) (below (pivot k r0 rs) r0 rs)) /\
  forall c, kills (r0 :: rs) c <-> app_row n u c = 0 /\ kills (map (eliminate k u) (below (pivot k r0 rs) r0 rs)) c.
Proof using.
  intros Hs Hz Hu. pose proof (below_perm k r0 rs) as P. fold u in P.
  assert (Hin : forall r, In r (u :: below (pivot k r0 rs) r0 rs) <-> In r (r0 :: rs)) by (intros r; split; apply Permutation_in; auto using Permutation_sym).
  assert (Iu : In u (r0 :: rs)) by (apply Hin; simpl; auto). assert (Ib : forall r, In r (below (pivot k r0 rs) r0 rs) -> In r (r0 :: rs)) by (intros; apply Hin; simpl; auto).
  split; auto. split; [|split].
  - intros r Hr. apply in_map_iff in Hr as (r' & <- & Hr'). rewrite len_eliminate; [auto|rewrite !Hs; auto].
  - intros r j Hr Hj. apply in_map_iff in Hr as (r' & <- & Hr'). rewrite col_eliminate by (rewrite !Hs; auto).
    destruct (Nat.eq_dec j k) as [->|Ne]; [field; auto|]. rewrite (Hz r' j), (Hz u j) by (auto; lia). ring.
  - intros c. split.
    + intros H. split; auto. intros r Hr. apply in_map_iff in Hr as (r' & <- & Hr'). rewrite app_eliminate by (rewrite !Hs; auto). rewrite !H by auto. ring.
    + intros (H1 & H2) r Hr. apply Hin in Hr as [<-|Hr]; auto. specialize (H2 _ (in_map (eliminate k u) _ _ Hr)). rewrite app_eliminate in H2 by (rewrite !Hs; auto). rewrite H1 in H2.
      replace (app_row n r c) with (app_row n r c - col k r / col k u * 0) by ring. auto.
Qed.
Lemma zero_rows k rows c : zero_before k rows -> (n <= k)%nat -> kills rows c.
Proof using. intros Hz Hk r Hr. unfold app_row. apply qsum_map_0. intros j Hj. apply in_seq in Hj. rewrite Hz by (auto; lia). ring. Qed.
Lemma upper_ok fuel : forall k rows, (length rows <= fuel)%nat -> shaped rows -> zero_before k rows ->
  shaped (upper n fuel k rows) /\
  (forall i r, nth_error (upper n fuel k rows) i = Some r -> forall j, (j < k + i)%nat -> col j r = 0) /\
  (forall c, kills rows c <-> kills (upper n fuel k rows) c).
Proof using.
  induction fuel as [|fuel IH]; intros k rows L Hs Hz.
  - destruct rows; [|cbn in L; lia]. cbn [upper]. split; [auto|]. split; [intros [|i]; discriminate|tauto].
  - destruct rows as [|r0 rs]; cbn [upper]; [split; [auto|]; split; [intros [|i]; discriminate|tauto]|]. cbn [length] in L.
    destruct (Nat.leb_spec n k) as [Hk|Hk].
    { split; [intros r []|]. split; [intros [|i]; discriminate|]. intros c. split; [intros _ r []|]. intros _. apply zero_rows with k; auto. }
    destruct (Qceqb_spec (col k (nth (pivot k r0 rs) (r0 :: rs) [])) 0) as [E|E].
    + pose proof (pivot_zero E) as Z. destruct (IH (S k) rs) as (A & B & C); [lia|intros r Hr; apply Hs; simpl; auto| |].
      { intros r j Hr Hj. destruct (Nat.eq_dec j k) as [->|Ne]; [apply Z; simpl; auto|apply Hz; simpl; auto; lia]. }
      split; [intros r [<-|Hr]; [apply Hs; simpl; auto|auto]|]. split.
      * intros [|i] r Hr j Hj; cbn in Hr; [injection Hr as <-; apply Hz; simpl; auto; lia|]. apply (B i r Hr). lia.
      * intros c. split; intros H.
        -- assert (X : kills (upper n fuel (S k) rs) c) by (apply C; intros r' Hr'; apply H; simpl; auto). intros r [<-|Hr]; [apply H; simpl; auto|auto].
        -- assert (X : kills rs c) by (apply C; intros r' Hr'; apply H; simpl; auto). intros r [<-|Hr]; [apply H; simpl; auto|auto].
    + destruct (step_zero Hs Hz E) as (S1 & S2 & S3 & S4). set (u := nth (pivot k r0 rs) (r0 :: rs) []) in *.
      set (rest := map (eliminate k u) (below (pivot k r0 rs) r0 rs)) in *. destruct (IH (S k) rest) as (A & B & C); auto.
      { unfold rest. rewrite map_length. pose proof (Permutation_length (below_perm k r0 rs)) as PL. cbn [length] in PL. lia. }
      split; [intros r [<-|Hr]; auto|]. split.
      * intros [|i] r Hr j Hj; cbn in Hr; [injection Hr as <-; apply Hz; auto; lia|]. apply (B i r Hr). lia.
      * intros c. rewrite S4, C. split; [intros (H1 & H2) r [<-|Hr]; auto|]. intros H. split; [apply H; simpl; auto|intros r Hr; apply H; simpl; auto].
Qed.
End Upper.

(** ** First columns *)
Lemma first_above_ok tol row : forall i, (exists j, (j < length row)%nat /\ tol < sel_abs (nth j row 0)) ->
  exists j, (j < length row)%nat /\ first_above tol i row = (i + j)%nat /\ tol < sel_abs (nth j row 0) /\ forall l, (l < j)%nat -> sel_abs (nth l row 0) <= tol.
Proof.
  induction row as [|x row IH]; intros i (j & Hj & H); cbn [length] in *; [lia|]. cbn [first_above]. destruct (Qcltb_spec tol (sel_abs x)) as [C|C].
  - exists 0%nat. cbn [nth]. repeat split; auto; lia.
  - apply Qcnot_lt_le in C. destruct j as [|j]; [cbn [nth] in H; exfalso; qclra|]. cbn [nth] in H. destruct (IH (S i)) as (l & Hl & E & A & B); [exists j; split; auto; lia|].
    exists (S l). cbn [nth]. repeat split; auto; try lia. intros [|m] Hm; auto. apply B. lia.
Qed.
Lemma first_above_none tol row : forall i, (forall j, (j < length row)%nat -> sel_abs (nth j row 0) <= tol) -> first_above tol i row = 0%nat.
Proof.
  induction row as [|x row IH]; intros i H; cbn [first_above]; auto. destruct (Qcltb_spec tol (sel_abs x)) as [C|C].
  - specialize (H 0%nat). cbn [nth length] in H. specialize (H ltac:(lia)). exfalso. qclra.
  - apply IH. intros j Hj. apply (H (S j)). cbn [length]. lia.
Qed.
Lemma above_dec tol (row : list Qc) : (exists j, (j < length row)%nat /\ tol < sel_abs (nth j row 0)) \/ (forall j, (j < length row)%nat -> sel_abs (nth j row 0) <= tol).
Proof.
  induction row as [|x row IH]; [right; cbn; lia|]. destruct (Qcltb_spec tol (sel_abs x)) as [C|C]; [left; exists 0%nat; cbn; split; auto; lia|]. apply Qcnot_lt_le in C.
  destruct IH as [(j & Hj & H)|H]; [left; exists (S j); cbn; split; auto; lia|]. right. intros [|j] Hj; cbn in *; auto. apply H. lia.
Qed.
Lemma unique_in n l i : In i (unique n l) <-> (i < n)%nat /\ In i l.
Proof.
  unfold unique. rewrite filter_In, in_seq, existsb_exists. split.
  - intros (H & j & Hj & E). apply Nat.eqb_eq in E. subst j. split; auto. lia.
  - intros (H & Hi). split; [lia|]. exists i. split; auto. apply Nat.eqb_refl.
Qed.
Lemma seq_sorted n : forall s, StronglySorted lt (seq s n).
Proof. induction n as [|n IH]; intros s; cbn [seq]; constructor; auto. apply Forall_forall. intros x Hx. apply in_seq in Hx. lia. Qed.
Lemma filter_sorted (f : nat -> bool) l : StronglySorted lt l -> StronglySorted lt (filter f l).
Proof.
  induction 1 as [|x l H IH F]; cbn [filter]; [constructor|]. destruct (f x); auto. constructor; auto. apply Forall_forall. intros y Hy. apply filter_In in Hy. rewrite Forall_forall in F. apply F. tauto.
Qed.
Lemma unique_sorted n l : StronglySorted lt (unique n l).
Proof. apply filter_sorted, seq_sorted. Qed.
Lemma firstn_sorted k l : StronglySorted lt l -> StronglySorted lt (firstn k l).
Proof.
  intros H. revert k. induction H as [|x l H IH F]; intros [|k]; cbn [firstn]; try constructor; auto. apply Forall_forall. intros y Hy. rewrite Forall_forall in F. apply F. clear - Hy. revert l Hy. induction k; intros [|z l] Hy; cbn in *; try contradiction. destruct Hy; auto.
Qed.
Lemma firstn_in {A} k (l : list A) x : In x (firstn k l) -> In x l.
Proof. revert l. induction k; intros [|z l] Hy; cbn in *; try contradiction. destruct Hy; auto. Qed.
Lemma sorted_nodup l : StronglySorted lt l -> NoDup l.
Proof. induction 1 as [|x l H IH F]; constructor; auto. intros Hx. rewrite Forall_forall in F. specialize (F x Hx). lia. Qed.

(** A set of first columns of the rows of an upper factor is independent. *)
Lemma leads_independent n (U : list (list Qc)) (J : nat -> Prop) (c : nat -> Qc) :
  (forall j, J j -> (j < n)%nat /\ exists r, In r U /\ col j r <> 0 /\ forall l, (l < j)%nat -> col l r = 0) ->
  (forall j, ~ J j -> c j = 0) -> kills n U c -> (forall j, J j \/ ~ J j) -> forall j, c j = 0.
Proof.
  intros HJ Hc HU Dec. assert (X : forall d j, (n - j <= d)%nat -> c j = 0).
  { induction d as [|d IH]; intros j Hd.
    - destruct (Dec j) as [Hj|Hj]; [destruct (HJ j Hj); lia|auto].
    - destruct (Dec j) as [Hj|Hj]; [|auto]. destruct (HJ j Hj) as (Hn & r & Hr & Hnz & Hz). specialize (HU r Hr). unfold app_row in HU.
      assert (E : qsum (map (fun l => col l r * c l) (seq 0 n)) = col j r * c j).
      { replace n with (j + S (n - S j))%nat by lia. rewrite seq_app, map_app, qsum_app. cbn [seq map qsum Nat.add].
        rewrite (qsum_map_0 _ (seq 0 j)) by (intros l Hl; apply in_seq in Hl; rewrite Hz by lia; ring).
        rewrite (qsum_map_0 _ (seq (S j) (n - S j))) by (intros l Hl; apply in_seq in Hl; rewrite IH by lia; ring). ring. }
      rewrite E in HU. apply Qcmult_integral in HU as [H|H]; auto. }
  intros j. apply (X (n - j)%nat). lia.
Qed.
