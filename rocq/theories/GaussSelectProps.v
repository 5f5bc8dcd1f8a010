(** C107: selection of rows that align with random vectors. *)
From Verif Require Import LibProofs.
From Verif Require Export GaussSelect.
From Coq Require Import Sorted Permutation Lra Lia.
Set Implicit Arguments.
Unset Strict Implicit.
Open Scope R_scope.

(** ** Specification *)
Definition cosine (u v : vec) : R := dot u v / (length_of u * length_of v).
(** [picks] are chosen one after the other for the vectors: each has the largest cosine with its vector among the rows not chosen before. *)
Fixpoint greedy (features : list vec) (gauss : list vec) (before : list nat) (picks : list nat) : Prop :=
  match gauss, picks with
  | [], [] => True
  | v :: gauss', i :: picks' =>
      (i < length features)%nat /\ ~ In i before /\
      (forall j, (j < length features)%nat -> ~ In j before -> cosine (nth j features []) v <= cosine (nth i features []) v) /\
      greedy features gauss' (i :: before) picks'
  | _, _ => False
  end.

(** ** Proofs *)
Lemma dot_scale_l a u v : dot (map (fun x => x / a) u) v = dot u v / a.
Proof.
  unfold dot. revert v. induction u as [|x u IH]; intros [|y v]; cbn [map combine fold_right fst snd]; try (unfold Rdiv; ring). rewrite IH. unfold Rdiv. ring.
Qed.
Lemma dot_scale_r a u v : dot u (map (fun x => x / a) v) = dot u v / a.
Proof.
  unfold dot. revert v. induction u as [|x u IH]; intros [|y v]; cbn [map combine fold_right fst snd]; try (unfold Rdiv; ring). rewrite IH. unfold Rdiv. ring.
Qed.
Lemma normalised_cosine u v : length_of u <> 0 -> length_of v <> 0 -> dot (normalised u) (normalised v) = cosine u v.
Proof. intros Hu Hv. unfold normalised, cosine. rewrite dot_scale_l, dot_scale_r. field. auto. Qed.
Lemma argmax_ok score l : forall best, let i := argmax_from best (score best) score l in
  (i = best \/ In i l) /\ score best <= score i /\ forall j, In j l -> score j <= score i.
Proof.
  induction l as [|x l IH]; intros best; cbn [argmax_from].
  - split; auto. split; [lra|intros j []].
  - destruct (Rlt_dec (score best) (score x)) as [H|H].
    + destruct (IH x) as (A & B & C). cbv zeta in *. split; [destruct A as [->|A]; simpl; auto|]. split; [lra|]. intros j [<-|Hj]; auto.
    + destruct (IH best) as (A & B & C). cbv zeta in *. split; [destruct A as [->|A]; simpl; auto|]. split; [lra|]. intros j [<-|Hj]; [lra|auto].
Qed.
Lemma pick_ok score l i : pick score l = Some i -> In i l /\ forall j, In j l -> score j <= score i.
Proof.
  destruct l as [|x l]; cbn [pick]; [discriminate|]. intros [= <-]. destruct (argmax_ok score l x) as (A & B & C). cbv zeta in *. split; [destruct A as [->|A]; simpl; auto|]. intros j [<-|Hj]; auto.
Qed.
Lemma remove_perm x l : In x l -> Permutation l (x :: remove_first x l).
Proof.
  induction l as [|y l IH]; intros H; [contradiction|]. cbn [remove_first]. destruct (Nat.eqb_spec x y) as [->|N]; auto. destruct H as [->|H]; [contradiction|]. eapply perm_trans; [apply perm_skip, IH; auto|apply perm_swap].
Qed.
Section Choose.
Variable features : list vec.
Hypothesis Hf : forall u, In u features -> length_of u <> 0.
Definition left_ok (before left : list nat) : Prop := NoDup left /\ forall j, In j left <-> (j < length features)%nat /\ ~ In j before.
Lemma left_step before left i : left_ok before left -> In i left -> left_ok (i :: before) (remove_first i left).
Proof using.
  intros (N & H) Hi. pose proof (remove_perm Hi) as P. pose proof (Permutation_NoDup P N) as N'. inversion N' as [|? ? Ni Nr]; subst. split; auto. intros j. split.
  - intros Hj. assert (Hl : In j left) by (apply (Permutation_in _ (Permutation_sym P)); simpl; auto). apply H in Hl as (A & B). split; auto. intros [->|Hb]; auto.
  - intros (A & B). assert (Hl : In j left) by (apply H; split; auto; intros X; apply B; simpl; auto). apply (Permutation_in _ P) in Hl as [->|Hl]; auto. exfalso. apply B. simpl. auto.
Qed.
Lemma choose_ok gauss : (forall v, In v gauss -> length_of v <> 0) -> forall before left, left_ok before left ->
  ((length gauss <= length left)%nat -> exists picks, choose (map normalised features) (map normalised gauss) left = Some picks) /\
  (forall picks, choose (map normalised features) (map normalised gauss) left = Some picks -> (length gauss <= length left)%nat /\ greedy features gauss before picks).
Proof using Hf.
  induction gauss as [|v gauss IH]; intros Hg before left HL; cbn [map choose length].
  - split; [exists []; auto|]. intros picks [= <-]. split; [lia|cbn; auto].
  - destruct (pick _ left) as [i|] eqn:E.
    + pose proof (pick_ok E) as (Hi & Hm). pose proof (left_step HL Hi) as HL'. pose proof (Permutation_length (remove_perm Hi)) as PL. cbn [length] in PL.
      destruct (IH (fun u Hu => Hg u (or_intror Hu)) _ _ HL') as (A & B). split.
      * intros H. destruct A as (picks & ->); [lia|]. exists (i :: picks). auto.
      * intros picks Ep. destruct (choose _ _ (remove_first i left)) as [ps|]; [|discriminate]. injection Ep as <-. destruct (B ps eq_refl) as (B1 & B2). split; [lia|]. cbn [greedy].
        destruct HL as (_ & HL). apply HL in Hi as (H1 & H2). split; auto. split; auto. split; auto. intros j Hj Hn. specialize (Hm j (proj2 (HL j) (conj Hj Hn))). cbn beta in Hm.
        assert (X : forall k, (k < length features)%nat -> dot (nth k (map normalised features) []) (normalised v) = cosine (nth k features []) v).
        { intros k Hk. change (@nil R) with (normalised []) at 1. rewrite (map_nth normalised). apply normalised_cosine; [apply Hf, nth_In; auto|apply Hg; simpl; auto]. }
        rewrite !X in Hm by auto. auto.
    + split; [|discriminate]. intros H. destruct left; [cbn in H; lia|discriminate].
Qed.
End Choose.
Lemma greedy_nodup features gauss : forall before picks, greedy features gauss before picks -> NoDup picks /\ length picks = length gauss /\ forall i, In i picks -> (i < length features)%nat /\ ~ In i before.
Proof.
  induction gauss as [|v gauss IH]; intros before [|i picks] H; cbn [greedy] in H; try contradiction.
  - split; [constructor|]. split; auto. intros i [].
  - destruct H as (H1 & H2 & _ & H3). destruct (IH _ _ H3) as (A & B & C). split; [constructor; auto; intros X; apply C in X as (_ & X); apply X; simpl; auto|]. split; [cbn; lia|].
    intros j [<-|Hj]; auto. destruct (C j Hj) as (D & E). split; auto. intros X. apply E. simpl. auto.
Qed.
Lemma insert_id_perm x l : Permutation (insert_id x l) (x :: l).
Proof. induction l as [|y l IH]; cbn [insert_id]; auto. destruct (Nat.leb x y); auto. eapply perm_trans; [apply perm_skip, IH|apply perm_swap]. Qed.
Lemma sort_id_perm l : Permutation (fold_right insert_id [] l) l.
Proof. induction l as [|x l IH]; cbn [fold_right]; auto. eapply perm_trans; [apply insert_id_perm|]. apply perm_skip. auto. Qed.
Lemma sort_id_sorted l : StronglySorted le (fold_right insert_id [] l).
Proof.
  induction l as [|x l IH]; cbn [fold_right]; [constructor|]. revert IH. generalize (fold_right insert_id [] l). intros s IH. induction IH as [|y t H IH F]; cbn [insert_id]; [repeat constructor|]. destruct (Nat.leb_spec x y) as [C|C].
  - constructor; [constructor; auto|]. constructor; auto. eapply Forall_impl; [|exact F]. cbn. intros; lia.
  - constructor; auto. eapply Permutation_Forall; [apply Permutation_sym, insert_id_perm|]. constructor; [lia|auto].
Qed.
Lemma strict_ids l : NoDup l -> StronglySorted le l -> StronglySorted lt l.
Proof. intros N H. induction H as [|x l H IH F]; constructor; inversion N; subst; auto. rewrite Forall_forall in *. intros y Hy. specialize (F y Hy). assert (x <> y) by congruence. lia. Qed.

(** Two or more samples and features, no zero rows or vectors: the call succeeds exactly when there are enough rows; the indices are distinct and sorted, as many as asked for,
    and are those of the greedy choice.  Missing: one sample or one feature (refuted below). *)
Theorem C107_selected_partial cols features num draws orth (gauss := match orth with Some o => o draws | None => draws end) :
  num <> 1%nat -> cols <> 1%nat -> length gauss = num -> (forall u, In u features -> length_of u <> 0) -> (forall v, In v gauss -> length_of v <> 0) ->
  (gaussian_select cols features num draws orth <> None <-> (num <= length features)%nat) /\
  forall ids, gaussian_select cols features num draws orth = Some ids ->
    StronglySorted lt ids /\ length ids = num /\ Forall (fun i => (i < length features)%nat) ids /\ exists picks, Permutation ids picks /\ greedy features gauss [] picks.
Proof.
  intros N1 N2 L Hf Hg. unfold gaussian_select. fold gauss. destruct (Nat.eqb_spec num 1) as [|_]; [contradiction|]. destruct (Nat.eqb_spec cols 1) as [|_]; [contradiction|]. cbn [orb]. rewrite L, Nat.eqb_refl. cbn [negb].
  assert (LO : left_ok features [] (seq 0 (length features))). { split; [apply seq_NoDup|]. intros j. rewrite in_seq. split; [intros; split; [lia|intros []]|intros (A & _); lia]. }
  destruct (choose_ok Hf Hg LO) as (A & B). rewrite seq_length, L in A, B. split.
  - split.
    + destruct (choose _ _ _) as [p|]; [intros _; apply (B p eq_refl)|cbn; congruence].
    + intros H. destruct (A H) as (p & ->). discriminate.
  - intros ids E. destruct (choose _ _ _) as [p|]; [|discriminate]. injection E as <-. destruct (B p eq_refl) as (_ & G). destruct (greedy_nodup G) as (G1 & G2 & G3). pose proof (sort_id_perm p) as P.
    split; [apply strict_ids; [apply (Permutation_NoDup (Permutation_sym P)); auto|apply sort_id_sorted]|]. split; [rewrite (Permutation_length P); lia|]. split; [|exists p; auto].
    apply Forall_forall. intros i Hi. apply (Permutation_in _ P) in Hi. apply G3. auto.
Qed.
(** One sample, or a single feature: the call raises however many rows there are. *)
Theorem C107_single_refuted cols features num draws orth : num = 1%nat \/ cols = 1%nat -> gaussian_select cols features num draws orth = None.
Proof. unfold gaussian_select. intros [->| ->]; [|rewrite Bool.orb_true_r]; reflexivity. Qed.
(** More samples than features with orthogonalisation: [orth] returns at most as many vectors as there are features, and the call raises. *)
Theorem C107_orthogonal_refuted cols features num draws o : (length (o draws) <= cols)%nat -> (cols < num)%nat -> gaussian_select cols features num draws (Some o) = None.
Proof. intros H1 H2. unfold gaussian_select. destruct (orb _ _); auto. destruct (Nat.eqb_spec (length (o draws)) num); [lia|auto]. Qed.

(** Non-vacuity: three rows of two features, two vectors. *)
Definition ex_rows : list vec := [[1; 0]; [0; 2]; [3; 3]].
Definition ex_vecs : list vec := [[0; 1]; [1; 1]].
Lemma nonzero_2 x y : (x <> 0 \/ y <> 0) -> length_of [x; y] <> 0.
Proof.
  intros H. unfold length_of, dot. cbn [map combine fold_right fst snd]. intros E. apply sqrt_eq_0 in E; [|nra]. assert (x * x = 0) by nra. assert (y * y = 0) by nra. destruct H as [H|H]; apply H; nra.
Qed.
Example C107_case : (forall u, In u ex_rows -> length_of u <> 0) /\ (forall v, In v ex_vecs -> length_of v <> 0) /\ gaussian_select 2 ex_rows 2 ex_vecs None <> None.
Proof.
  assert (A : forall u, In u ex_rows -> length_of u <> 0) by (intros u [<-|[<-|[<-|[]]]]; apply nonzero_2; lra).
  assert (B : forall u, In u ex_vecs -> length_of u <> 0) by (intros u [<-|[<-|[]]]; apply nonzero_2; lra).
  split; auto. split; auto. apply (@C107_selected_partial 2 ex_rows 2 ex_vecs None); cbn [length ex_rows ex_vecs]; auto; lia.
Qed.
Print Assumptions C107_selected_partial.
Print Assumptions C107_single_refuted.
Print Assumptions C107_orthogonal_refuted.
