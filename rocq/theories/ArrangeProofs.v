(** Counting ordered selections. *)
From Verif Require Export ProbProofs.
From Coq Require Export Factorial.
Set Implicit Arguments.
Unset Strict Implicit.
Open Scope nat_scope.

Lemma selections_perm {A} (l : list A) x r : In (x, r) (selections l) -> Permutation (x :: r) l.
Proof.
  revert x r; induction l as [|a l IH]; intros x r H; simpl in *; [tauto|].
  destruct H as [H|H].
  - injection H as <- <-. auto.
  - apply in_map_iff in H as ([y r'] & E & H). simpl in E. injection E as <- <-.
    apply IH in H. rewrite perm_swap. constructor; auto.
Qed.

Lemma selections_length {A} (l : list A) : length (selections l) = length l.
Proof. induction l as [|a l IH]; simpl; auto. rewrite map_length, IH; auto. Qed.

Lemma arrangements_spec {A} k : forall (l : list A) a, In a (arrangements k l) ->
  length a = k /\ exists r, Permutation (a ++ r) l.
Proof.
  induction k as [|k IH]; intros l a H; simpl in H.
  - destruct H as [<-|[]]. split; auto. exists l; auto.
  - apply in_flat_map in H as ([x r] & Hx & H). apply in_map_iff in H as (b & <- & Hb). simpl in *.
    apply IH in Hb as (Hl & r' & Hp). apply selections_perm in Hx. split; [simpl; auto|].
    exists r'. simpl. rewrite Hp. auto.
Qed.

Lemma arrangements_NoDup {A} k (l : list A) a : NoDup l -> In a (arrangements k l) ->
  length a = k /\ NoDup a /\ incl a l.
Proof.
  intros Hn H. apply arrangements_spec in H as (Hl & r & Hp).
  assert (Nd : NoDup (a ++ r)) by (eapply Permutation_NoDup; [symmetry; eauto|auto]).
  split; auto. split; [eapply NoDup_app_remove_r; eauto|].
  intros x Hx. eapply Permutation_in; eauto. apply in_or_app; auto.
Qed.

Lemma flat_map_const_length {A B} (f : A -> list B) l m :
  (forall x, In x l -> length (f x) = m) -> length (flat_map f l) = length l * m.
Proof.
  induction l as [|a l IH]; intros H; simpl; auto. rewrite app_length, IH, H; simpl; auto.
  intros; apply H; right; auto.
Qed.

Lemma fact_pred n : 0 < n -> fact n = n * fact (n - 1).
Proof. destruct n; [lia|]. intros _. simpl. rewrite Nat.sub_0_r. lia. Qed.

Lemma arrangements_length {A} k : forall (l : list A), k <= length l ->
  length (arrangements k l) * fact (length l - k) = fact (length l).
Proof.
  induction k as [|k IH]; intros l Hk; simpl arrangements.
  - simpl. rewrite Nat.sub_0_r. lia.
  - destruct l as [|x0 l0] eqn:El; [simpl in Hk; lia|]. rewrite <- El in *.
    set (n := length l) in *.
    assert (Hn : n = S (n - 1)) by (unfold n; rewrite El; simpl; lia).
    assert (Hr : forall x r, In (x, r) (selections l) -> length r = n - 1).
    { intros x r H. apply selections_perm, Permutation_length in H. simpl in H. unfold n. lia. }
    destruct (selections l) as [|[x1 r1] s1] eqn:Es.
    { apply (f_equal (@length _)) in Es. rewrite selections_length in Es. simpl in Es. fold n in Es. lia. }
    rewrite <- Es in *.
    assert (Hr1 : length r1 = n - 1) by (apply (Hr x1); rewrite Es; left; auto).
    set (m := length (arrangements k r1)).
    assert (Em : m * fact (n - 1 - k) = fact (n - 1)) by (unfold m; rewrite <- Hr1 at 1 2; apply IH; lia).
    rewrite (@flat_map_const_length _ _ _ _ m).
    + rewrite selections_length. fold n. replace (n - S k) with (n - 1 - k) by lia.
      rewrite <- Nat.mul_assoc, Em. symmetry. apply fact_pred. lia.
    + intros [x r] H. rewrite map_length. simpl. specialize (Hr _ _ H).
      assert (E2 : length (arrangements k r) * fact (n - 1 - k) = fact (n - 1)).
      { rewrite <- Hr at 1 2. apply IH. lia. }
      apply (Nat.mul_cancel_r _ _ (fact (n - 1 - k))); [apply fact_neq_0|]. lia.
Qed.

Lemma flat_map_filter {A B} (f : A -> list B) (P : A -> bool) l :
  (forall x, In x l -> P x = false -> f x = []) ->
  flat_map f l = flat_map f (filter P l).
Proof.
  induction l as [|a l IH]; intros H; simpl; auto.
  destruct (P a) eqn:E; simpl; rewrite IH; auto; try (intros; apply H; simpl; auto).
  rewrite (H a); simpl; auto.
Qed.

Lemma filter_flat_map {A B} (f : A -> list B) (P : B -> bool) l :
  filter P (flat_map f l) = flat_map (fun x => filter P (f x)) l.
Proof. induction l as [|a l IH]; simpl; auto. rewrite filter_app, IH; auto. Qed.

Lemma filter_map_comm {A B} (f : A -> B) (P : B -> bool) l :
  filter P (map f l) = map f (filter (fun x => P (f x)) l).
Proof. induction l as [|a l IH]; simpl; auto. destruct (P (f a)); simpl; rewrite IH; auto. Qed.

Lemma selections_filter {A} (P : A -> bool) (l : list A) :
  selections (filter P l) =
  map (fun p => (fst p, filter P (snd p))) (filter (fun p => P (fst p)) (selections l)).
Proof.
  induction l as [|a l IH]; simpl; auto.
  rewrite filter_map_comm. simpl.
  destruct (P a) eqn:E; simpl.
  - f_equal. rewrite IH, !map_map. apply map_ext. intros [x r]; simpl. rewrite E; auto.
  - rewrite IH, !map_map. apply map_ext. intros [x r]; simpl. rewrite E; auto.
Qed.

Lemma arrangements_filter {A} (P : A -> bool) k : forall (l : list A),
  filter (forallb P) (arrangements k l) = arrangements k (filter P l).
Proof.
  induction k as [|k IH]; intros l; simpl; auto.
  rewrite selections_filter, filter_flat_map.
  rewrite (flat_map_filter (P := fun p => P (fst p))).
  - rewrite flat_map_concat_map, (flat_map_concat_map _ (map _ _)), map_map. f_equal.
    apply map_ext_in. intros [x r] H. apply filter_In in H as [_ Hx]. simpl in *.
    rewrite filter_map_comm. simpl. rewrite Hx. simpl. rewrite <- IH. auto.
  - intros [x r] _ H. simpl in *. rewrite filter_map_comm. simpl. rewrite H. simpl.
    induction (arrangements k r); simpl; auto.
Qed.

Definition qfact (n : nat) : Qc := Qc_of_nat (fact n).

Lemma qfact_nz n : qfact n <> 0%Qc.
Proof. apply Qc_of_nat_nz, fact_neq_0. Qed.
Lemma qfact_pos n : (0 < qfact n)%Qc.
Proof. apply Qc_of_nat_pos, lt_O_fact. Qed.

Lemma Qc_of_nat_mul a b : Qc_of_nat (a * b) = (Qc_of_nat a * Qc_of_nat b)%Qc.
Proof. unfold Qc_of_nat. rewrite Nat2Z.inj_mul. apply Qc_of_Z_mul. Qed.

(** Probability that all [k] selected elements lie in a set of exactly [k]. *)
Lemma choose_k_all {A} k (l : list A) (Q : A -> bool) :
  countb Q l = k ->
  prob (choose_k k l) (forallb Q) = (qfact k * qfact (length l - k) / qfact (length l))%Qc.
Proof.
  intros Hk. assert (Hkn : k <= length l) by (rewrite <- Hk; apply countb_le).
  unfold choose_k. rewrite prob_uniform, <- qsum_filter_const.
  rewrite arrangements_filter.
  assert (E1 : length (arrangements k (filter Q l)) * fact 0 = fact k).
  { replace 0 with (length (filter Q l) - k) by (unfold countb in Hk; lia).
    replace (fact k) with (fact (length (filter Q l))) by (unfold countb in Hk; rewrite Hk; auto).
    apply arrangements_length. unfold countb in Hk; lia. }
  assert (E2 := arrangements_length Hkn).
  rewrite qsum_const.
  apply (f_equal Qc_of_nat) in E1, E2. rewrite Qc_of_nat_mul in E1, E2.
  fold (qfact 0) in E1. fold (qfact k) in E1. fold (qfact (length l - k)) in E2. fold (qfact (length l)) in E2.
  rewrite <- E1, <- E2.
  assert (N1 : Qc_of_nat (length (arrangements k l)) <> 0%Qc).
  { intros E. rewrite E, Qcmult_0_l in E2. symmetry in E2. exact (qfact_nz E2). }
  assert (N2 := @qfact_nz (length l - k)).
  replace (qfact 0) with 1%Qc by reflexivity. field. auto.
Qed.
