(** Lemmas about site bases. *)
From Verif Require Import LibProofs DomainProofs.
From Verif Require Export FlavorProofs.
From Coq Require Import Lia Lra Bool.
Set Implicit Arguments.
Unset Strict Implicit.
Open Scope R_scope.

(** Arrays. *)
Definition rect (n m : nat) (a : mat) : Prop :=
  length a = n /\ forall r, In r a -> length r = m.

Lemma build_rect n m f : rect n m (build n m f).
Proof.
  unfold build. split; [rewrite map_length, seq_length; auto|].
  intros r H. apply in_map_iff in H. destruct H as (i & <- & _).
  rewrite map_length, seq_length. auto.
Qed.
Lemma nth_map_seq {A} (f : nat -> A) n i d : (i < n)%nat -> nth i (map f (seq 0 n)) d = f i.
Proof.
  intros H. rewrite nth_indep with (d' := f 0%nat) by (rewrite map_length, seq_length; auto).
  rewrite map_nth, seq_nth by auto. auto.
Qed.
Lemma entry_build n m f i j : (i < n)%nat -> (j < m)%nat -> entry (build n m f) i j = f i j.
Proof.
  intros Hi Hj. unfold entry, build. rewrite nth_map_seq by auto. apply nth_map_seq. auto.
Qed.
Lemma length_build n m f : length (build n m f) = n.
Proof. unfold build. rewrite map_length, seq_length. auto. Qed.
Lemma build_ext n m f g : (forall i j, (i < n)%nat -> (j < m)%nat -> f i j = g i j) ->
  build n m f = build n m g.
Proof.
  intros H. unfold build. apply map_ext_in. intros i Hi. apply in_seq in Hi.
  apply map_ext_in. intros j Hj. apply in_seq in Hj. apply H; lia.
Qed.
Lemma build_S n m f : build (S n) m f = map (f 0%nat) (seq 0 m) :: build n m (fun i => f (S i)).
Proof.
  unfold build. change (seq 0 (S n)) with (0 :: seq 1 n)%nat. cbn [map]. f_equal.
  rewrite <- seq_shift, map_map. auto.
Qed.
Lemma rect_build n m a : rect n m a -> a = build n m (entry a).
Proof.
  intros (L & R). apply (@nth_ext _ _ _ [] []); [rewrite length_build; auto|].
  intros i Hi. unfold build. rewrite nth_map_seq by lia.
  assert (Lr : length (nth i a []) = m) by (apply R, nth_In; auto).
  apply (@nth_ext _ _ _ 0 0); [rewrite map_length, seq_length; auto|].
  intros j Hj. rewrite nth_map_seq by lia. auto.
Qed.
Lemma rect_eq n m a b : rect n m a -> rect n m b ->
  (forall i j, (i < n)%nat -> (j < m)%nat -> entry a i j = entry b i j) -> a = b.
Proof.
  intros A B E. rewrite (rect_build A), (rect_build B). apply build_ext. auto.
Qed.

(** Species and their positions. *)
Lemma encode_nth l i s : NoDup l -> nth_error l i = Some s -> encode l s = Some i.
Proof.
  revert i. induction l as [|x l IH]; intros i N E; [destruct i; discriminate|].
  inversion N; subst. destruct i; simpl in *.
  - inversion E; subst. destruct (sp_eqb_spec s s); congruence.
  - destruct (sp_eqb_spec x s) as [->|].
    + apply nth_error_In in E. tauto.
    + rewrite (IH _ H2 E). auto.
Qed.

(** The values of the functions of each flavor. *)
Definition fval (fl : flavor) (n k j : nat) : R :=
  match fl with
  | Indicator => if Nat.eqb j k then 1 else 0
  | Sinusoid => sinusoid (k + 1) n j
  | Polynomial => linspace (-1) 1 n j ^ (k + 1)
  | Chebyshev => cheb (k + 1) (linspace (-1) 1 n j)
  | Legendre => leg (k + 1) (linspace (-1) 1 n j)
  end.
Definition fullval fl n i j : R := match i with O => 1 | S k => fval fl n k j end.

Lemma site_function_val fl sps k j s : NoDup sps -> (k < length sps)%nat ->
  nth_error sps j = Some s -> site_function fl sps k s = Some (fval fl (length sps) k j).
Proof.
  intros N K E. unfold site_function.
  destruct (nth_error sps k) as [sp|] eqn:Ek; [|apply nth_error_None in Ek; lia].
  simpl. rewrite (encode_nth N Ek), (encode_nth N E). destruct fl; simpl; auto.
  destruct (sp_eqb_spec s sp) as [->|D], (Nat.eqb_spec j k) as [->|D']; auto.
  - destruct D'. apply (proj1 (NoDup_nth_error sps) N); [|congruence].
    apply nth_error_Some. congruence.
  - congruence.
Qed.

Lemma opt_map_seq {A B} (f : A -> option B) (l : list A) (g : nat -> B) :
  (forall i x, nth_error l i = Some x -> f x = Some (g i)) ->
  opt_map f l = Some (map g (seq 0 (length l))).
Proof.
  revert g. induction l as [|a l IH]; intros g H; auto. simpl.
  rewrite (H 0%nat a eq_refl).
  rewrite (IH (fun i => g (S i))) by (intros i x E; apply (H (S i)); auto).
  rewrite <- seq_shift, map_map. auto.
Qed.

Lemma removelast_seq n : removelast (seq 0 (S n)) = seq 0 n.
Proof. rewrite seq_S. simpl. apply removelast_last. Qed.

Lemma factory fl space : NoDup (map fst space) -> (2 <= length space)%nat ->
  basis_factory fl space = Some (MkBasis space fl
    (build (length space) (length space) (fullval fl (length space))) RNone
    (eye (length space))).
Proof.
  intros N L. unfold basis_factory, standard_basis.
  set (dom := map fst space) in *.
  assert (Ld : length dom = length space) by (unfold dom; apply map_length).
  assert (H : forallb (fun s => existsb (sp_eqb s) dom) dom = true).
  { apply forallb_forall. intros s Hs. apply existsb_exists. exists s. split; auto.
    destruct (sp_eqb_spec s s); congruence. }
  rewrite H. simpl.
  destruct (length space) as [|[|n]] eqn:En; [lia|lia|].
  rewrite Ld, removelast_seq.
  rewrite (@opt_map_seq _ _ _ (seq 0 (S n))
            (fun k => map (fval fl (S (S n)) k) (seq 0 (S (S n))))).
  - rewrite seq_length. simpl option_bind. cbn [option_bind].
    set (m := S (S n)). set (G := fun k => map (fval fl m k) (seq 0 m)).
    change (map G (seq 0 (S n))) with (G 0%nat :: map G (seq 1 n)). f_equal. f_equal.
    + change (G 0%nat :: map G (seq 1 n)) with (map G (seq 0 (S n))).
      rewrite (build_S (S n) m (fullval fl m) : build m m (fullval fl m) = _). f_equal.
      unfold G. rewrite map_map. reflexivity.
    + unfold G. rewrite map_length, seq_length. auto.
  - intros k x E. rewrite <- Ld at 2.
    assert (x = k /\ (k < S n)%nat) as (-> & K).
    { destruct (Nat.lt_ge_cases k (S n)) as [K|K].
      - rewrite nth_error_nth' with (d := 0%nat) in E by (rewrite seq_length; auto).
        rewrite seq_nth in E by auto. simpl in E. split; [congruence|auto].
      - assert (nth_error (seq 0 (S n)) k = None)
          by (apply nth_error_None; rewrite seq_length; auto). congruence. }
    apply opt_map_seq. intros j s Es. rewrite <- Ld. apply site_function_val; auto. lia.
Qed.

Lemma sum_S_left n f : sum (S n) f = f 0%nat + sum n (fun i => f (S i)).
Proof. unfold sum. simpl. rewrite <- seq_shift, map_map. auto. Qed.

Lemma linear_independent_ext n F G : independent n F ->
  (forall i j, (i < n)%nat -> (j < n)%nat -> G i j = F i j) -> independent n G.
Proof.
  intros I E c H. apply I. intros j Hj. rewrite <- (H j Hj).
  apply sum_ext. intros i Hi. rewrite E; auto.
Qed.

Lemma choice_lead p : (forall k, exists a, poly k (p k) a /\ a <> 0) ->
  forall n, exists lead : nat -> R, forall k, (k < n)%nat -> poly k (p k) (lead k) /\ lead k <> 0.
Proof.
  intros H. induction n; [exists (fun _ => 1); intros; lia|].
  destruct IHn as (lead & P), (H n) as (a & A).
  exists (fun k => if Nat.eqb k n then a else lead k). intros k Hk.
  destruct (Nat.eqb_spec k n) as [->|]; auto. apply P. lia.
Qed.

Lemma fullval_independent fl n : (2 <= n)%nat -> independent n (fullval fl n).
Proof.
  intros L.
  assert (X : forall i j, (i < n)%nat -> (j < n)%nat ->
    linspace (-1) 1 n i = linspace (-1) 1 n j -> i = j)
    by (intros; eapply linspace_inj; eauto).
  destruct fl.
  - intros c E. destruct n as [|n]; [lia|].
    assert (V : forall j, (j < S n)%nat ->
      c 0%nat + sum n (fun i => c (S i) * (if Nat.eqb j i then 1 else 0)) = 0).
    { intros j Hj. specialize (E j Hj). rewrite sum_S_left in E. cbn [fullval fval] in E. lra. }
    assert (C0 : c 0%nat = 0).
    { rewrite <- (V n) by lia.
      rewrite (sum_ext (g := fun _ => 0)), sum_zero; [lra|].
      intros i Hi. destruct (Nat.eqb_spec n i); [lia|lra]. }
    intros [|i] Hi; auto.
    assert (Hi' : (i < n)%nat) by lia. specialize (V i ltac:(lia)).
    rewrite (sum_ext (g := fun k => if Nat.eqb k i then c (S k) else 0)) in V.
    + rewrite (@sum_delta n i (fun k => c (S k))) in V by auto. lra.
    + intros k _. rewrite Nat.eqb_sym. destruct (Nat.eqb k i); lra.
  - apply orthogonal_independent with (w := fun _ => 1).
    + assert (A : forall i j, (j < i)%nat -> (i < n)%nat ->
        sum n (fun k => 1 * fullval Sinusoid n i k * fullval Sinusoid n j k) = 0).
      { intros i j Lij Hi. destruct i as [|i]; [lia|]. destruct j as [|j].
        - simpl. rewrite (sum_ext (g := fun s => sinusoid (i + 1) n s)) by (intros; lra).
          apply sinusoid_mean; lia.
        - simpl. rewrite <- (@sprod_lt n ltac:(lia) (i + 1) (j + 1)) by lia.
          unfold sprod. apply sum_ext. intros; lra. }
      intros i j Hi Hj D. destruct (Nat.lt_ge_cases j i); [apply A; auto|].
      rewrite <- (A j i) by lia. apply sum_ext. intros; lra.
    + assert (N : 0 < INR n) by (apply lt_0_INR; lia).
      intros [|i] Hi; simpl.
      * rewrite (sum_ext (g := fun _ => 1)) by (intros; lra). rewrite sum_one. lra.
      * rewrite (sum_ext (g := fun s => sinusoid (i + 1) n s * sinusoid (i + 1) n s))
          by (intros; lra).
        change (sprod n (i + 1) (i + 1) <> 0).
        rewrite sprod_self by lia. destruct (_ && _); lra.
  - apply linear_independent_ext with (F := fun k j => linspace (-1) 1 n j ^ k).
    + apply (@polys_independent n (fun k x => x ^ k) (fun _ => 1)
               (linspace (-1) 1 n)); auto.
      intros k _. split; [apply pow_poly|lra].
    + intros [|i] j Hi Hj; auto. simpl. rewrite Nat.add_1_r. auto.
  - destruct (@choice_lead cheb cheb_poly n) as (lead & P).
    apply linear_independent_ext with (F := fun k j => cheb k (linspace (-1) 1 n j)).
    + apply (@polys_independent n cheb lead (linspace (-1) 1 n)); auto.
    + intros [|i] j Hi Hj; auto. simpl. rewrite Nat.add_1_r. auto.
  - destruct (@choice_lead leg leg_poly n) as (lead & P).
    apply linear_independent_ext with (F := fun k j => leg k (linspace (-1) 1 n j)).
    + apply (@polys_independent n leg lead (linspace (-1) 1 n)); auto.
    + intros [|i] j Hi Hj; auto. simpl. rewrite Nat.add_1_r. auto.
Qed.
