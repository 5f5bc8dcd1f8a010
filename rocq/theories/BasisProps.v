(** C79-C84: site bases. *)
From Verif Require Import LibProofs DomainProofs.
From Verif Require Export BasisProofs.
From Coq Require Import Lia Lra Bool.
Set Implicit Arguments.
Unset Strict Implicit.
Open Scope R_scope.

(** ** Specification *)

(** The combination of functions (rows of values) with given coefficients. *)
Definition combination (n : nat) (c : list R) (rows : mat) : list R :=
  map (fun j => rsum (map (fun p => fst p * nth j (snd p) 0) (combine c rows))) (seq 0 n).

(** The constant function and the non-constant functions of a basis. *)
Definition all_functions (b : basis) : mat :=
  repeat 1 (length (b_space b)) :: function_array b.

(** The inner product of two functions with respect to the measure. *)
Definition inner (space : site_space) (f g : list R) : R :=
  rsum (map (fun t => Qc2R (snd (fst t)) * fst (snd t) * snd (snd t))
            (combine space (combine f g))).

Lemma rsum_combine_sum (A B : Type) (h : A * B -> R) (l : list A) (m : list B) da db n :
  length l = n -> length m = n ->
  rsum (map h (combine l m)) = sum n (fun i => h (nth i l da, nth i m db)).
Proof.
  revert m n. induction l as [|a l IH]; intros m n L M; simpl in L; subst.
  - rewrite sum_0. auto.
  - destruct m as [|b m]; [discriminate|]. simpl. rewrite sum_S_left. simpl.
    rewrite (IH m (length l)); auto.
Qed.

Lemma combination_sum n c rows j : length c = n -> length rows = n -> (j < n)%nat ->
  nth j (combination n c rows) 0 = sum n (fun i => nth i c 0 * entry rows i j).
Proof.
  intros C Rr J. unfold combination. rewrite nth_map_seq by auto.
  rewrite (@rsum_combine_sum _ _ _ _ _ 0 [] n); auto.
Qed.

Lemma inner_sum space f g n : length space = n -> length f = n -> length g = n ->
  inner space f g = sum n (fun k => mu space k * nth k f 0 * nth k g 0).
Proof.
  intros S F G. unfold inner.
  rewrite (@rsum_combine_sum _ _ _ _ _ (Vac, 0%Qc) (0, 0) n); auto.
  - apply sum_ext. intros k Hk. rewrite combine_nth by congruence. simpl.
    f_equal. f_equal. unfold mu, measure.
    transitivity (nth k (map (fun p : species * Qc => Qc2R (snd p)) space)
                      (Qc2R (snd (Vac, 0%Qc)))).
    + symmetry. apply (map_nth (fun p : species * Qc => Qc2R (snd p))).
    + apply nth_indep. rewrite map_length. lia.
  - rewrite combine_length. lia.
Qed.

(** A list as a function and back. *)
Lemma list_of n (f : nat -> R) : exists l, length l = n /\ forall i, (i < n)%nat -> nth i l 0 = f i.
Proof.
  exists (map f (seq 0 n)). split; [rewrite map_length, seq_length; auto|].
  intros. apply nth_map_seq; auto.
Qed.

(** Bases as they are made: square arrays with the constant first and
    independent rows. *)
Definition proper (b : basis) : Prop :=
  let n := length (b_space b) in
  rect n n (b_f b) /\ (0 < n)%nat /\ (forall j, (j < n)%nat -> entry (b_f b) 0 j = 1) /\
  independent n (entry (b_f b)).

Lemma proper_all b : proper b -> all_functions b = b_f b.
Proof.
  intros ((L & Rw) & P & One & _). unfold all_functions, function_array.
  destruct (b_f b) as [|r rows] eqn:E; simpl in *; [lia|]. f_equal.
  apply (@nth_ext _ _ _ 0 0).
  - rewrite repeat_length. rewrite Rw; auto.
  - intros j Hj. rewrite repeat_length in Hj. transitivity 1.
    + rewrite (nth_indep _ 0 1) by (rewrite repeat_length; auto). apply nth_repeat.
    + symmetry. apply (One j Hj).
Qed.

Lemma factory_proper fl space b : NoDup (map fst space) -> (2 <= length space)%nat ->
  basis_factory fl space = Some b -> proper b /\ b_space b = space.
Proof.
  intros N L E. rewrite factory in E by auto. inversion E; subst; clear E.
  unfold proper. simpl. split; auto. split; [apply build_rect|]. split; [lia|]. split.
  - intros j Hj. rewrite entry_build by lia. auto.
  - apply linear_independent_ext with (F := fullval fl (length space)).
    + apply fullval_independent; auto.
    + intros. apply entry_build; auto.
Qed.

Lemma proper_complete b : proper b -> forall g, length g = length (b_space b) ->
  exists! c, length c = length (b_space b) /\
    g = combination (length (b_space b)) c (all_functions b).
Proof.
  intros P g G. rewrite (proper_all P). destruct P as ((L & Rw) & Pn & One & I).
  set (n := length (b_space b)) in *.
  destruct (@independent_spans n _ I (fun j => nth j g 0)) as (c & C).
  destruct (list_of n c) as (l & Ll & El).
  exists l. split.
  - split; auto. apply (@nth_ext _ _ _ 0 0).
    + unfold combination. rewrite map_length, seq_length. auto.
    + intros j Hj. rewrite G in Hj. rewrite combination_sum by auto. rewrite C by auto.
      apply sum_ext. intros i Hi. rewrite El; auto.
  - intros l' (Ll' & E'). apply (@nth_ext _ _ _ 0 0); [congruence|].
    intros i Hi. rewrite Ll in Hi.
    apply (@independent_unique n _ (fun i => nth i l 0) (fun i => nth i l' 0) I); auto.
    intros j Hj. rewrite <- (@combination_sum n l' (b_f b)) by auto.
    rewrite <- E', C by auto. apply sum_ext. intros k Hk. rewrite El; auto.
Qed.

(** ** C79 *)

(** For every flavour and every site space with two or more (different)
    species, the basis can be made, has one function less than there are
    species, and every real function of the species is a combination of the
    constant and these functions with unique coefficients. *)
Theorem C79_complete fl (space : site_space) :
  NoDup (map fst space) -> (2 <= length space)%nat ->
  exists b, basis_factory fl space = Some b /\ b_space b = space /\
    length (function_array b) = (length space - 1)%nat /\
    (forall row, In row (function_array b) -> length row = length space) /\
    forall g, length g = length space ->
      exists! c, length c = length space /\
        g = combination (length space) c (all_functions b).
Proof.
  intros N L. assert (E := factory fl N L). eexists. split; [exact E|].
  destruct (factory_proper N L E) as (P & S). split; auto.
  assert (R := proj1 P). destruct R as (R1 & R2). rewrite S in R1, R2.
  unfold function_array at 1 2. split; [|split].
  - destruct (b_f _); simpl in *; lia.
  - intros row H. apply R2. destruct (b_f _); simpl in *; [tauto|auto].
  - intros g G. assert (Q := proper_complete P). rewrite S in Q. apply Q. auto.
Qed.

(** The functions are those that the names promise: indicators of all species
    but the last, powers and Chebyshev and Legendre polynomials of the points
    that divide [-1, 1] evenly, sines and cosines of the multiples of the
    circle's parts. *)
Theorem C79_values fl (space : site_space) b : NoDup (map fst space) ->
  (2 <= length space)%nat -> basis_factory fl space = Some b ->
  let n := length space in
  forall k j, (k + 1 < n)%nat -> (j < n)%nat ->
  let x := -1 + 2 * INR j / INR (n - 1) in
  let t := 2 * PI * INR j / INR n in
  nth j (nth k (function_array b) []) 0 =
  match fl with
  | Indicator => if Nat.eqb j k then 1 else 0
  | Sinusoid => if Nat.odd k then - sin (INR ((k + 1) / 2) * t)
                else - cos (INR (k / 2 + 1) * t)
  | Polynomial => x ^ (k + 1)
  | Chebyshev => cheb (k + 1) x
  | Legendre => leg (k + 1) x
  end.
Proof.
  intros N L E n k j K J x t. rewrite factory in E by auto. inversion E; subst; clear E.
  unfold function_array. simpl b_f. fold n.
  assert (Hn : (0 < n)%nat) by lia.
  assert (Tl : forall m f, tl (build (S m) n f) = build m n (fun i => f (S i))).
  { intros. rewrite build_S. auto. }
  replace n with (S (n - 1))%nat at 1 by lia. rewrite Tl.
  fold (entry (build (n - 1) n (fun i => fullval fl n (S i))) k j).
  rewrite entry_build by lia. unfold fullval, fval.
  assert (P : 0 < INR n) by (apply lt_0_INR; lia).
  assert (P1 : 0 < INR (n - 1)) by (apply lt_0_INR; lia).
  assert (X : linspace (-1) 1 n j = x).
  { unfold linspace, x. field. lra. }
  rewrite !X. destruct fl; auto.
  unfold sinusoid. rewrite Nat.add_1_r, Nat.even_succ.
  destruct (Nat.odd k) eqn:O.
  - f_equal. f_equal. replace (S k + 1)%nat with (k + 1 + 1)%nat by lia.
    assert (D : ((k + 1 + 1) / 2 = (k + 1) / 2)%nat).
    { apply Nat.odd_spec in O. destruct O as (m & ->).
      replace (2 * m + 1 + 1 + 1)%nat with (1 + (m + 1) * 2)%nat by lia.
      replace (2 * m + 1 + 1)%nat with (0 + (m + 1) * 2)%nat by lia.
      rewrite !Nat.div_add by lia. auto. }
    rewrite D, <- (Nat.add_1_r k). unfold t. field. lra.
  - f_equal. f_equal. replace (S k + 1)%nat with (k + 1 * 2)%nat by lia.
    rewrite Nat.div_add by lia. unfold t. field. lra.
Qed.

(** The polynomials are the classical ones. *)
Theorem C79_polynomials : forall n x,
  cheb 0 x = 1 /\ cheb 1 x = x /\ cheb (n + 2) x = 2 * x * cheb (n + 1) x - cheb n x /\
  leg 0 x = 1 /\ leg 1 x = x /\
  (INR n + 2) * leg (n + 2) x = (2 * INR n + 3) * x * leg (n + 1) x - (INR n + 1) * leg n x /\
  (forall t, cheb n (cos t) = cos (INR n * t)).
Proof.
  intros n x. repeat split; auto.
  - replace (n + 2)%nat with (S (S n)) by lia. rewrite Nat.add_1_r. apply cheb_SS.
  - replace (n + 2)%nat with (S (S n)) by lia. rewrite Nat.add_1_r, leg_SS, S_INR.
    assert (H := pos_INR n). field. lra.
  - intros t.
    assert (A : cheb n (cos t) = cos (INR n * t) /\ cheb (S n) (cos t) = cos (INR (S n) * t)).
    { induction n.
      - split.
        + change (INR 0) with 0. rewrite Rmult_0_l, cos_0. reflexivity.
        + change (INR 1) with 1. rewrite Rmult_1_l. reflexivity.
      - destruct IHn as (A & B). split; auto.
        rewrite cheb_SS, A, B. rewrite !S_INR.
        replace ((INR n + 1 + 1) * t) with ((INR n + 1) * t + t) by lra.
        replace (INR n * t) with ((INR n + 1) * t - t) by lra.
        rewrite cos_plus, cos_minus. lra. }
    apply A.
Qed.

(** ** C80 *)

(** What [numpy.linalg.qr] promises for a square array: an orthogonal factor
    and an upper triangular one. *)
Definition qr_of (n : nat) (a q r : mat) : Prop :=
  rect n n q /\ rect n n r /\
  (forall i j, (i < n)%nat -> (j < n)%nat ->
     sum n (fun k => entry q k i * entry q k j) = if Nat.eqb i j then 1 else 0) /\
  (forall i j, (i < n)%nat -> (j < n)%nat ->
     entry a i j = sum n (fun k => entry q i k * entry r k j)) /\
  (forall i j, (j < i)%nat -> (i < n)%nat -> entry r i j = 0).

(** The array that the code factorises. *)
Definition weighted (b : basis) : mat :=
  build (length (b_space b)) (length (b_f b))
    (fun j i => sqrt (mu (b_space b) j) * entry (b_f b) i j).

Definition total (space : site_space) : R := sum (length space) (mu space).

Section Orthonormalize.
  Variables (b : basis) (qr : mat -> mat * mat).
  Let n := length (b_space b).
  Let m j := mu (b_space b) j.
  Let q := fst (qr (weighted b)).
  Let r := snd (qr (weighted b)).
  Let b' := orthonormalize qr b.
  Hypothesis P : proper b.
  Hypothesis Mu : forall j, (j < n)%nat -> 0 < m j.
  Hypothesis Q : qr_of n (weighted b) q r.

  Lemma on_shape : rect n n (b_f b').
  Proof using.
    clear P Mu Q. unfold b', orthonormalize. fold (weighted b). destruct (qr (weighted b)).
    apply build_rect.
  Qed.
  Lemma on_f i j : (i < n)%nat -> (j < n)%nat ->
    entry (b_f b') i j = entry q j i / entry q j 0.
  Proof using.
    clear P Mu Q. intros Hi Hj. unfold b', orthonormalize, q. fold (weighted b).
    destruct (qr (weighted b)). simpl. apply entry_build; auto.
  Qed.
  Lemma on_r : exists a, b_r b' = RArray a /\ rect n n a /\
    forall i j, (i < n)%nat -> (j < n)%nat ->
      entry a i j = entry q j 0 / sqrt (m j) * entry r j i.
  Proof using P.
    clear Mu Q. unfold b', orthonormalize, q, r. fold (weighted b).
    destruct (qr (weighted b)) as [q0 r0]. simpl. eexists. split; [reflexivity|].
    assert (L : length (b_f b) = n) by apply P. rewrite L. split; [apply build_rect|].
    intros i j Hi Hj. apply entry_build; auto.
  Qed.

  Lemma n_pos : (0 < n)%nat.
  Proof using P. apply P. Qed.
  Lemma total_pos : 0 < total (b_space b).
  Proof using P Mu. apply sum_pos; [apply Mu|apply P]. Qed.

  (** The first column of the orthogonal factor is the root of the measure up
      to a common factor. *)
  Lemma first_column : exists s, s * s = / total (b_space b) /\
    forall j, (j < n)%nat -> entry q j 0 = s * sqrt (m j).
  Proof using P Mu Q.
    destruct Q as (Rq & Rr & O & A & U). assert (Np := n_pos). assert (Tp := total_pos).
    assert (L : length (b_f b) = n) by apply P.
    assert (E : forall j, (j < n)%nat -> sqrt (m j) = entry q j 0 * entry r 0 0).
    { intros j Hj.
      assert (W : entry (weighted b) j 0 = sqrt (m j)).
      { unfold weighted. rewrite L. rewrite entry_build by (auto; fold n; lia).
        destruct P as (_ & _ & One & _). rewrite One by auto. unfold m. lra. }
      rewrite <- W, A by auto.
      rewrite (sum_ext (g := fun k => if Nat.eqb k 0 then entry q j k * entry r k 0 else 0)).
      - apply (@sum_delta n 0 (fun k => entry q j k * entry r k 0)). auto.
      - intros k Hk. destruct (Nat.eqb_spec k 0); auto. rewrite U by lia. lra. }
    assert (T : total (b_space b) = entry r 0 0 * entry r 0 0).
    { unfold total. fold n.
      rewrite (sum_ext (g := fun j => (entry r 0 0 * entry r 0 0) * (entry q j 0 * entry q j 0))).
      - rewrite sum_scal, O by auto. simpl. lra.
      - intros j Hj. fold (m j). rewrite <- (sqrt_sqrt (m j)) by (left; auto).
        rewrite (E j) by auto. lra. }
    assert (R0 : entry r 0 0 <> 0) by (intros Z; rewrite Z in T; lra).
    exists (/ entry r 0 0). split.
    - rewrite T. field. auto.
    - intros j Hj. rewrite E by auto. field. auto.
  Qed.

  Lemma on_inner i j : (i < n)%nat -> (j < n)%nat ->
    sum n (fun k => m k * entry (b_f b') i k * entry (b_f b') j k) =
    if Nat.eqb i j then total (b_space b) else 0.
  Proof using P Mu Q.
    intros Hi Hj. destruct first_column as (s & S & C). assert (Tp := total_pos).
    assert (O := proj1 (proj2 (proj2 Q))).
    rewrite (sum_ext (g := fun k => total (b_space b) * (entry q k i * entry q k j))).
    - rewrite sum_scal, O by auto. destruct (Nat.eqb i j); lra.
    - intros k Hk. rewrite !on_f, !C by auto.
      assert (Mk := sqrt_lt_R0 _ (Mu Hk)).
      assert (Ek := sqrt_sqrt (m k) (Rlt_le _ _ (Mu Hk))).
      assert (Ns : s <> 0).
      { intros Z. rewrite Z in S. assert (Hi' := Rinv_0_lt_compat _ Tp). lra. }
      rewrite <- Ek at 1.
      replace (sqrt (m k) * sqrt (m k) * (entry q k i / (s * sqrt (m k))) *
               (entry q k j / (s * sqrt (m k))))
        with (/ (s * s) * (entry q k i * entry q k j)) by (field; lra).
      rewrite S, Rinv_inv. auto.
  Qed.

  Lemma on_first j : (j < n)%nat -> entry (b_f b') 0 j = 1.
  Proof using P Mu Q.
    intros Hj. rewrite on_f by (auto; apply n_pos).
    destruct first_column as (s & S & C). rewrite C by auto.
    assert (Mk := sqrt_lt_R0 _ (Mu Hj)). assert (Tp := total_pos).
    assert (Ns : s <> 0).
    { intros Z. rewrite Z in S. assert (Hi' := Rinv_0_lt_compat _ Tp). lra. }
    field. lra.
  Qed.

  Lemma on_rebuild a : b_r b' = RArray a -> forall i j, (i < n)%nat -> (j < n)%nat ->
    entry (b_f b) i j = sum n (fun k => entry a i k * entry (b_f b') k j).
  Proof using P Mu Q.
    intros Ea i j Hi Hj. destruct on_r as (a' & Ea' & _ & Va).
    assert (a' = a) by congruence. subst a'.
    destruct first_column as (s & S & C).
    assert (Mk := sqrt_lt_R0 _ (Mu Hj)). assert (Tp := total_pos).
    assert (Ns : s <> 0).
    { intros Z. rewrite Z in S. assert (Hi' := Rinv_0_lt_compat _ Tp). lra. }
    destruct Q as (_ & _ & _ & A & _).
    assert (L : length (b_f b) = n) by apply P.
    assert (W : entry (weighted b) j i = sqrt (m j) * entry (b_f b) i j).
    { unfold weighted. rewrite L. rewrite entry_build by auto. auto. }
    rewrite A in W by auto.
    rewrite (sum_ext (g := fun k => / sqrt (m j) * (entry q j k * entry r k i))).
    - rewrite sum_scal, W. field. lra.
    - intros k Hk. rewrite Va, on_f, !C by auto.
      assert (Mk' := sqrt_lt_R0 _ (Mu Hk)). field. lra.
  Qed.

  Lemma on_lower a : b_r b' = RArray a -> forall i k, (i < k)%nat -> (k < n)%nat ->
    entry a i k = 0.
  Proof using P Mu Q.
    intros Ea i k Hik Hk. destruct on_r as (a' & Ea' & _ & Va).
    assert (a' = a) by congruence. subst a'.
    rewrite Va by lia. destruct Q as (_ & _ & _ & _ & U). rewrite U by auto. lra.
  Qed.

  Lemma on_diag a : b_r b' = RArray a -> forall i, (i < n)%nat -> entry a i i <> 0.
  Proof using P Mu Q.
    intros Ea p Hp Z.
    (* the first p+1 original functions would lie in the span of p functions *)
    destruct (@dependent p (S p) (fun i j => entry a i j)) as (c & (w & Hw & NZ) & E); [lia|].
    apply NZ. destruct P as (_ & _ & _ & I).
    assert (X : forall i, (i < n)%nat -> (fun i => if Nat.ltb i (S p) then c i else 0) i = 0).
    { apply I. intros j Hj.
      rewrite (sum_ext (g := fun i => sum n (fun k =>
                 (if Nat.ltb i (S p) then c i else 0) * entry a i k * entry (b_f b') k j))).
      2:{ intros i Hi. rewrite (on_rebuild Ea) by auto. rewrite <- sum_scal.
          apply sum_ext. intros; lra. }
      rewrite sum_swap. rewrite (sum_ext (g := fun _ => 0)); [apply sum_zero|].
      intros k Hk. fold n. rewrite sum_scal_r.
      assert (Y : sum n (fun i => (if Nat.ltb i (S p) then c i else 0) * entry a i k) = 0);
        [|rewrite Y; lra].
      assert (Sp : forall f d, sum (S p + d) (fun i => if Nat.ltb i (S p) then f i else 0)
                             = sum (S p) f).
      { intros f d. induction d.
        - rewrite Nat.add_0_r. apply sum_ext. intros i Hi.
          destruct (Nat.ltb_spec i (S p)); [auto|lia].
        - rewrite Nat.add_succ_r, (@sum_S (S p + d)), IHd.
          destruct (Nat.ltb_spec (S p + d) (S p)); [lia|lra]. }
      rewrite (sum_ext (g := fun i => if Nat.ltb i (S p) then c i * entry a i k else 0))
        by (intros i _; destruct (Nat.ltb i (S p)); lra).
      replace n with (S p + (n - S p))%nat by lia. rewrite Sp.
      destruct (Nat.lt_ge_cases k p) as [K|K]; [apply E; auto|].
      rewrite (sum_ext (g := fun _ => 0)); [apply sum_zero|].
      intros i Hi. destruct (Nat.eq_dec i k) as [->|D].
      - assert (k = p) by lia. subst. rewrite Z. lra.
      - rewrite (on_lower Ea) by lia. lra. }
    specialize (X w ltac:(lia)). cbv beta in X. destruct (Nat.ltb_spec w (S p)); [auto|lia].
  Qed.

  (** Each new function is a combination of the original ones up to its index. *)
  Lemma on_span a : b_r b' = RArray a -> forall i, (i < n)%nat ->
    exists c, forall j, (j < n)%nat ->
      entry (b_f b') i j = sum (S i) (fun k => c k * entry (b_f b) k j).
  Proof using P Mu Q.
    intros Ea i. induction i as [i IH] using (well_founded_induction lt_wf). intros Hi.
    assert (D := on_diag Ea Hi).
    assert (Cs : forall k, (k <= i)%nat -> exists g : nat -> nat -> R,
      forall l, (l < k)%nat -> (forall j, (j < n)%nat ->
        entry (b_f b') l j = sum (S i) (fun k' => g l k' * entry (b_f b) k' j))).
    { induction k; intros Hk; [exists (fun _ _ => 0); intros; lia|].
      destruct IHk as (g & G); [lia|].
      destruct (IH k) as (c & C); [lia|lia|].
      exists (fun l k' => if Nat.eqb l k then (if Nat.ltb k' (S k) then c k' else 0) else g l k').
      intros l Hl j Hj. destruct (Nat.eqb_spec l k) as [->|]; [|apply G; auto; lia].
      rewrite C by auto. symmetry.
      replace (S i) with (S k + (i - k))%nat by lia.
      assert (Sp : forall d, sum (S k + d)
                (fun k' => (if Nat.ltb k' (S k) then c k' else 0) * entry (b_f b) k' j)
                = sum (S k) (fun k' => c k' * entry (b_f b) k' j)).
      { induction d.
        - rewrite Nat.add_0_r. apply sum_ext. intros i' Hi'.
          destruct (Nat.ltb_spec i' (S k)); [auto|lia].
        - rewrite Nat.add_succ_r, (@sum_S (S k + d)), IHd.
          destruct (Nat.ltb_spec (S k + d) (S k)); [lia|lra]. }
      apply Sp. }
    destruct (Cs i (le_n _)) as (g & G).
    exists (fun k' => ((if Nat.eqb k' i then 1 else 0)
              - sum i (fun l => entry a i l * g l k')) / entry a i i).
    intros j Hj.
    assert (Rb := on_rebuild Ea Hi Hj).
    assert (Cut : sum n (fun k => entry a i k * entry (b_f b') k j) =
                  sum (S i) (fun k => entry a i k * entry (b_f b') k j)).
    { replace n with (S i + (n - S i))%nat by lia.
      assert (Sp : forall d, (S i + d <= n)%nat -> sum (S i + d) (fun k => entry a i k * entry (b_f b') k j)
                = sum (S i) (fun k => entry a i k * entry (b_f b') k j)).
      { induction d; intros Hd; [rewrite Nat.add_0_r; auto|].
        rewrite Nat.add_succ_r, (@sum_S (S i + d)), IHd by lia.
        rewrite (on_lower Ea) by lia. lra. }
      apply Sp. lia. }
    rewrite Cut, sum_S in Rb.
    rewrite (sum_ext (f := fun k => entry a i k * entry (b_f b') k j)
              (g := fun l => sum (S i) (fun k' => entry a i l * g l k' * entry (b_f b) k' j)))
      in Rb.
    2:{ intros l Hl. rewrite (G l Hl j Hj), <- sum_scal. apply sum_ext. intros; lra. }
    rewrite sum_swap in Rb.
    rewrite (sum_ext (g := fun k' => / entry a i i *
        ((if Nat.eqb k' i then entry (b_f b) k' j else 0) -
         sum i (fun l => entry a i l * g l k' * entry (b_f b) k' j)))).
    2:{ intros k' Hk'. rewrite sum_scal_r. destruct (Nat.eqb k' i); field; auto. }
    rewrite sum_scal, sum_minus.
    rewrite (@sum_delta (S i) i (fun k' => entry (b_f b) k' j)) by lia.
    apply (Rmult_eq_reg_l (entry a i i)); auto.
    rewrite <- Rmult_assoc, Rinv_r, Rmult_1_l by auto. lra.
  Qed.

  Lemma on_proper : proper b'.
  Proof using P Mu Q.
    assert (Sp : b_space b' = b_space b).
    { unfold b', orthonormalize. destruct (qr _). auto. }
    unfold proper. rewrite Sp. fold n. split; [apply on_shape|].
    split; [apply n_pos|]. split; [apply on_first|].
    apply orthogonal_independent with (w := m).
    - intros i j Hi Hj D. rewrite on_inner by auto.
      destruct (Nat.eqb_spec i j); [congruence|auto].
    - intros i Hi. rewrite on_inner, Nat.eqb_refl by auto. assert (T := total_pos). lra.
  Qed.
End Orthonormalize.

(** Verdicts: exact values are accepted, and accepted values are near. *)
Lemma close_refl a : close a a = true.
Proof.
  unfold close. destruct (Rle_dec _ _) as [|N]; auto. exfalso. apply N.
  rewrite Rminus_diag_eq, Rabs_R0 by auto. assert (H := Rabs_pos a). lra.
Qed.
Lemma all_close_spec n f g : all_close n f g = true <->
  forall i j, (i < n)%nat -> (j < n)%nat -> close (f i j) (g i j) = true.
Proof.
  unfold all_close. rewrite forallb_forall. split.
  - intros H i j Hi Hj. assert (A := H i (proj2 (in_seq n 0 i) ltac:(lia))).
    rewrite forallb_forall in A. apply A. apply in_seq. lia.
  - intros H i Hi. apply in_seq in Hi. apply forallb_forall. intros j Hj.
    apply in_seq in Hj. apply H; lia.
Qed.
Lemma all_close_eq n f g : (forall i j, (i < n)%nat -> (j < n)%nat -> f i j = g i j) ->
  all_close n f g = true.
Proof. intros H. apply all_close_spec. intros. rewrite H by auto. apply close_refl. Qed.
Lemma close_bound a b : close a b = true -> Rabs (a - b) <= / 100000000 + / 100000 * Rabs b.
Proof. unfold close. destruct (Rle_dec _ _); [auto|discriminate]. Qed.

Lemma entry_prods space f i j : (i < length f)%nat -> (j < length f)%nat ->
  entry (prods space f) i j =
  sum (length space) (fun k => mu space k * entry f i k * entry f j k).
Proof. intros. unfold prods. rewrite entry_build; auto. Qed.
Lemma entry_eye n i j : (i < n)%nat -> (j < n)%nat ->
  entry (eye n) i j = if Nat.eqb i j then 1 else 0.
Proof. intros. unfold eye. rewrite entry_build; auto. Qed.

Lemma total_qsum space : total space = Qc2R (qsum (map snd space)).
Proof.
  unfold total. induction space as [|[s x] l IH].
  - cbn [map qsum]. rewrite Qc2R_0. reflexivity.
  - simpl length. rewrite sum_S_left. cbn [map snd qsum]. rewrite Qc2R_plus, <- IH.
    f_equal.
Qed.

Lemma mu_nth space j p : nth_error space j = Some p -> mu space j = Qc2R (snd p).
Proof.
  intros E. unfold mu, measure. apply nth_error_nth.
  rewrite nth_error_map, E. auto.
Qed.
Lemma mu_pos space : (forall p, In p space -> (0 < snd p)%Qc) ->
  forall j, (j < length space)%nat -> 0 < mu space j.
Proof.
  intros H j Hj. destruct (nth_error space j) as [p|] eqn:E;
    [|apply nth_error_None in E; lia].
  rewrite (mu_nth E). apply Qc2R_pos, H. eapply nth_error_In; eauto.
Qed.

Lemma combination_sum' n c rows j : length c = length rows -> (j < n)%nat ->
  nth j (combination n c rows) 0 = sum (length c) (fun i => nth i c 0 * entry rows i j).
Proof.
  intros C J. unfold combination. rewrite nth_map_seq by auto.
  rewrite (@rsum_combine_sum _ _ _ _ _ 0 [] (length c)); auto.
Qed.
Lemma combination_length n c rows : length (combination n c rows) = n.
Proof. unfold combination. rewrite map_length, seq_length. auto. Qed.

(** Bases made over a site space: the factory, then any number of
    orthonormalisations. *)
Definition qr_ok (qr : mat -> mat * mat) (b : basis) : Prop :=
  qr_of (length (b_space b)) (weighted b) (fst (qr (weighted b))) (snd (qr (weighted b))).
Inductive made (fl : flavor) (space : site_space) : basis -> Prop :=
| made_new b : basis_factory fl space = Some b -> made fl space b
| made_orth b qr : made fl space b -> qr_ok qr b -> made fl space (orthonormalize qr b).

(** Site spaces of two or more different species with positive measure. *)
Definition good_space (space : site_space) : Prop :=
  NoDup (map fst space) /\ (2 <= length space)%nat /\
  forall p, In p space -> (0 < snd p)%Qc.

Lemma made_proper fl space b : good_space space -> made fl space b ->
  proper b /\ b_space b = space.
Proof.
  intros (N & L & Pm) M. induction M as [b E|b qr M (P & S) Q].
  - apply (factory_proper N L E).
  - split.
    + apply on_proper; auto. rewrite S. apply mu_pos; auto.
    + unfold orthonormalize. destruct (qr _). auto.
Qed.

Lemma nth_row (n : nat) f i j : nth j (nth i f []) 0 = entry f i j.
Proof. reflexivity. Qed.

Lemma firstn_entry f k i j : (i < k)%nat -> entry (firstn k f) i j = entry f i j.
Proof.
  intros H. unfold entry. f_equal.
  revert f i H. induction k; intros f i H; [lia|]. destruct f; auto.
  destruct i; simpl; auto. apply IHk. lia.
Qed.

(** After orthonormalising, with measures m_s of total t: inner products of the
    functions are t for equal and 0 for different ones; each new function is a
    combination of the old ones up to its index; the old functions are the
    [orthonormalization_array] times the new ones. *)
Lemma orthonormalize_spec fl space b qr : good_space space -> made fl space b -> qr_ok qr b ->
  let n := length space in
  let b' := orthonormalize qr b in
  (forall i j, (i < n)%nat -> (j < n)%nat ->
     inner space (nth i (all_functions b') []) (nth j (all_functions b') []) =
     if Nat.eqb i j then Qc2R (qsum (map snd space)) else 0) /\
  (forall i, (i < n)%nat -> exists c, length c = (i + 1)%nat /\
     nth i (all_functions b') [] = combination n c (firstn (i + 1) (all_functions b))) /\
  (exists a, b_r b' = RArray a /\ rect n n a /\
     forall i, (i < n)%nat -> nth i (all_functions b) [] =
       combination n (nth i a []) (all_functions b')).
Proof.
  intros G M Q n b'. destruct (made_proper G M) as (P & S).
  assert (Mu : forall j, (j < length (b_space b))%nat -> 0 < mu (b_space b) j).
  { rewrite S. apply mu_pos. apply G. }
  assert (P' := on_proper P Mu Q). fold b' in P'.
  assert (S' : b_space b' = space).
  { unfold b', orthonormalize. destruct (qr _). auto. }
  rewrite (proper_all P), (proper_all P').
  destruct P as ((L & Rw) & Pr). destruct P' as ((L' & Rw') & Pr').
  rewrite S in L, Rw. rewrite S' in L', Rw'. fold n in L, Rw, L', Rw'.
  assert (P := conj (conj L Rw) Pr).
  assert (Row : forall i, (i < n)%nat -> length (nth i (b_f b') []) = n).
  { intros i Hi. apply Rw', nth_In. lia. }
  assert (Row0 : forall i, (i < n)%nat -> length (nth i (b_f b) []) = n).
  { intros i Hi. apply Rw, nth_In. lia. }
  split; [|split].
  - intros i j Hi Hj. rewrite (@inner_sum space _ _ n) by auto.
    rewrite <- total_qsum.
    assert (I := fun i j => @on_inner b qr (proj1 (made_proper G M)) Mu Q i j).
    rewrite S in I. fold n b' in I. apply (I i j); auto.
  - intros i Hi.
    destruct (@on_r b qr (proj1 (made_proper G M))) as (a & Ea & Ra & Va).
    assert (Hi' : (i < length (b_space b))%nat) by (rewrite S; auto).
    destruct (@on_span b qr (proj1 (made_proper G M)) Mu Q a Ea i Hi') as (c & C).
    destruct (list_of (i + 1) c) as (l & Ll & El). exists l. split; auto.
    apply (@nth_ext _ _ _ 0 0).
    + rewrite combination_length. auto.
    + intros j Hj. rewrite Row in Hj by auto.
      rewrite combination_sum' by (auto; rewrite firstn_length; lia).
      change (entry (b_f b') i j = sum (length l) (fun i0 => nth i0 l 0 * entry (firstn (i + 1) (b_f b)) i0 j)).
      unfold b'. rewrite C by (rewrite S; auto).
      rewrite Ll, Nat.add_1_r. apply sum_ext. intros k Hk.
      rewrite El, firstn_entry by lia. auto.
  - destruct (@on_r b qr (proj1 (made_proper G M))) as (a & Ea & Ra & Va).
    rewrite S in Ra, Va. fold n in Ra, Va. exists a. split; auto. split; auto.
    intros i Hi. apply (@nth_ext _ _ _ 0 0).
    + rewrite combination_length. auto.
    + intros j Hj. rewrite Row0 in Hj by auto.
      rewrite combination_sum; auto.
      * change (entry (b_f b) i j = sum n (fun k => entry a i k * entry (b_f b') k j)).
        assert (B := @on_rebuild b qr (proj1 (made_proper G M)) Mu Q a Ea i j).
        rewrite S in B. apply B; auto.
      * apply Ra, nth_In. destruct Ra as (-> & _). auto.
Qed.

Lemma is_orthonormal_exact b n : length (b_space b) = n -> rect n n (b_f b) ->
  (forall i j, (i < n)%nat -> (j < n)%nat ->
     inner (b_space b) (nth i (b_f b) []) (nth j (b_f b) []) = if Nat.eqb i j then 1 else 0) ->
  is_orthonormal b = true.
Proof.
  intros S (L & Rw) H. unfold is_orthonormal. rewrite L. apply all_close_eq.
  intros i j Hi Hj. rewrite entry_prods, entry_eye by (auto; lia).
  rewrite <- (H i j Hi Hj). rewrite (@inner_sum _ _ _ n); auto.
  - rewrite S. auto.
  - apply Rw, nth_In. lia.
  - apply Rw, nth_In. lia.
Qed.

(** With measures that sum to one, orthonormalising gives orthonormal functions
    (the first is the constant), the verdict is positive, spans are kept, and
    the returned array takes the new functions back to the old ones.
    Missing: site spaces whose measures do not sum to one. *)
Theorem C80_orthonormal_partial fl space b qr :
  good_space space -> qsum (map snd space) = 1%Qc -> made fl space b -> qr_ok qr b ->
  let n := length space in
  let b' := orthonormalize qr b in
  is_orthonormal b' = true /\
  (forall i j, (i < n)%nat -> (j < n)%nat ->
     inner space (nth i (all_functions b') []) (nth j (all_functions b') []) =
     if Nat.eqb i j then 1 else 0) /\
  (forall i, (i < n)%nat -> exists c, length c = (i + 1)%nat /\
     nth i (all_functions b') [] = combination n c (firstn (i + 1) (all_functions b))) /\
  (exists a, b_r b' = RArray a /\
     forall i, (i < n)%nat -> nth i (all_functions b) [] =
       combination n (nth i a []) (all_functions b')).
Proof.
  intros G T M Q n b'. destruct (orthonormalize_spec G M Q) as (A & B & (a & Ea & _ & C)).
  fold n b' in A, B, Ea, C. rewrite T, Qc2R_1 in A.
  assert (M' : made fl space b') by (apply made_orth; auto).
  destruct (made_proper G M') as (P' & S').
  split; [|split; [exact A|split; [exact B|exists a; auto]]].
  rewrite (proper_all P') in A.
  apply (@is_orthonormal_exact b' n); [rewrite S'; auto| |rewrite S'; exact A].
  destruct P' as (R & _). rewrite S' in R. exact R.
Qed.

(** Any further orthonormalisation, also with other signs, is again one of
    orthonormal functions; in particular the functions change by signs at most. *)
Theorem C80_again fl space b qr qr2 :
  good_space space -> qsum (map snd space) = 1%Qc -> made fl space b ->
  qr_ok qr b -> qr_ok qr2 (orthonormalize qr b) ->
  let n := length space in
  let f := all_functions (orthonormalize qr b) in
  let g := all_functions (orthonormalize qr2 (orthonormalize qr b)) in
  forall i, (i < n)%nat -> nth i g [] = nth i f [] \/ nth i g [] = map Ropp (nth i f []).
Proof.
  intros G T M Q Q2 n f g.
  assert (M1 : made fl space (orthonormalize qr b)) by (apply made_orth; auto).
  assert (M2 : made fl space (orthonormalize qr2 (orthonormalize qr b))) by (apply made_orth; auto).
  set (b1 := orthonormalize qr b) in *. set (b2 := orthonormalize qr2 b1) in *.
  destruct (made_proper G M1) as (P1 & S1). destruct (made_proper G M2) as (P2 & S2).
  assert (Mu : forall j, (j < length (b_space b1))%nat -> 0 < mu (b_space b1) j).
  { rewrite S1. apply mu_pos. apply G. }
  destruct (@on_r b1 qr2 P1) as (a & Ea & Ra & Va). fold b2 in Ea.
  assert (I1 := fun i j => @on_inner b qr (proj1 (made_proper G M))
     (eq_ind_r (fun s => forall j, (j < length s)%nat -> 0 < mu s j)
        (mu_pos (proj2 (proj2 G))) (proj2 (made_proper G M))) Q i j).
  assert (S0 := proj2 (made_proper G M)). rewrite S0 in I1. fold b1 n in I1.
  assert (I2 := fun i j => @on_inner b1 qr2 P1 Mu Q2 i j). rewrite S1 in I2. fold b2 n in I2.
  rewrite total_qsum, T, Qc2R_1 in I1, I2.
  assert (Rb := fun i j => @on_rebuild b1 qr2 P1 Mu Q2 a Ea i j). rewrite S1 in Rb. fold b2 n in Rb.
  assert (Lo := fun i j => @on_lower b1 qr2 P1 Mu Q2 a Ea i j). rewrite S1 in Lo. fold n in Lo.
  assert (Di := fun i => @on_diag b1 qr2 P1 Mu Q2 a Ea i). rewrite S1 in Di. fold n in Di.
  (* the rows of [a] are orthonormal *)
  assert (O : forall i j, (i < n)%nat -> (j < n)%nat ->
            sum n (fun k => entry a i k * entry a j k) = if Nat.eqb i j then 1 else 0).
  { intros i j Hi Hj. rewrite <- (I1 i j) by auto.
    rewrite (sum_ext (f := fun k => mu space k * entry (b_f b1) i k * entry (b_f b1) j k)
       (g := fun k => sum n (fun u => sum n (fun v => entry a i u * entry a j v *
          (mu space k * entry (b_f b2) u k * entry (b_f b2) v k))))).
    - rewrite sum_swap. apply sum_ext. intros u Hu. rewrite sum_swap.
      rewrite (sum_ext (g := fun v => if Nat.eqb v u then entry a i u * entry a j v else 0)).
      + rewrite (@sum_delta n u (fun v => entry a i u * entry a j v)) by auto. auto.
      + intros v Hv. rewrite sum_scal, I2 by auto. rewrite Nat.eqb_sym.
        destruct (Nat.eqb v u); lra.
    - intros k Hk. rewrite !Rb by auto.
      rewrite Rmult_assoc, <- sum_scal_r, <- sum_scal. apply sum_ext. intros u Hu.
      rewrite <- sum_scal, <- sum_scal. apply sum_ext. intros v Hv. lra. }
  (* a lower triangular matrix with orthonormal rows is diagonal with signs *)
  assert (Dg : forall j, (j < n)%nat -> forall i, (j < i)%nat -> (i < n)%nat -> entry a i j = 0).
  { intros j. induction j as [j IH] using (well_founded_induction lt_wf).
    intros Hj i Hji Hi. specialize (O i j Hi Hj) as Oij.
    destruct (Nat.eqb_spec i j); [lia|].
    rewrite (sum_ext (g := fun k => if Nat.eqb k j then entry a i k * entry a j k else 0)) in Oij.
    - rewrite (@sum_delta n j (fun k => entry a i k * entry a j k)) in Oij by auto.
      destruct (Rmult_integral _ _ Oij) as [|Z]; auto. destruct (Di j Hj Z).
    - intros k Hk. destruct (Nat.eqb_spec k j); auto.
      destruct (Nat.lt_ge_cases k j).
      + rewrite (IH k) by lia. lra.
      + rewrite (Lo j k) by lia. lra. }
  intros i Hi. unfold f, g. rewrite (proper_all P1), (proper_all P2).
  assert (Ai : entry a i i = 1 \/ entry a i i = -1).
  { specialize (O i i Hi Hi). rewrite Nat.eqb_refl in O.
    rewrite (sum_ext (g := fun k => if Nat.eqb k i then entry a i k * entry a i k else 0)) in O.
    - rewrite (@sum_delta n i (fun k => entry a i k * entry a i k)) in O by auto.
      assert (Z : (entry a i i - 1) * (entry a i i + 1) = 0) by lra.
      destruct (Rmult_integral _ _ Z); [left|right]; lra.
    - intros k Hk. destruct (Nat.eqb_spec k i); auto.
      destruct (Nat.lt_ge_cases k i).
      + rewrite (Dg k) by lia. lra.
      + rewrite (Lo i k) by lia. lra. }
  assert (V : forall j, (j < n)%nat -> entry (b_f b1) i j = entry a i i * entry (b_f b2) i j).
  { intros j Hj. rewrite Rb by auto.
    rewrite (sum_ext (g := fun k => if Nat.eqb k i then entry a i k * entry (b_f b2) k j else 0)).
    - apply (@sum_delta n i (fun k => entry a i k * entry (b_f b2) k j)). auto.
    - intros k Hk. destruct (Nat.eqb_spec k i); auto.
      destruct (Nat.lt_ge_cases k i).
      + rewrite (Dg k) by lia. lra.
      + rewrite (Lo i k) by lia. lra. }
  destruct P1 as ((L1 & R1) & _), P2 as ((L2 & R2) & _).
  rewrite S1 in L1, R1. rewrite S2 in L2, R2. fold n in L1, R1, L2, R2.
  assert (W1 : length (nth i (b_f b1) []) = n) by (apply R1, nth_In; lia).
  assert (W2 : length (nth i (b_f b2) []) = n) by (apply R2, nth_In; lia).
  destruct Ai as [Ai|Ai]; [left|right]; apply (@nth_ext _ _ _ 0 0).
  - congruence.
  - intros j Hj. rewrite W2 in Hj. specialize (V j Hj). rewrite Ai in V.
    unfold entry in V. lra.
  - rewrite map_length. congruence.
  - intros j Hj. rewrite W2 in Hj. specialize (V j Hj). rewrite Ai in V.
    rewrite (nth_indep (map Ropp _) 0 (- 0)) by (rewrite map_length; lia).
    rewrite map_nth. unfold entry in V. lra.
Qed.

(** A factorisation for two species. *)
Definition qr2 (a : mat) : mat * mat :=
  let h := sqrt (entry a 0 0 * entry a 0 0 + entry a 1 0 * entry a 1 0) in
  let q := build 2 2 (fun i j =>
    match i, j with
    | O, O => entry a 0 0 / h | O, _ => - entry a 1 0 / h
    | _, O => entry a 1 0 / h | _, _ => entry a 0 0 / h
    end) in
  (q, build 2 2 (fun i j => entry q 0 i * entry a 0 j + entry q 1 i * entry a 1 j)).

Lemma qr2_of a : rect 2 2 a -> 0 < entry a 0 0 ->
  qr_of 2 a (fst (qr2 a)) (snd (qr2 a)).
Proof.
  intros Ra P. set (x := entry a 0 0) in *. set (y := entry a 1 0).
  set (h := sqrt (x * x + y * y)).
  assert (Pos : 0 < x * x + y * y).
  { assert (0 < x * x) by (apply Rmult_lt_0_compat; auto). assert (Y := Rle_0_sqr y).
    unfold Rsqr in Y. lra. }
  assert (H : 0 < h) by (apply sqrt_lt_R0; auto).
  assert (HH : h * h = x * x + y * y) by (apply sqrt_sqrt; lra).
  assert (HI : / h * / h * (x * x + y * y) = 1) by (rewrite <- HH; field; lra).
  unfold qr2. fold x y. fold h.
  set (q := build 2 2 _). cbn [fst snd].
  assert (Q00 : entry q 0 0 = x / h) by (unfold q; rewrite entry_build; auto).
  assert (Q01 : entry q 0 1 = - y / h) by (unfold q; rewrite entry_build; auto).
  assert (Q10 : entry q 1 0 = y / h) by (unfold q; rewrite entry_build; auto).
  assert (Q11 : entry q 1 1 = x / h) by (unfold q; rewrite entry_build; auto).
  split; [apply build_rect|]. split; [apply build_rect|]. split; [|split].
  - intros i j Hi Hj. rewrite !sum_S, sum_0.
    destruct i as [|[|i]]; [| |lia]; destruct j as [|[|j]]; try lia;
      rewrite ?Q00, ?Q01, ?Q10, ?Q11; simpl; unfold Rdiv; nra.
  - intros i j Hi Hj. rewrite !sum_S, sum_0. rewrite !entry_build by lia.
    fold x y.
    destruct i as [|[|i]]; [| |lia]; destruct j as [|[|j]]; try lia;
      rewrite ?Q00, ?Q01, ?Q10, ?Q11; fold x y; unfold Rdiv.
    + transitivity (x * (/ h * / h * (x * x + y * y))); [rewrite HI|]; lra.
    + transitivity (entry a 0 1 * (/ h * / h * (x * x + y * y))); [rewrite HI|]; lra.
    + transitivity (y * (/ h * / h * (x * x + y * y))); [rewrite HI|]; lra.
    + transitivity (entry a 1 1 * (/ h * / h * (x * x + y * y))); [rewrite HI|]; lra.
  - intros i j Hji Hi. destruct i as [|[|i]]; [lia| |lia]. destruct j as [|j]; [|lia].
    rewrite entry_build by lia. rewrite Q01, Q11. fold x y. unfold Rdiv. lra.
Qed.

Lemma qr2_ok fl space b : good_space space -> length space = 2%nat -> made fl space b ->
  qr_ok qr2 b.
Proof.
  intros G L M. destruct (made_proper G M) as (P & S). unfold qr_ok. rewrite S, L.
  destruct P as ((Lf & _) & _ & One & _). rewrite S, L in Lf, One.
  assert (W : weighted b = build 2 2 (fun j i => sqrt (mu space j) * entry (b_f b) i j)).
  { unfold weighted. rewrite S, L, Lf. auto. }
  apply qr2_of.
  - rewrite W. apply build_rect.
  - rewrite W, entry_build by lia. rewrite One by lia.
    assert (0 < mu space 0) by (apply mu_pos; [apply G|lia]).
    assert (X := sqrt_lt_R0 _ H). lra.
Qed.

(** The example: an Ising-like space, uniform and with concentrations. *)
Definition two (x y : Qc) : site_space := [(Sp 0, x); (Sp 1, y)].
Lemma two_good x y : (0 < x)%Qc -> (0 < y)%Qc -> good_space (two x y).
Proof.
  intros X Y. split; [|split].
  - simpl. constructor; [simpl; intuition discriminate|]. constructor; [auto|constructor].
  - simpl. lia.
  - intros p [<-|[<-|[]]]; auto.
Qed.

Example C80_case : good_space (two (Qc_frac 1 4) (Qc_frac 3 4)) /\
  qsum (map snd (two (Qc_frac 1 4) (Qc_frac 3 4))) = 1%Qc /\
  exists b, made Indicator (two (Qc_frac 1 4) (Qc_frac 3 4)) b /\ qr_ok qr2 b /\
    qr_ok qr2 (orthonormalize qr2 b) /\ is_orthonormal b = false.
Proof.
  assert (G : good_space (two (Qc_frac 1 4) (Qc_frac 3 4))) by (apply two_good; reflexivity).
  split; auto. split; [apply Qc_is_canon; reflexivity|].
  destruct G as (N & L & Pm). assert (G := conj N (conj L Pm)).
  eexists. assert (M := made_new (factory Indicator N L)). split; [exact M|].
  assert (Q := qr2_ok G eq_refl M). split; [exact Q|]. split.
  - apply (@qr2_ok Indicator _ _ G eq_refl). apply made_orth; auto.
  - unfold is_orthonormal. apply not_true_is_false. intros A.
    rewrite all_close_spec in A. simpl b_f in A. rewrite length_build in A.
    specialize (A 0%nat 1%nat ltac:(simpl; lia) ltac:(simpl; lia)).
    apply close_bound in A. rewrite entry_eye in A by (simpl; lia). simpl b_space in A.
    rewrite entry_prods in A by (rewrite length_build; simpl; lia).
    simpl length in A. rewrite !sum_S, sum_0 in A.
    rewrite !entry_build in A by lia.
    rewrite (@mu_nth _ 0 (Sp 0, Qc_frac 1 4)), (@mu_nth _ 1 (Sp 1, Qc_frac 3 4)) in A by auto.
    cbn [fullval fval Nat.eqb snd] in A. rewrite Rabs_R0 in A.
    assert (H4 : Qc2R (Qc_frac 1 4) = / 4).
    { unfold Qc2R. rewrite (Qeq_eqR _ (1 # 4)) by reflexivity. unfold Q2R. simpl. lra. }
    rewrite H4 in A. assert (X := Rle_abs (0 + / 4 * 1 * 1 + Qc2R (Qc_frac 3 4) * 1 * 0 - 0)). lra.
Qed.

(** False in general: a site space whose measures do not sum to one.  The
    composition with 0.5 and 0.495 makes such a space, because a vacancy is
    added only below 0.99.  Orthonormalising its basis by any factorisation
    gives functions that are judged not orthonormal; there are such
    factorisations. *)
Theorem C80_measure_refuted :
  exists leb comp space, mk_site_space leb comp = Some space /\ good_space space /\
    forall fl, exists b, basis_factory fl space = Some b /\
      (exists qr, qr_ok qr b) /\
      forall qr, qr_ok qr b -> is_orthonormal (orthonormalize qr b) = false.
Proof.
  set (space := two (Qc_frac 1 2) (Qc_frac 99 200)).
  exists (fun _ _ => true), space, space.
  split; [reflexivity|].
  assert (G : good_space space) by (apply two_good; reflexivity).
  split; auto. destruct G as (N & L & Pm). assert (G := conj N (conj L Pm)).
  intros fl. eexists. split; [apply (factory fl N L)|].
  assert (M := made_new (factory fl N L)).
  split; [exists qr2; apply (qr2_ok G eq_refl M)|].
  intros qr Q. destruct (orthonormalize_spec G M Q) as (A & _).
  assert (M' : made fl space (orthonormalize qr (MkBasis space fl
    (build (length space) (length space) (fullval fl (length space))) RNone
    (eye (length space))))) by (apply made_orth; auto).
  set (b' := orthonormalize _ _) in *.
  destruct (made_proper G M') as (P & S). rewrite (proper_all P) in A.
  destruct P as ((Lf & Rw) & _). rewrite S in Lf, Rw.
  apply not_true_is_false. intros B. unfold is_orthonormal in B.
  rewrite all_close_spec, Lf in B.
  specialize (B 0%nat 0%nat ltac:(simpl; lia) ltac:(simpl; lia)).
  apply close_bound in B. rewrite entry_eye in B by (simpl; lia).
  rewrite entry_prods in B by (rewrite Lf; simpl; lia). rewrite S in B.
  specialize (A 0%nat 0%nat ltac:(simpl; lia) ltac:(simpl; lia)).
  rewrite (@inner_sum space _ _ 2) in A; auto;
    [|apply Rw, nth_In; rewrite Lf; simpl; lia|apply Rw, nth_In; rewrite Lf; simpl; lia].
  change (length space) with 2%nat in B.
  unfold entry in B. rewrite A in B. cbn [Nat.eqb] in B.
  assert (T : Qc2R (qsum (map snd space)) = 995 / 1000).
  { assert (E : qsum (map snd space) = Qc_frac 995 1000) by (apply Qc_is_canon; reflexivity).
    rewrite E. unfold Qc2R. rewrite (Qeq_eqR _ (995 # 1000)) by reflexivity.
    unfold Q2R. simpl. lra. }
  rewrite T, Rabs_R1 in B.
  assert (X := Rle_abs (-(995 / 1000 - 1))). rewrite Rabs_Ropp in X. lra.
Qed.

(** ** C81 *)

(** Calls of [rotate]; a call that raises leaves the basis as it is. *)
Definition call := (R * (Z * Z))%type.
Definition rotate_call (b : basis) (c : call) : basis :=
  match rotate (fst c) (fst (snd c)) (snd (snd c)) b with Some b' => b' | None => b end.
Definition rotate_all (calls : list call) (b : basis) : basis :=
  fold_left rotate_call calls b.

(** An orthogonal basis (with the constant first) over a uniform measure. *)
Definition uniform (space : site_space) : Prop :=
  exists x, (0 < x)%Qc /\ forall p, In p space -> snd p = x.
Definition orthogonal (b : basis) : Prop :=
  let n := length (b_space b) in
  rect n n (b_f b) /\ (0 < n)%nat /\ nth 0 (b_f b) [] = repeat 1 n /\
  forall i j, (i < n)%nat -> (j < n)%nat ->
    (i = j <-> inner (b_space b) (nth i (b_f b) []) (nth j (b_f b) []) <> 0).

(** The two indices do not name the same function (a negative index counts from
    the end). *)
Definition distinct_functions (n : nat) (c : call) : Prop :=
  ((fst (snd c) - snd (snd c)) mod (Z.of_nat n - 1) <> 0)%Z.

Section Rotation.
  Variables (n : nat) (v1 v2 : nat -> R) (angle : R).
  Hypothesis N1 : sum n (fun k => v1 k * v1 k) = 1.
  Hypothesis N2 : sum n (fun k => v2 k * v2 k) = 1.
  Hypothesis O12 : sum n (fun k => v1 k * v2 k) = 0.
  Let r := rotation n angle v1 v2.
  Let al i := sin angle * v2 i + (cos angle - 1) * v1 i.
  Let be i := - sin angle * v1 i + (cos angle - 1) * v2 i.

  Lemma rot_entry i j : (i < n)%nat -> (j < n)%nat ->
    entry r i j = (if Nat.eqb i j then 1 else 0) + v1 i * al j + v2 i * be j.
  Proof using.
    intros Hi Hj. unfold r, rotation. rewrite entry_build by auto. unfold al, be.
    destruct (Nat.eqb i j); lra.
  Qed.

  Lemma sum_delta_l f j : (j < n)%nat ->
    sum n (fun k => (if Nat.eqb k j then 1 else 0) * f k) = f j.
  Proof using.
    intros H. rewrite <- (@sum_delta n j f) by auto. apply sum_ext.
    intros k _. destruct (Nat.eqb k j); lra.
  Qed.

  Lemma rot_orth i j : (i < n)%nat -> (j < n)%nat ->
    sum n (fun k => entry r k i * entry r k j) = if Nat.eqb i j then 1 else 0.
  Proof using N1 N2 O12.
    intros Hi Hj.
    rewrite (sum_ext (g := fun k =>
      (if Nat.eqb k i then 1 else 0) * ((if Nat.eqb k j then 1 else 0) + v1 k * al j + v2 k * be j)
      + ((if Nat.eqb k j then 1 else 0) * (v1 k * al i + v2 k * be i)
      + (al i * al j * (v1 k * v1 k) + ((be i * be j) * (v2 k * v2 k)
      + (al i * be j + be i * al j) * (v1 k * v2 k)))))).
    2:{ intros k Hk. rewrite !rot_entry by auto. lra. }
    rewrite !sum_plus, !sum_scal, N1, N2, O12.
    rewrite (@sum_delta_l (fun k => (if Nat.eqb k j then 1 else 0) + v1 k * al j + v2 k * be j)) by auto.
    rewrite (@sum_delta_l (fun k => v1 k * al i + v2 k * be i)) by auto.
    assert (C := sin2_cos2 angle). unfold Rsqr in C. unfold al, be.
    set (s := sin angle) in *. set (c := cos angle) in *.
    set (a1 := v1 i). set (b1 := v1 j). set (a2 := v2 i). set (b2 := v2 j).
    transitivity ((if Nat.eqb i j then 1 else 0) +
      (s * s + c * c - 1) * (a1 * b1 + a2 * b2)); [ring|rewrite C; ring].
  Qed.

  Lemma rot_ones j : sum n v1 = 0 -> sum n v2 = 0 -> (j < n)%nat ->
    sum n (fun i => entry r i j) = 1.
  Proof using.
    intros Z1 Z2 Hj.
    rewrite (sum_ext (g := fun i => (if Nat.eqb i j then 1 else 0) * 1 + (v1 i * al j + v2 i * be j))).
    - rewrite !sum_plus, !sum_scal_r, Z1, Z2.
      rewrite <- sum_scal_r, (@sum_delta_l (fun _ => 1)) by auto. lra.
    - intros i Hi. rewrite rot_entry by auto. lra.
  Qed.
End Rotation.

Lemma uniform_mu space x j : (forall p, In p space -> snd p = x) -> (j < length space)%nat ->
  mu space j = Qc2R x.
Proof.
  intros H L. destruct (nth_error space j) as [p|] eqn:E; [|apply nth_error_None in E; lia].
  rewrite (mu_nth E), H; auto. eapply nth_error_In; eauto.
Qed.

(** Inner products without the constant measure. *)
Definition dot n (f : mat) i j := sum n (fun k => entry f i k * entry f j k).

Section RotateOnce.
  Variables (b b' : basis) (x : Qc) (angle : R) (i1 i2 : Z).
  Let n := length (b_space b).
  Hypothesis X : (0 < x)%Qc.
  Hypothesis U : forall p, In p (b_space b) -> snd p = x.
  Hypothesis Ortho : orthogonal b.
  Hypothesis N3 : (3 <= n)%nat.

  Lemma inner_dot f i j : rect n n f -> (i < n)%nat -> (j < n)%nat ->
    inner (b_space b) (nth i f []) (nth j f []) = Qc2R x * dot n f i j.
  Proof using U N3.
    intros (L & Rw) Hi Hj.
    rewrite (@inner_sum _ _ _ n); auto; try (apply Rw, nth_In; lia).
    unfold dot. rewrite <- sum_scal. apply sum_ext. intros k Hk.
    rewrite (uniform_mu U) by auto. unfold entry. lra.
  Qed.
  Lemma x_pos : 0 < Qc2R x.
  Proof using X. apply Qc2R_pos, X. Qed.
  Lemma shape : rect n n (b_f b).
  Proof using Ortho. apply Ortho. Qed.
  Lemma dot_zero i j : (i < n)%nat -> (j < n)%nat -> i <> j -> dot n (b_f b) i j = 0.
  Proof using U Ortho X N3.
    intros Hi Hj D. destruct Ortho as (R & _ & _ & O). specialize (O i j Hi Hj).
    rewrite inner_dot in O by auto. assert (P := x_pos).
    destruct (Req_EM_T (dot n (b_f b) i j) 0) as [|Z]; auto. exfalso. apply D, O.
    intros E. destruct (Rmult_integral _ _ E); lra.
  Qed.
  Lemma dot_pos i : (i < n)%nat -> 0 < dot n (b_f b) i i.
  Proof using U Ortho X N3.
    intros Hi. destruct Ortho as (R & _ & _ & O). specialize (O i i Hi Hi).
    rewrite inner_dot in O by auto.
    assert (G : 0 <= dot n (b_f b) i i).
    { apply sum_nonneg. intros k _. apply Rle_0_sqr. }
    destruct (Rle_lt_or_eq_dec _ _ G) as [|Z]; auto. exfalso.
    apply (proj1 O eq_refl). rewrite <- Z. lra.
  Qed.
  Lemma first_one k : (k < n)%nat -> entry (b_f b) 0 k = 1.
  Proof using Ortho N3.
    intros Hk. destruct Ortho as (_ & _ & E & _). unfold entry. rewrite E.
    rewrite (nth_indep _ 0 1) by (rewrite repeat_length; auto). apply nth_repeat.
  Qed.
  Lemma row_sum i : (0 < i)%nat -> (i < n)%nat -> sum n (fun k => entry (b_f b) i k) = 0.
  Proof using U Ortho X N3.
    intros Hi Hn. rewrite <- (@dot_zero i 0%nat) by lia. unfold dot.
    apply sum_ext. intros k Hk. rewrite first_one by auto. lra.
  Qed.

  Let row i := entry (function_array b) (py_index (length (function_array b)) i).
  Let v i := fun k => row i k / norm n (row i).

  Lemma length_functions : length (function_array b) = (n - 1)%nat.
  Proof using Ortho N3.
    destruct shape as (L & _). unfold function_array. destruct (b_f b); simpl in *; lia.
  Qed.
  Lemma row_entry i k : row i k = entry (b_f b) (S (py_index (n - 1) i)) k.
  Proof using Ortho N3.
    unfold row. rewrite length_functions. unfold function_array, entry.
    destruct shape as (L & _). destruct (b_f b); auto. simpl. destruct (py_index (n - 1) i); auto.
  Qed.

  Lemma index_range i : (Z.abs i <= Z.of_nat n - 2)%Z -> (S (py_index (n - 1) i) < n)%nat.
  Proof using N3. intros H. unfold py_index. destruct (Z.ltb_spec i 0); lia. Qed.

  Lemma norm_sq i : (Z.abs i <= Z.of_nat n - 2)%Z ->
    0 < norm n (row i) /\
    norm n (row i) * norm n (row i) = dot n (b_f b) (S (py_index (n - 1) i)) (S (py_index (n - 1) i)).
  Proof using U Ortho X N3.
    intros H. assert (I := index_range H). assert (D := dot_pos I).
    assert (E : sum n (fun k => row i k * row i k) =
      dot n (b_f b) (S (py_index (n - 1) i)) (S (py_index (n - 1) i))).
    { unfold dot. apply sum_ext. intros. rewrite row_entry. auto. }
    unfold norm. rewrite E. split; [apply sqrt_lt_R0; auto|apply sqrt_sqrt; lra].
  Qed.

  Lemma v_unit i : (Z.abs i <= Z.of_nat n - 2)%Z -> sum n (fun k => v i k * v i k) = 1.
  Proof using U Ortho X N3.
    intros H. destruct (norm_sq H) as (P & E). set (w := norm n (row i)) in *.
    rewrite (sum_ext (g := fun k => / (w * w) *
      (entry (b_f b) (S (py_index (n - 1) i)) k * entry (b_f b) (S (py_index (n - 1) i)) k))).
    - rewrite sum_scal. fold (dot n (b_f b) (S (py_index (n - 1) i)) (S (py_index (n - 1) i))).
      rewrite <- E. field. lra.
    - intros k Hk. unfold v. rewrite row_entry. fold w. field. lra.
  Qed.
  Lemma v_orth : (Z.abs i1 <= Z.of_nat n - 2)%Z -> (Z.abs i2 <= Z.of_nat n - 2)%Z ->
    py_index (n - 1) i1 <> py_index (n - 1) i2 -> sum n (fun k => v i1 k * v i2 k) = 0.
  Proof using U Ortho X N3.
    intros H1 H2 D. destruct (norm_sq H1) as (P1 & _), (norm_sq H2) as (P2 & _).
    rewrite (sum_ext (g := fun k => / (norm n (row i1) * norm n (row i2)) *
      (entry (b_f b) (S (py_index (n - 1) i1)) k * entry (b_f b) (S (py_index (n - 1) i2)) k))).
    - rewrite sum_scal. fold (dot n (b_f b) (S (py_index (n - 1) i1)) (S (py_index (n - 1) i2))).
      rewrite dot_zero by (try apply index_range; auto; lia). lra.
    - intros k Hk. unfold v. rewrite !row_entry. field. lra.
  Qed.
  Lemma v_sum i : (Z.abs i <= Z.of_nat n - 2)%Z -> sum n (v i) = 0.
  Proof using U Ortho X N3.
    intros H. destruct (norm_sq H) as (P & _).
    rewrite (sum_ext (g := fun k => / norm n (row i) * entry (b_f b) (S (py_index (n - 1) i)) k)).
    - rewrite sum_scal, row_sum by (try apply index_range; auto; lia). lra.
    - intros k Hk. unfold v. rewrite row_entry. field. lra.
  Qed.

  Lemma distinct_index : distinct_functions n (angle, (i1, i2)) ->
    (Z.abs i1 <= Z.of_nat n - 2)%Z -> (Z.abs i2 <= Z.of_nat n - 2)%Z ->
    py_index (n - 1) i1 <> py_index (n - 1) i2.
  Proof using N3.
    unfold distinct_functions. simpl. intros D H1 H2 E. apply D. clear D.
    assert (A : (i1 = i2 \/ i1 - i2 = Z.of_nat n - 1 \/ i1 - i2 = - (Z.of_nat n - 1))%Z).
    { unfold py_index in E.
      destruct (Z.ltb_spec i1 0), (Z.ltb_spec i2 0); lia. }
    destruct A as [-> |[-> | ->]].
    - rewrite Z.sub_diag. apply Z.mod_0_l. lia.
    - apply Z.mod_same. lia.
    - rewrite <- (Z.mul_1_l (Z.of_nat n - 1)) at 1. rewrite <- Z.mul_opp_l.
      apply Z.mod_mul. lia.
  Qed.

  Hypothesis E : rotate angle i1 i2 b = Some b'.

  Lemma rotate_shape :
    let rot := rotation n angle (v i1) (v i2) in
    (Z.abs i1 <= Z.of_nat n - 2)%Z /\ (Z.abs i2 <= Z.of_nat n - 2)%Z /\
    b_space b' = b_space b /\ rect n n (b_f b') /\
    (forall j, (j < n)%nat -> entry (b_f b') 0 j = entry (b_f b) 0 j) /\
    (forall i j, (0 < i < n)%nat -> (j < n)%nat ->
       entry (b_f b') i j = sum n (fun k => entry (b_f b) i k * entry rot j k)) /\
    b_rot b' = mul n rot (b_rot b) /\ b_r b' = b_r b /\ b_flavor b' = b_flavor b.
  Proof using E Ortho N3.
    unfold rotate in E. fold n in E. destruct (_ && _); [discriminate|].
    destruct (Nat.eqb_spec n 2); [lia|].
    destruct (Z.eqb_spec i1 i2); [discriminate|].
    destruct (Z.gtb_spec (Z.abs i1) (Z.of_nat n - 2)); [discriminate|].
    destruct (Z.gtb_spec (Z.abs i2) (Z.of_nat n - 2)); [discriminate|].
    fold (row i1) (row i2) in E. fold (v i1) (v i2) in E.
    assert (L : length (b_f b) = n) by apply shape.
    inversion E as [E']; clear E'. cbn [b_space b_f b_rot b_r b_flavor]. rewrite L.
    split; [lia|]. split; [lia|]. split; auto. split; [apply build_rect|].
    split; [|split; [|split; [|split]]]; auto.
    - intros j Hj. rewrite entry_build by lia. auto.
    - intros i j Hi Hj. rewrite entry_build by lia. destruct i; [lia|]. auto.
  Qed.

  Hypothesis D : distinct_functions n (angle, (i1, i2)).

  (** One accepted call: an orthogonal matrix acts on all functions. *)
  Lemma rotate_once :
    b_space b' = b_space b /\ rect n n (b_f b') /\
    (forall i j, (i < n)%nat -> (j < n)%nat -> dot n (b_f b') i j = dot n (b_f b) i j) /\
    nth 0 (b_f b') [] = repeat 1 n /\
    exists r, b_rot b' = mul n r (b_rot b) /\
      (forall i j, (i < n)%nat -> (j < n)%nat ->
         sum n (fun k => entry r k i * entry r k j) = if Nat.eqb i j then 1 else 0) /\
      (forall i j, (0 < i < n)%nat -> (j < n)%nat ->
         entry (b_f b') i j = sum n (fun k => entry r j k * entry (b_f b) i k)).
  Proof using X U Ortho N3 E D.
    destruct rotate_shape as (H1 & H2 & S & Sh & F0 & Fi & Rt & _).
    assert (Di := distinct_index D H1 H2).
    assert (RO := @rot_orth n (v i1) (v i2) angle (v_unit H1) (v_unit H2) (v_orth H1 H2 Di)).
    assert (R1 := fun j => @rot_ones n (v i1) (v i2) angle j (v_sum H1) (v_sum H2)).
    set (r := rotation n angle (v i1) (v i2)) in *.
    assert (One : forall k, (k < n)%nat -> entry (b_f b') 0 k = 1).
    { intros k Hk. rewrite F0 by auto. apply first_one. auto. }
    split; auto. split; auto. split; [|split].
    - assert (Z : forall i, (0 < i < n)%nat -> dot n (b_f b') i 0 = 0).
      { intros i Hi. unfold dot.
        rewrite (sum_ext (g := fun k => sum n (fun l => entry (b_f b) i l * entry r k l))).
        - rewrite sum_swap.
          rewrite (sum_ext (g := fun l => entry (b_f b) i l)).
          + apply row_sum; lia.
          + intros l Hl. rewrite sum_scal, R1 by auto. lra.
        - intros k Hk. rewrite One, Fi by auto. lra. }
      assert (Sym : forall f i j, dot n f i j = dot n f j i).
      { intros. apply sum_ext. intros; lra. }
      intros i j Hi Hj.
      destruct (Nat.eq_dec i 0) as [->|Ni], (Nat.eq_dec j 0) as [->|Nj].
      + unfold dot. apply sum_ext. intros k Hk. rewrite !F0 by auto. auto.
      + rewrite Sym, Z, Sym, dot_zero by lia. auto.
      + rewrite Z, dot_zero by lia. auto.
      + unfold dot at 1.
        rewrite (sum_ext (g := fun k => sum n (fun l => sum n (fun l' =>
          entry (b_f b) i l * entry (b_f b) j l' * (entry r k l * entry r k l'))))).
        * rewrite sum_swap. unfold dot. apply sum_ext. intros l Hl. rewrite sum_swap.
          rewrite (sum_ext (g := fun l' => if Nat.eqb l' l
                     then entry (b_f b) i l * entry (b_f b) j l' else 0)).
          -- apply (@sum_delta n l (fun l' => entry (b_f b) i l * entry (b_f b) j l')). auto.
          -- intros l' Hl'. rewrite sum_scal, RO by auto. rewrite Nat.eqb_sym.
             destruct (Nat.eqb l' l); lra.
        * intros k Hk. rewrite !Fi by lia. rewrite <- sum_scal_r. apply sum_ext.
          intros l Hl. rewrite <- sum_scal. apply sum_ext. intros l' Hl'. lra.
    - apply (@nth_ext _ _ _ 0 1).
      + rewrite repeat_length. apply Sh, nth_In. destruct Sh as (-> & _). lia.
      + intros k Hk. rewrite nth_repeat. apply One.
        rewrite <- (proj2 Sh (nth 0 (b_f b') [])); auto. apply nth_In. destruct Sh as (-> & _). lia.
    - exists r. split; auto. split; auto. intros i j Hi Hj. rewrite Fi by auto.
      apply sum_ext. intros; lra.
  Qed.
End RotateOnce.

(** What a sequence of calls does. *)
Definition acts_by (n : nat) (r : mat) (f g : mat) : Prop :=
  forall i j, (0 < i < n)%nat -> (j < n)%nat ->
    entry g i j = sum n (fun k => entry r j k * entry f i k).

Lemma rotate_keeps b x angle i1 i2 b' :
  (0 < x)%Qc -> (forall p, In p (b_space b) -> snd p = x) -> orthogonal b ->
  (3 <= length (b_space b))%nat -> distinct_functions (length (b_space b)) (angle, (i1, i2)) ->
  rotate angle i1 i2 b = Some b' ->
  orthogonal b' /\ b_space b' = b_space b /\
  forall i j, (i < length (b_space b))%nat -> (j < length (b_space b))%nat ->
    inner (b_space b) (nth i (b_f b') []) (nth j (b_f b') []) =
    inner (b_space b) (nth i (b_f b) []) (nth j (b_f b) []).
Proof.
  intros X U O N D E. destruct (rotate_once X U O N E D) as (S & Sh & Dt & One & _).
  set (n := length (b_space b)) in *.
  assert (I : forall i j, (i < n)%nat -> (j < n)%nat ->
    inner (b_space b) (nth i (b_f b') []) (nth j (b_f b') []) =
    inner (b_space b) (nth i (b_f b) []) (nth j (b_f b) [])).
  { intros i j Hi Hj. rewrite !(inner_dot U) by (auto; apply O). rewrite Dt; auto. }
  split; [|split; auto].
  unfold orthogonal. rewrite S. fold n. split; auto. split; [lia|]. split; auto.
  intros i j Hi Hj. rewrite I by auto. apply O; auto.
Qed.

Section Calls.
  Variables (b : basis) (x : Qc).
  Let n := length (b_space b).
  Hypothesis X : (0 < x)%Qc.
  Hypothesis U : forall p, In p (b_space b) -> snd p = x.
  Hypothesis N3 : (3 <= n)%nat.

  Definition kept (c : basis) : Prop :=
    b_space c = b_space b /\ orthogonal c /\
    (forall i j, (i < n)%nat -> (j < n)%nat ->
       inner (b_space b) (nth i (b_f c) []) (nth j (b_f c) []) =
       inner (b_space b) (nth i (b_f b) []) (nth j (b_f b) [])) /\
    acts_by n (b_rot c) (b_f b) (b_f c) /\
    (forall i j, (i < n)%nat -> (j < n)%nat ->
       sum n (fun k => entry (b_rot c) k i * entry (b_rot c) k j) =
       if Nat.eqb i j then 1 else 0).

  Lemma kept_start : orthogonal b -> b_rot b = eye n -> kept b.
  Proof using.
    intros O Rt. split; auto. split; auto. split; auto. rewrite Rt. split.
    - intros i j Hi Hj.
      rewrite (sum_ext (g := fun k => (if Nat.eqb k j then 1 else 0) * entry (b_f b) i k)).
      + rewrite (@sum_delta_l n (fun k => entry (b_f b) i k)); auto.
      + intros k Hk. rewrite entry_eye, Nat.eqb_sym by auto. auto.
    - intros i j Hi Hj.
      rewrite (sum_ext (g := fun k => (if Nat.eqb k i then 1 else 0) *
                              (if Nat.eqb k j then 1 else 0))).
      + apply (@sum_delta_l n (fun k => if Nat.eqb k j then 1 else 0)). auto.
      + intros k Hk. rewrite !entry_eye by auto. auto.
  Qed.

  Lemma kept_step c q : kept c -> distinct_functions n q -> kept (rotate_call c q).
  Proof using X U N3.
    intros (S & O & I & A & Q) D. unfold rotate_call.
    destruct (rotate (fst q) (fst (snd q)) (snd (snd q)) c) as [c'|] eqn:E;
      [|exact (conj S (conj O (conj I (conj A Q))))].
    destruct q as (t & i1 & i2). simpl in E.
    assert (L : length (b_space c) = n) by (rewrite S; auto).
    assert (U' : forall p, In p (b_space c) -> snd p = x) by (rewrite S; auto).
    assert (N' : (3 <= length (b_space c))%nat) by lia.
    rewrite <- L in D. destruct (rotate_keeps X U' O N' D E) as (O' & S' & I').
    destruct (rotate_once X U' O N' E D) as (_ & _ & _ & _ & r & Rr & Ro & Ra).
    rewrite L in *. split; [congruence|]. split; auto. split; [|split].
    - intros i j Hi Hj. rewrite <- I by auto. rewrite <- S. apply I'; auto.
    - intros i j Hi Hj. rewrite Ra, Rr by auto.
      rewrite (sum_ext (g := fun k => sum n (fun l => entry r j k * entry (b_rot c) k l * entry (b_f b) i l))).
      + rewrite sum_swap. apply sum_ext. intros l Hl. unfold mul.
        rewrite entry_build by auto. rewrite sum_scal_r. auto.
      + intros k Hk. rewrite (A i k Hi Hk), <- sum_scal. apply sum_ext. intros; lra.
    - intros i j Hi Hj. rewrite Rr. rewrite <- (Q i j Hi Hj).
      rewrite (sum_ext (g := fun k => sum n (fun l => sum n (fun l' =>
        entry (b_rot c) l i * entry (b_rot c) l' j * (entry r k l * entry r k l'))))).
      + rewrite sum_swap. apply sum_ext. intros l Hl. rewrite sum_swap.
        rewrite (sum_ext (g := fun l' => if Nat.eqb l' l
                   then entry (b_rot c) l i * entry (b_rot c) l' j else 0)).
        * apply (@sum_delta n l (fun l' => entry (b_rot c) l i * entry (b_rot c) l' j)). auto.
        * intros l' Hl'. rewrite sum_scal, Ro by auto. rewrite Nat.eqb_sym.
          destruct (Nat.eqb l' l); lra.
      + intros k Hk. unfold mul. rewrite !entry_build by auto. rewrite <- sum_scal_r.
        apply sum_ext. intros l Hl. rewrite <- sum_scal. apply sum_ext. intros l' Hl'. lra.
  Qed.
End Calls.

(** For three or more species: any sequence of calls whose index pairs do not
    name the same function twice keeps every inner product, keeps the constant
    in front, and is recorded in the rotation array, which stays orthogonal.
    Missing: two species after more than one call, and index pairs that name
    the same function (see the refutations). *)
Theorem C81_rotations_partial calls b :
  uniform (b_space b) -> orthogonal b -> (3 <= length (b_space b))%nat ->
  b_rot b = eye (length (b_space b)) ->
  (forall c, In c calls -> distinct_functions (length (b_space b)) c) ->
  let n := length (b_space b) in
  let b' := rotate_all calls b in
  b_space b' = b_space b /\ orthogonal b' /\
  (forall i j, (i < n)%nat -> (j < n)%nat ->
     inner (b_space b) (nth i (b_f b') []) (nth j (b_f b') []) =
     inner (b_space b) (nth i (b_f b) []) (nth j (b_f b) [])) /\
  acts_by n (b_rot b') (b_f b) (b_f b') /\
  (forall i j, (i < n)%nat -> (j < n)%nat ->
     sum n (fun k => entry (b_rot b') k i * entry (b_rot b') k j) =
     if Nat.eqb i j then 1 else 0).
Proof.
  intros (x & X & U) O N Rt D n b'. unfold b', rotate_all.
  assert (G : forall c, kept b c -> kept b (fold_left rotate_call calls c)).
  { revert D. induction calls as [|q l IH]; intros D c K; simpl; auto.
    apply IH; [intros; apply D; simpl; auto|].
    apply (kept_step X U N K). apply D. simpl; auto. }
  apply G, (kept_start O Rt).
Qed.

(** ** C82 *)

(** The verdicts, in terms of the inner products of the functions. *)
Definition products (b : basis) (i j : nat) : R :=
  inner (b_space b) (nth i (b_f b) []) (nth j (b_f b) []).
Definition rows_ok (b : basis) : Prop :=
  forall row, In row (b_f b) -> length row = length (b_space b).

Lemma entry_products b i j : rows_ok b -> (i < length (b_f b))%nat -> (j < length (b_f b))%nat ->
  entry (prods (b_space b) (b_f b)) i j = products b i j.
Proof.
  intros Rw Hi Hj. rewrite entry_prods by auto. unfold products.
  rewrite (@inner_sum _ _ _ (length (b_space b))); auto; apply Rw, nth_In; auto.
Qed.

Lemma is_orthogonal_iff b : rows_ok b ->
  is_orthogonal b = true <->
  forall i j, (i < length (b_f b))%nat -> (j < length (b_f b))%nat ->
    products b j j <> 0 /\
    close (products b i j / products b j j) (if Nat.eqb i j then 1 else 0) = true.
Proof.
  intros Rw. unfold is_orthogonal. set (n := length (b_f b)).
  set (p := prods (b_space b) (b_f b)).
  assert (P : forall i j, (i < n)%nat -> (j < n)%nat -> entry p i j = products b i j).
  { intros. apply entry_products; auto. }
  destruct (existsb _ (seq 0 n)) eqn:X.
  - split; [discriminate|]. intros H. apply existsb_exists in X. destruct X as (j & J & X).
    apply in_seq in J. destruct (Req_EM_T (entry p j j) 0) as [Z|]; [|discriminate].
    rewrite P in Z by lia. destruct (H j j ltac:(lia) ltac:(lia)) as (A & _). contradiction.
  - rewrite all_close_spec. split; intros H i j Hi Hj.
    + specialize (H i j Hi Hj). rewrite !P, entry_eye in H by auto. split; auto.
      intros Z. assert (existsb (fun j => if Req_EM_T (entry p j j) 0 then true else false)
                          (seq 0 n) = true); [|congruence].
      apply existsb_exists. exists j. split; [apply in_seq; lia|].
      rewrite P by auto. destruct (Req_EM_T (products b j j) 0); auto.
    + rewrite !P, entry_eye by auto. apply H; auto.
Qed.

(** Exactly orthogonal functions (with nonzero norms) are found orthogonal, and
    exactly orthonormal ones orthonormal; if the verdict is positive then all
    inner products are within the tolerance. *)
Theorem C82_verdicts b : rows_ok b ->
  let n := length (b_f b) in
  let p := products b in
  ((forall i j, (i < n)%nat -> (j < n)%nat -> (p i j <> 0 <-> i = j)) ->
     is_orthogonal b = true) /\
  ((forall i j, (i < n)%nat -> (j < n)%nat -> p i j = if Nat.eqb i j then 1 else 0) ->
     is_orthonormal b = true) /\
  (is_orthogonal b = true -> forall i j, (i < n)%nat -> (j < n)%nat ->
     p j j <> 0 /\ (i <> j -> Rabs (p i j) <= / 100000000 * Rabs (p j j))) /\
  (is_orthonormal b = true -> forall i j, (i < n)%nat -> (j < n)%nat ->
     Rabs (p i j - if Nat.eqb i j then 1 else 0) <=
       if Nat.eqb i j then / 100000000 + / 100000 else / 100000000).
Proof.
  intros Rw n p. split; [|split; [|split]].
  - intros H. apply is_orthogonal_iff; auto. intros i j Hi Hj.
    assert (D : p j j <> 0) by (apply H; auto). split; auto. fold p.
    destruct (Nat.eqb_spec i j) as [->|Ne].
    + replace (p j j / p j j) with 1 by (field; auto). apply close_refl.
    + assert (Z : p i j = 0).
      { destruct (Req_EM_T (p i j) 0); auto. exfalso. apply Ne, H; auto. }
      rewrite Z. replace (0 / p j j) with 0 by (field; auto). apply close_refl.
  - intros H. unfold is_orthonormal. apply all_close_eq. intros i j Hi Hj.
    rewrite entry_products, entry_eye by auto. apply H; auto.
  - intros H i j Hi Hj. destruct (proj1 (is_orthogonal_iff Rw) H i j Hi Hj) as (D & C).
    fold p in D, C. split; auto. intros Ne.
    destruct (Nat.eqb_spec i j); [contradiction|]. apply close_bound in C.
    rewrite Rabs_R0, Rmult_0_r, Rplus_0_r, Rminus_0_r in C.
    unfold Rdiv in C. rewrite Rabs_mult, Rabs_inv in C.
    assert (A := Rabs_pos_lt _ D).
    apply (Rmult_le_compat_r (Rabs (p j j))) in C; [|lra].
    rewrite Rmult_assoc, Rinv_l, Rmult_1_r in C by lra. auto.
  - intros H i j Hi Hj. unfold is_orthonormal in H. rewrite all_close_spec in H.
    specialize (H i j Hi Hj). rewrite entry_products, entry_eye in H by auto.
    apply close_bound in H. fold (p i j) in H.
    destruct (Nat.eqb i j); [rewrite Rabs_R1 in H|rewrite Rabs_R0 in H]; lra.
Qed.

Lemma orthogonal_true b : orthogonal b -> is_orthogonal b = true.
Proof.
  intros ((L & Rw) & P & _ & O). apply C82_verdicts; auto.
  rewrite L. intros i j Hi Hj. symmetry. apply O; auto.
Qed.

Lemma factory_products fl space b i j : NoDup (map fst space) -> (2 <= length space)%nat ->
  basis_factory fl space = Some b -> (i < length space)%nat -> (j < length space)%nat ->
  products b i j = sum (length space) (fun k => mu space k *
    fullval fl (length space) i k * fullval fl (length space) j k).
Proof.
  intros N L E Hi Hj. rewrite (factory fl N L) in E. inversion E; subst; clear E.
  unfold products. cbn [b_space b_f]. set (n := length space) in *.
  destruct (build_rect n n (fullval fl n)) as (A & B).
  rewrite (@inner_sum _ _ _ n); auto; try (apply B, nth_In; lia).
  apply sum_ext. intros k Hk. rewrite !nth_row, !entry_build by auto. auto.
  Unshelve. all: exact 0%nat.
Qed.

Lemma sinusoid_products space b x i j :
  (forall p, In p space -> snd p = x) ->
  NoDup (map fst space) -> (2 <= length space)%nat ->
  basis_factory Sinusoid space = Some b -> (i < length space)%nat -> (j < length space)%nat ->
  products b i j = Qc2R x * (if Nat.eqb i j then
    if Nat.eqb i 0 then INR (length space)
    else if Nat.eqb (i + 1) (length space) && Nat.even (length space)
    then INR (length space) else INR (length space) / 2 else 0).
Proof.
  intros U N L E Hi Hj. rewrite (factory_products N L E Hi Hj).
  set (n := length space) in *.
  rewrite (sum_ext (g := fun k => Qc2R x *
    (fullval Sinusoid n i k * fullval Sinusoid n j k))).
  2:{ intros k Hk. rewrite (uniform_mu U) by auto. lra. }
  rewrite sum_scal. f_equal.
  assert (M : (0 < n)%nat) by lia.
  assert (A : forall i, (0 < i < n)%nat ->
    sum n (fun k => fullval Sinusoid n i k * fullval Sinusoid n 0 k) = 0).
  { intros l Hl. destruct l as [|l]; [lia|]. cbn [fullval fval].
    rewrite (sum_ext (g := fun s => sinusoid (l + 1) n s)) by (intros; lra).
    apply sinusoid_mean; lia. }
  destruct i as [|i], j as [|j].
  - simpl. rewrite (sum_ext (g := fun _ => 1)) by (intros; lra). apply sum_one.
  - cbn [Nat.eqb]. rewrite <- (A (S j)) by lia. apply sum_ext. intros; lra.
  - cbn [Nat.eqb]. apply A. lia.
  - cbn [fullval fval]. fold (sprod n (i + 1) (j + 1)).
    destruct (Nat.eqb_spec (S i) (S j)) as [Eq|Ne].
    + inversion Eq; subst j. cbn [Nat.eqb]. rewrite sprod_self by lia.
      replace (S i + 1)%nat with (i + 1 + 1)%nat by lia. auto.
    + destruct (Nat.lt_ge_cases j i); [apply sprod_lt; lia|].
      rewrite sprod_sym. apply sprod_lt; lia.
Qed.

Lemma factory_rows fl space b : NoDup (map fst space) -> (2 <= length space)%nat ->
  basis_factory fl space = Some b ->
  b_space b = space /\ rows_ok b /\ length (b_f b) = length space /\ b_rot b = eye (length space)
  /\ nth 0 (b_f b) [] = repeat 1 (length space).
Proof.
  intros N L E. destruct (factory_proper N L E) as (P & S). assert (Q := proj1 P).
  assert (Fi := proj1 (proj2 (proj2 P))).
  rewrite (factory fl N L) in E. injection E as <-. unfold rows_ok. cbn [b_space b_f b_rot] in *.
  split; auto. split; [exact (proj2 Q)|]. split; [apply (proj1 Q)|]. split; auto.
  apply (@nth_ext _ _ _ 0 1).
  - rewrite repeat_length. apply Q, nth_In. destruct Q as (-> & _). lia.
  - intros k Hk. rewrite nth_repeat. apply Fi.
    rewrite <- (proj2 Q (nth 0 (build (length space) (length space) (fullval fl (length space))) []));
      auto. apply nth_In. destruct Q as (-> & _). lia.
Qed.

Lemma sinusoid_orthogonal space b : uniform space ->
  NoDup (map fst space) -> (2 <= length space)%nat ->
  basis_factory Sinusoid space = Some b -> orthogonal b.
Proof.
  intros (x & X & U) N L E. destruct (factory_rows N L E) as (S & Rw & Ln & _ & One).
  unfold orthogonal. rewrite S. split; [split; auto; intros row; rewrite <- S; apply Rw|].
  split; [lia|]. split; auto. intros i j Hi Hj.
  assert (P := sinusoid_products U N L E Hi Hj). unfold products in P. rewrite S in P.
  rewrite P. assert (0 < Qc2R x) by (apply Qc2R_pos; auto).
  assert (0 < INR (length space)) by (apply lt_0_INR; lia).
  destruct (Nat.eqb_spec i j) as [Eq|Ne].
  - split; auto. intros _. apply Rgt_not_eq, Rmult_lt_0_compat; auto.
    destruct (Nat.eqb i 0); [|destruct (_ && _)]; lra.
  - split; [contradiction|]. intros Z. exfalso. apply Z. lra.
Qed.

(** The built-in bases. *)
Theorem C82_sinusoid space b : uniform space -> qsum (map snd space) = 1%Qc ->
  NoDup (map fst space) -> (2 <= length space)%nat ->
  basis_factory Sinusoid space = Some b ->
  is_orthogonal b = true /\ (is_orthonormal b = true <-> length space = 2%nat).
Proof.
  intros U T N L E. split; [apply orthogonal_true; eapply sinusoid_orthogonal; eauto|].
  destruct U as (x & X & U). destruct (factory_rows N L E) as (S & Rw & Ln & _).
  assert (P := fun i j => sinusoid_products (i := i) (j := j) U N L E).
  set (n := length space) in *.
  assert (Xn : Qc2R x * INR n = 1).
  { rewrite <- Qc2R_1, <- T, <- total_qsum. unfold total. fold n.
    rewrite (sum_ext (g := fun _ => Qc2R x * 1)).
    - rewrite sum_scal, sum_one. auto.
    - intros k Hk. rewrite (uniform_mu U) by auto. lra. }
  split.
  - intros O. destruct (C82_verdicts Rw) as (_ & _ & _ & V).
    destruct (Nat.eq_dec n 2); auto. exfalso.
    assert (V' := V O 1%nat 1%nat ltac:(lia) ltac:(lia)).
    rewrite (P 1%nat 1%nat) in V' by lia.
    cbn [Nat.eqb] in V'. destruct (Nat.eqb_spec (1 + 1) n); [lia|]. cbn [andb] in V'.
    replace (Qc2R x * (INR n / 2)) with (/ 2) in V' by (unfold Rdiv; rewrite <- Rmult_assoc, Xn; lra).
    rewrite Rabs_left in V' by lra. lra.
  - intros E2. apply C82_verdicts; auto. rewrite Ln. intros i j Hi Hj. fold n in Hi, Hj.
    rewrite P by auto. rewrite <- Xn.
    destruct (Nat.eqb_spec i j) as [<-|Ne]; [|lra].
    destruct (Nat.eqb_spec i 0); auto. replace i with 1%nat by lia. rewrite E2. simpl. lra.
Qed.

Theorem C82_indicator space b :
  (forall p, In p space -> (0 < snd p)%Qc) ->
  NoDup (map fst space) -> (2 <= length space)%nat ->
  basis_factory Indicator space = Some b -> is_orthogonal b = false.
Proof.
  intros Pos N L E. destruct (factory_rows N L E) as (S & Rw & Ln & _).
  destruct (is_orthogonal b) eqn:O; auto. exfalso.
  destruct (C82_verdicts Rw) as (_ & _ & V & _).
  assert (A : forall i, (i < 2)%nat -> products b i 1 = mu space 0).
  { intros i Hi. rewrite (factory_products N L E) by lia.
    rewrite (sum_ext (g := fun k => if Nat.eqb k 0 then mu space k else 0)).
    - rewrite (@sum_delta _ 0%nat) by lia. auto.
    - intros k Hk. destruct i as [|[|]]; [| |lia]; simpl; destruct (Nat.eqb k 0); lra. }
  assert (V' := proj2 (V O 0%nat 1%nat ltac:(lia) ltac:(lia)) ltac:(lia)).
  rewrite !A in V' by lia.
  assert (M := mu_pos Pos (j := 0%nat) ltac:(lia)). rewrite Rabs_right in V' by lra. lra.
Qed.

(** Non-vacuity: three species over the uniform measure. *)
Definition third : Qc := Q2Qc (1 # 3).
Definition three : site_space := [(Sp 0, third); (Sp 1, third); (Sp 2, third)].
Lemma three_uniform : uniform three.
Proof.
  exists third. split; [reflexivity|]. intros p [<-|[<-|[<-|[]]]]; reflexivity.
Qed.
Lemma three_nodup : NoDup (map fst three).
Proof. repeat constructor; simpl; intuition discriminate. Qed.
Example C82_case : exists b c,
  basis_factory Sinusoid three = Some b /\ is_orthogonal b = true /\ is_orthonormal b = false /\
  basis_factory Indicator three = Some c /\ is_orthogonal c = false.
Proof.
  assert (L : (2 <= length three)%nat) by (simpl; lia).
  assert (Eb := factory Sinusoid three_nodup L). assert (Ec := factory Indicator three_nodup L).
  destruct (C82_sinusoid three_uniform ltac:(apply Qc_is_canon; reflexivity) three_nodup L Eb) as (O & I).
  do 2 eexists. split; [exact Eb|]. split; auto. split.
  - apply Bool.not_true_is_false. intros Y. apply I in Y. discriminate.
  - split; [exact Ec|]. apply (C82_indicator (space := three)); auto using three_nodup.
    intros p [<-|[<-|[<-|[]]]]; reflexivity.
Qed.

(** ** C81, continued *)

Lemma uniform_close space x : (forall p, In p space -> snd p = x) -> (0 < length space)%nat ->
  forallb (fun y => close y (mu space 0)) (measure space) = true.
Proof.
  intros U L. apply forallb_forall. intros y Y. unfold measure in Y.
  apply in_map_iff in Y. destruct Y as (p & <- & P). rewrite (uniform_mu U L), (U p P).
  apply close_refl.
Qed.

(** Over an orthogonal basis, no rotation is refused but for equal indices or
    indices out of bounds. *)
Theorem C81_accepted angle i1 i2 b : orthogonal b ->
  (rotate angle i1 i2 b = None <->
   length (b_space b) <> 2%nat /\
   (i1 = i2 \/ Z.abs i1 > Z.of_nat (length (b_space b)) - 2 \/
    Z.abs i2 > Z.of_nat (length (b_space b)) - 2)%Z).
Proof.
  intros O. unfold rotate. rewrite (orthogonal_true O), andb_false_r.
  destruct (Nat.eqb_spec (length (b_space b)) 2); [split; [discriminate|intros (A & _); contradiction]|].
  destruct (Z.eqb_spec i1 i2); [tauto|].
  rewrite !Z.gtb_ltb.
  destruct (Z.ltb_spec (Z.of_nat (length (b_space b)) - 2) (Z.abs i1)).
  { split; auto. intros _. split; auto. right. left. lia. }
  destruct (Z.ltb_spec (Z.of_nat (length (b_space b)) - 2) (Z.abs i2)).
  { split; auto. intros _. split; auto. right. right. lia. }
  split; [discriminate|]. intros (_ & [A|[A|A]]); lia.
Qed.

(** Two species: each call multiplies the function by -1, whatever the angle. *)
Definition sign (k : nat) : R := (-1) ^ k.
Definition binary_after (b c : basis) (k : nat) : Prop :=
  b_space c = b_space b /\ rect 2 2 (b_f c) /\
  (forall j, (j < 2)%nat -> entry (b_f c) 0 j = 1 /\
     entry (b_f c) 1 j = sign k * entry (b_f b) 1 j) /\
  (forall i j, (i < 2)%nat -> (j < 2)%nat -> entry (b_rot c) i j =
     (if Nat.eqb k 0 then 1 else -1) * if Nat.eqb i j then 1 else 0).

Lemma two_sum f : sum 2 f = f 0%nat + f 1%nat.
Proof. rewrite !sum_S, sum_0. lra. Qed.

Section Binary.
  Variables (b : basis) (x : Qc).
  Hypothesis X : (0 < x)%Qc.
  Hypothesis U : forall p, In p (b_space b) -> snd p = x.
  Hypothesis O : orthogonal b.
  Hypothesis L : length (b_space b) = 2%nat.

  Lemma binary_inner c k : binary_after b c k -> forall i j, (i < 2)%nat -> (j < 2)%nat ->
    inner (b_space b) (nth i (b_f c) []) (nth j (b_f c) []) =
    inner (b_space b) (nth i (b_f b) []) (nth j (b_f b) []).
  Proof using X U O L.
    intros (S & Sh & F & _) i j Hi Hj.
    assert (Ob := O). destruct Ob as (Rb & _ & One & Ort). rewrite L in *.
    assert (B0 : forall j, (j < 2)%nat -> entry (b_f b) 0 j = 1).
    { intros l Hl. unfold entry. rewrite One. destruct l as [|[|]]; auto; lia. }
    assert (I : forall f, rect 2 2 f -> forall i j, (i < 2)%nat -> (j < 2)%nat ->
      inner (b_space b) (nth i f []) (nth j f []) = Qc2R x * dot 2 f i j).
    { intros f (Lf & Rf) l m Hl Hm.
      rewrite (@inner_sum _ _ _ 2%nat); auto; try (apply Rf, nth_In; lia).
      unfold dot. rewrite <- sum_scal. apply sum_ext. intros k' Hk.
      rewrite (uniform_mu U) by lia. unfold entry. lra. }
    assert (Px : 0 < Qc2R x) by (apply Qc2R_pos; auto).
    assert (Z : dot 2 (b_f b) 1 0 = 0).
    { destruct (Req_EM_T (dot 2 (b_f b) 1 0) 0); auto. exfalso.
      assert (A : 1%nat = 0%nat); [|discriminate]. apply Ort; auto. rewrite I by auto.
      intros E. destruct (Rmult_integral _ _ E); lra. }
    rewrite !I by auto. f_equal. unfold dot in *. rewrite two_sum in *.
    assert (Sq : sign k * sign k = 1).
    { unfold sign. rewrite <- Rpow_mult_distr. replace (-1 * -1) with 1 by lra. apply pow1. }
    destruct i as [|[|]]; [| |lia]; (destruct j as [|[|]]; [| |lia]); rewrite ?two_sum;
      rewrite ?(proj1 (F 0%nat ltac:(lia))), ?(proj1 (F 1%nat ltac:(lia))),
        ?(proj2 (F 0%nat ltac:(lia))), ?(proj2 (F 1%nat ltac:(lia)));
      rewrite ?B0 in * by lia; auto.
    - transitivity (sign k * (entry (b_f b) 1 0 * 1 + entry (b_f b) 1 1 * 1)); [ring|].
      rewrite Z. lra.
    - transitivity (sign k * (entry (b_f b) 1 0 * 1 + entry (b_f b) 1 1 * 1)); [ring|].
      rewrite Z. lra.
    - transitivity (sign k * sign k * (entry (b_f b) 1 0 * entry (b_f b) 1 0
        + entry (b_f b) 1 1 * entry (b_f b) 1 1)); [ring|]. rewrite Sq. lra.
  Qed.

  Lemma binary_orthogonal c k : binary_after b c k -> orthogonal c.
  Proof using X U O L.
    intros K. assert (I := binary_inner K). destruct K as (S & Sh & F & _).
    unfold orthogonal. rewrite S, L. split; auto. split; [lia|]. split.
    - apply (@nth_ext _ _ _ 0 1).
      + simpl. apply Sh, nth_In. destruct Sh as (-> & _). lia.
      + intros j Hj. rewrite nth_repeat. apply F.
        rewrite <- (proj2 Sh (nth 0 (b_f c) [])); auto. apply nth_In. destruct Sh as (-> & _). lia.
    - intros i j Hi Hj. rewrite I by auto. apply O; rewrite L; auto.
  Qed.

  Lemma binary_step c k q : binary_after b c k -> binary_after b (rotate_call c q) (S k).
  Proof using X U O L.
    intros K. assert (Oc := binary_orthogonal K). destruct K as (S & Sh & F & Rt).
    assert (Lc : length (b_space c) = 2%nat) by (rewrite S; auto).
    unfold rotate_call, rotate. rewrite (orthogonal_true Oc), andb_false_r, Lc.
    cbn [Nat.eqb]. unfold binary_after. cbn [b_space b_f b_rot].
    split; auto. split; [apply build_rect|]. split.
    - intros j Hj. rewrite !entry_build by lia. cbn [Nat.eqb].
      destruct (F j Hj) as (-> & ->). split; auto. unfold sign. simpl. lra.
    - intros i j Hi Hj. unfold mul. rewrite entry_build by auto. rewrite two_sum.
      rewrite !entry_build by lia. rewrite !Rt by lia.
      destruct i as [|[|]]; [| |lia]; (destruct j as [|[|]]; [| |lia]); cbn [Nat.eqb];
        destruct k; cbn [Nat.eqb]; lra.
  Qed.

  Lemma binary_all calls : b_rot b = eye 2 -> binary_after b (rotate_all calls b) (length calls).
  Proof using X U O L.
    intros E. unfold rotate_all.
    assert (G : forall l c k, binary_after b c k ->
      binary_after b (fold_left rotate_call l c) (length l + k)).
    { induction l as [|q l IH]; intros c k K; simpl; auto.
      replace (S (length l + k)) with (length l + S k)%nat by lia. apply IH, binary_step, K. }
    rewrite <- (Nat.add_0_r (length calls)). apply G.
    destruct O as (Sh & _ & One & _). rewrite L in *.
    split; auto. split; auto. split.
    - intros j Hj. split; [|unfold sign; simpl; lra].
      unfold entry. rewrite One. destruct j as [|[|]]; auto; lia.
    - intros i j Hi Hj. rewrite E, entry_eye by auto. simpl. lra.
  Qed.
End Binary.

(** Two species: inner products are always kept and the rotation array is
    orthogonal; it is the map taken when the number of calls is odd (or no call
    was made).  Missing: an even number of calls (refuted below). *)
Theorem C81_binary_partial calls b :
  uniform (b_space b) -> orthogonal b -> length (b_space b) = 2%nat ->
  b_rot b = eye (length (b_space b)) ->
  let b' := rotate_all calls b in
  b_space b' = b_space b /\ orthogonal b' /\
  (forall i j, (i < 2)%nat -> (j < 2)%nat ->
     inner (b_space b) (nth i (b_f b') []) (nth j (b_f b') []) =
     inner (b_space b) (nth i (b_f b) []) (nth j (b_f b) [])) /\
  (forall i j, (i < 2)%nat -> (j < 2)%nat ->
     sum 2 (fun k => entry (b_rot b') k i * entry (b_rot b') k j) =
     if Nat.eqb i j then 1 else 0) /\
  (calls = [] \/ Nat.Odd (length calls) -> acts_by 2 (b_rot b') (b_f b) (b_f b')).
Proof.
  intros (x & X & U) O L E b'. rewrite L in E.
  assert (K := binary_all X U O L calls E). fold b' in K.
  split; [apply K|]. split; [eapply binary_orthogonal; eauto|].
  split; [eapply binary_inner; eauto|]. destruct K as (S & Sh & F & Rt). split.
  - intros i j Hi Hj. rewrite two_sum, !Rt by lia.
    destruct i as [|[|]]; [| |lia]; (destruct j as [|[|]]; [| |lia]); cbn [Nat.eqb];
      destruct (Nat.eqb (length calls) 0); lra.
  - intros C i j Hi Hj. replace i with 1%nat by lia. rewrite (proj2 (F j Hj)), two_sum, !Rt by lia.
    assert (Sg : sign (length calls) = if Nat.eqb (length calls) 0 then 1 else -1).
    { destruct C as [->|(m & ->)]; auto. unfold sign.
      rewrite pow_add, pow_mult. replace ((-1) ^ 2) with 1 by (simpl; lra). rewrite pow1.
      destruct (Nat.eqb_spec (2 * m + 1) 0); [lia|simpl; lra]. }
    rewrite Sg. destruct j as [|[|]]; [| |lia]; cbn [Nat.eqb];
      destruct (Nat.eqb (length calls) 0); lra.
Qed.

(** Two species, an even number of calls: the functions are back to what they
    were, but the rotation array says that they are negated. *)
Theorem C81_binary_refuted calls b :
  uniform (b_space b) -> orthogonal b -> length (b_space b) = 2%nat ->
  b_rot b = eye (length (b_space b)) ->
  calls <> [] -> Nat.Even (length calls) ->
  let b' := rotate_all calls b in
  b_f b' = b_f b /\ ~ acts_by 2 (b_rot b') (b_f b) (b_f b').
Proof.
  intros (x & X & U) O L E Ne (m & Ev) b'. rewrite L in E.
  assert (K := binary_all X U O L calls E). fold b' in K. destruct K as (S & Sh & F & Rt).
  assert (Sg : sign (length calls) = 1).
  { unfold sign. rewrite Ev, pow_mult. replace ((-1) ^ 2) with 1 by (simpl; lra). apply pow1. }
  rewrite Sg in F.
  assert (N0 : Nat.eqb (length calls) 0 = false).
  { destruct calls; [contradiction|auto]. }
  rewrite N0 in Rt.
  assert (Ob := O). destruct Ob as (Rb & _ & One & Ort). rewrite L in *.
  assert (Eq : b_f b' = b_f b).
  { apply (@rect_eq 2 2); auto. intros i j Hi Hj.
    destruct i as [|[|]]; [| |lia].
    - rewrite (proj1 (F j Hj)). unfold entry. rewrite One. destruct j as [|[|]]; auto; lia.
    - rewrite (proj2 (F j Hj)). lra. }
  split; auto. rewrite Eq. intros A.
  assert (Z : forall j, (j < 2)%nat -> entry (b_f b) 1 j = 0).
  { intros j Hj. specialize (A 1%nat j ltac:(lia) Hj). rewrite two_sum, !Rt in A by lia.
    destruct j as [|[|]]; [| |lia]; cbn [Nat.eqb] in A; lra. }
  assert (P : inner (b_space b) (nth 1 (b_f b) []) (nth 1 (b_f b) []) <> 0).
  { apply Ort; auto. }
  apply P. rewrite (@inner_sum _ _ _ 2%nat) by (auto; apply Rb, nth_In; destruct Rb as (-> & _); lia).
  rewrite two_sum. assert (Z0 := Z 0%nat ltac:(lia)). assert (Z1 := Z 1%nat ltac:(lia)).
  unfold entry in Z0, Z1. rewrite Z0, Z1. lra.
Qed.

(** A negative index counts from the end, but is compared as a number: the
    indices 1 and -1 of three species name the same function and are accepted.
    A rotation by 60 degrees then makes the function vanish. *)
Theorem C81_negative_index_refuted b :
  uniform (b_space b) -> orthogonal b -> length (b_space b) = 3%nat ->
  exists b', rotate (PI / 3) 1 (-1) b = Some b' /\
    nth 1 (function_array b') [] = [0; 0; 0] /\
    inner (b_space b) (nth 2 (b_f b) []) (nth 2 (b_f b) []) <> 0 /\
    inner (b_space b) (nth 2 (b_f b') []) (nth 2 (b_f b') []) = 0.
Proof.
  intros (x & X & U) O L.
  destruct (rotate (PI / 3) 1 (-1) b) as [b'|] eqn:E.
  2:{ apply C81_accepted in E; auto. rewrite L in E. destruct E as (_ & [H|[H|H]]); simpl in H; lia. }
  assert (N3 : (3 <= length (b_space b))%nat) by lia.
  exists b'. split; auto.
  destruct (rotate_shape O N3 E) as (H1 & H2 & S & Sh & F0 & Fi & _).
  destruct (norm_sq X U O N3 H1) as (P & Nq).
  assert (Rw := row_entry O N3).
  rewrite L in *. change (py_index (3 - 1) 1) with 1%nat in *.
  set (v := fun k => entry (b_f b) 2 k / norm 3 (entry (b_f b) 2)).
  assert (RE : forall i, i = 1%Z \/ i = (-1)%Z ->
    norm 3 (entry (function_array b) (py_index (length (function_array b)) i)) =
    norm 3 (entry (b_f b) 2)).
  { intros i Hi. unfold norm. f_equal. apply sum_ext. intros k Hk. rewrite Rw.
    change (3 - 1)%nat with 2%nat. destruct Hi as [-> | ->]; reflexivity. }
  assert (W := RE 1%Z ltac:(auto)). rewrite W in P, Nq.
  set (w := norm 3 (entry (b_f b) 2)) in *.
  assert (Zero : forall j, (j < 3)%nat -> entry (b_f b') 2 j = 0).
  { intros j Hj. rewrite Fi by lia.
    rewrite (sum_ext (g := fun k => (if Nat.eqb k j then 1 else 0) * entry (b_f b) 2 k
       + - (v j / w) * (entry (b_f b) 2 k * entry (b_f b) 2 k))).
    - rewrite sum_plus, sum_scal. rewrite (@sum_delta_l 3 (entry (b_f b) 2)) by auto.
      fold (dot 3 (b_f b) 2 2). rewrite <- Nq. unfold v. fold w. field. lra.
    - intros k Hk. unfold rotation. rewrite entry_build by auto.
      rewrite !RE by auto. fold w. rewrite !Rw.
      change (py_index (3 - 1) 1) with 1%nat. change (py_index (3 - 1) (-1)) with 1%nat.
      rewrite cos_PI3. unfold v. fold w. rewrite Nat.eqb_sym.
      destruct (Nat.eqb k j); field; lra. }
  assert (Row : nth 2 (b_f b') [] = [0; 0; 0]).
  { apply (@nth_ext _ _ _ 0 0).
    - apply Sh, nth_In. destruct Sh as (-> & _). lia.
    - intros k Hk. rewrite (proj2 Sh (nth 2 (b_f b') [])) in Hk by (apply nth_In; destruct Sh as (-> & _); lia).
      fold (entry (b_f b') 2 k). rewrite Zero by auto. destruct k as [|[|[|]]]; auto; lia. }
  split; [|split].
  - unfold function_array. rewrite <- Row. destruct Sh as (Lf & _).
    destruct (b_f b'); auto.
  - apply O; rewrite ?L; auto.
  - rewrite Row. destruct (b_space b) as [|p [|q [|r [|]]]]; try discriminate.
    unfold inner. simpl. lra.
Qed.

(** Non-vacuity: the sinusoid basis of three species; two rotations. *)
Lemma three_orthogonal : exists b, basis_factory Sinusoid three = Some b /\ orthogonal b /\
  b_rot b = eye 3 /\ b_space b = three.
Proof.
  assert (L : (2 <= length three)%nat) by (simpl; lia).
  assert (E := factory Sinusoid three_nodup L). eexists. split; [exact E|].
  split; [apply (sinusoid_orthogonal three_uniform three_nodup L E)|].
  split; reflexivity.
Qed.
Example C81_case : exists b, basis_factory Sinusoid three = Some b /\
  uniform (b_space b) /\ orthogonal b /\
  (forall c, In c [(1, (0, 1)); (2, (-1, 0))]%Z ->
     distinct_functions (length (b_space b)) (INR (Z.to_nat (fst c)), snd c) /\
     rotate (INR (Z.to_nat (fst c))) (fst (snd c)) (snd (snd c)) b <> None).
Proof.
  destruct three_orthogonal as (b & E & O & Rt & S). exists b. rewrite S.
  split; auto. split; [apply three_uniform|]. split; auto. intros c H. split.
  - destruct H as [<-|[<-|[]]]; unfold distinct_functions; simpl; discriminate.
  - rewrite C81_accepted by auto. rewrite S. simpl length.
    destruct H as [<-|[<-|[]]]; simpl; intros (_ & [A|[A|A]]); lia.
Qed.
Example C81_binary_case : exists b,
  basis_factory Sinusoid (two (Q2Qc (1 # 2)) (Q2Qc (1 # 2))) = Some b /\
  uniform (b_space b) /\ orthogonal b /\ length (b_space b) = 2%nat /\
  b_rot b = eye (length (b_space b)).
Proof.
  set (s := two (Q2Qc (1 # 2)) (Q2Qc (1 # 2))).
  assert (L : (2 <= length s)%nat) by (simpl; lia).
  assert (N : NoDup (map fst s)) by (repeat constructor; simpl; intuition discriminate).
  assert (E := factory Sinusoid N L).
  assert (U : uniform s).
  { exists (Q2Qc (1 # 2)). split; [reflexivity|]. intros p [<-|[<-|[]]]; reflexivity. }
  eexists. split; [exact E|]. split; auto.
  split; [exact (sinusoid_orthogonal U N L E)|]. split; reflexivity.
Qed.

(** ** C83 *)

(** What can be done to a basis. *)
Inductive history (fl : flavor) (space : site_space) : basis -> Prop :=
| history_new b : basis_factory fl space = Some b -> history fl space b
| history_orth qr b : history fl space b -> history fl space (orthonormalize qr b)
| history_rotate angle i1 i2 b b' :
    history fl space b -> rotate angle i1 i2 b = Some b' -> history fl space b'.

Lemma rotate_space angle i1 i2 b b' : rotate angle i1 i2 b = Some b' ->
  b_space b' = b_space b /\ b_flavor b' = b_flavor b /\ b_r b' = b_r b.
Proof.
  unfold rotate. destruct (_ && _); [discriminate|].
  destruct (Nat.eqb _ 2); [intros H; inversion H; auto|].
  destruct (i1 =? i2)%Z; [discriminate|].
  destruct (_ >? _)%Z; [discriminate|]. destruct (_ >? _)%Z; [discriminate|].
  intros H. inversion H. auto.
Qed.

Lemma history_space fl space b : NoDup (map fst space) -> (2 <= length space)%nat ->
  history fl space b -> b_space b = space /\ b_flavor b = fl.
Proof.
  intros N L H. induction H as [b E|qr b H (S & F)|t i1 i2 b b' H (S & F) E].
  - rewrite (factory fl N L) in E. inversion E. auto.
  - unfold orthonormalize. destruct (qr _). simpl. auto.
  - destruct (rotate_space E) as (A & B & _). split; congruence.
Qed.

(** A basis read from its dictionary has the same site space, flavour, function
    and rotation arrays, whatever was done before, and the same
    orthonormalisation array if there is one.  Missing: bases that were never
    orthonormalised, whose array is None (see the refutation). *)
Theorem C83_read_partial leb comp space fl b :
  mk_site_space leb comp = Some space -> NoDup (map fst space) -> (2 <= length space)%nat ->
  history fl space b ->
  exists b', from_dict leb (as_dict comp b) = Some b' /\
    b_space b' = b_space b /\ b_flavor b' = b_flavor b /\ b_f b' = b_f b /\
    b_rot b' = b_rot b /\ (b_r b <> RNone -> b' = b).
Proof.
  intros M N L H. destruct (history_space N L H) as (S & F).
  unfold from_dict, as_dict. cbn [d_comp d_flavor d_func d_orth d_rot]. rewrite M, F.
  cbn [option_bind]. rewrite (factory fl N L). cbn [option_bind b_space b_flavor b_rot].
  eexists. split; [reflexivity|]. cbn [b_space b_flavor b_rot b_f b_r].
  repeat (split; [auto|]). intros Hr. destruct b as [s f m r t]. simpl in *. subst.
  destruct r; auto. contradiction.
Qed.

(** A basis that was orthonormalised at least once has the array. *)
Theorem C83_read_orthonormalized leb comp space fl b qr calls :
  mk_site_space leb comp = Some space -> NoDup (map fst space) -> (2 <= length space)%nat ->
  history fl space b ->
  let b1 := rotate_all calls (orthonormalize qr b) in
  from_dict leb (as_dict comp b1) = Some b1.
Proof.
  intros M N L H b1.
  assert (G : forall l c, history fl space c -> b_r c <> RNone ->
    history fl space (fold_left rotate_call l c) /\ b_r (fold_left rotate_call l c) <> RNone).
  { induction l as [|q l IH]; intros c Hc Rc; simpl; auto. apply IH.
    - unfold rotate_call. destruct (rotate _ _ _ c) eqn:E; auto.
      eapply history_rotate; eauto.
    - unfold rotate_call. destruct (rotate _ _ _ c) eqn:E; auto.
      destruct (rotate_space E) as (_ & _ & ->). auto. }
  destruct (G calls (orthonormalize qr b)) as (A & B).
  - apply history_orth; auto.
  - unfold orthonormalize. destruct (qr _). discriminate.
  - destruct (C83_read_partial M N L A) as (b' & E & _ & _ & _ & _ & Q).
    unfold b1, rotate_all. rewrite E, (Q B). auto.
Qed.

(** A fresh basis (or one that was only rotated) has no orthonormalisation
    array; read from its dictionary it has one, which is not None. *)
Theorem C83_none_refuted leb comp space fl b :
  mk_site_space leb comp = Some space -> NoDup (map fst space) -> (2 <= length space)%nat ->
  basis_factory fl space = Some b ->
  b_r b = RNone /\
  exists b', from_dict leb (as_dict comp b) = Some b' /\ b_r b' = RArrayNone.
Proof.
  intros M N L E. rewrite (factory fl N L) in E. injection E as <-. split; auto.
  unfold from_dict, as_dict. cbn [d_comp d_flavor d_func d_orth d_rot b_flavor]. rewrite M.
  cbn [option_bind]. rewrite (factory fl N L). eexists. split; reflexivity.
Qed.

Example C83_case :
  mk_site_space (fun _ _ => true) three = Some three /\ NoDup (map fst three) /\
  exists b, history Chebyshev three b /\ b_r b <> RNone.
Proof.
  split; [reflexivity|]. split; [apply three_nodup|].
  assert (L : (2 <= length three)%nat) by (simpl; lia).
  exists (orthonormalize (fun a => (a, a)) (MkBasis three Chebyshev
    (build 3 3 (fullval Chebyshev 3)) RNone (eye 3))).
  split; [|discriminate]. apply history_orth, history_new.
  exact (factory Chebyshev three_nodup L).
Qed.

(** ** C84 *)

Lemma fold_left_concat A B (f : A -> B -> A) ll x :
  fold_left (fun st l => fold_left f l st) ll x = fold_left f (concat ll) x.
Proof.
  revert x. induction ll as [|l ll IH]; intros x; simpl; auto.
  rewrite fold_left_app. apply IH.
Qed.

Section RotateStore.
  Variables (angle : R) (i1 i2 : Z) (store : list basis) (o : nat) (b : basis).
  Hypothesis Eo : nth_error store o = Some b.
  Let same (c : basis) : bool := site_space_eqb (b_space c) (b_space b).

  Definition progress (done : list nat) (st : list basis) (rotated : list nat) : Prop :=
    length st = length store /\
    (forall p, In p rotated <-> In p (o :: done) /\
       exists c, nth_error store p = Some c /\ same c = true) /\
    forall p c, nth_error store p = Some c ->
      (In p rotated -> exists c', rotate angle i1 i2 c = Some c' /\ nth_error st p = Some c') /\
      (~ In p rotated -> nth_error st p = Some c).

  Lemma same_rotated st rotated done p c c' : progress done st rotated ->
    nth_error st p = Some c' -> nth_error store p = Some c -> same c' = same c.
  Proof using.
    intros (_ & _ & A) E' E. destruct (A p c E) as (A1 & A2).
    destruct (in_dec Nat.eq_dec p rotated) as [I|I].
    - destruct (A1 I) as (c1 & E1 & E2). replace c' with c1 by congruence.
      unfold same. rewrite (proj1 (rotate_space E1)). auto.
    - rewrite (A2 I) in E'. congruence.
  Qed.

  Lemma existsb_in p l : existsb (Nat.eqb p) l = true <-> In p l.
  Proof using.
    rewrite existsb_exists. split.
    - intros (x & X & E). apply Nat.eqb_eq in E. subst. auto.
    - intros I. exists p. split; auto. apply Nat.eqb_refl.
  Qed.

  Lemma progress_step done st rotated p :
    progress done st rotated ->
    match rotate_next angle i1 i2 (b_space b) (Some (st, rotated)) p with
    | Some (st', rotated') => progress (done ++ [p]) st' rotated'
    | None => nth_error store p = None \/
        exists c, nth_error store p = Some c /\ same c = true /\ rotate angle i1 i2 c = None
    end.
  Proof using Eo.
    intros P. assert (P' := P). destruct P' as (Ls & In_ & A).
    unfold rotate_next. cbn [option_bind].
    destruct (nth_error st p) as [c'|] eqn:E'; cbn [option_bind].
    2:{ left. apply nth_error_None. apply nth_error_None in E'. lia. }
    destruct (nth_error store p) as [c|] eqn:E.
    2:{ apply nth_error_None in E. assert (nth_error st p <> None) by congruence.
        apply nth_error_Some in H. lia. }
    assert (Sm := same_rotated P E' E). unfold same in Sm at 1. rewrite Sm.
    destruct (existsb (Nat.eqb p) rotated) eqn:X.
    - apply existsb_in in X. rewrite andb_false_r. split; auto. split; auto.
      intros q. rewrite In_. simpl. rewrite in_app_iff. simpl. split; [tauto|].
      intros ([H|[H|[H|[]]]] & Q); auto. subst q. apply In_ in X. auto.
    - assert (Nx : ~ In p rotated) by (rewrite <- existsb_in; congruence).
      rewrite andb_true_r. destruct (A p c E) as (_ & A2). rewrite (A2 Nx) in E'.
      injection E' as <-. destruct (same c) eqn:Sc.
      + unfold rotate_store. rewrite (A2 Nx). cbn [option_bind].
        destruct (rotate angle i1 i2 c) as [c'|] eqn:Rc; cbn [option_bind]; [|eauto].
        assert (Lp : (p < length st)%nat).
        { apply nth_error_Some. rewrite (A2 Nx). discriminate. }
        split; [rewrite length_upd; auto|]. split.
        * intros q. rewrite in_app_iff, In_. simpl. rewrite in_app_iff. simpl. split.
          -- intros [(H & Q)|[<-|[]]]; [tauto|]. split; eauto.
          -- intros ([H|[H|[H|[]]]] & Q); auto.
        * intros q d Eq. destruct (A q d Eq) as (B1 & B2).
          destruct (Nat.eq_dec p q) as [<-|Ne].
          -- split; [|intros H; destruct H; apply in_app_iff; simpl; auto].
             intros _. exists c'. split; [congruence|]. apply nth_error_upd_eq; auto.
          -- rewrite nth_error_upd_neq by auto. rewrite in_app_iff. simpl. split.
             ++ intros [H|[H|[]]]; [auto|contradiction].
             ++ intros H. apply B2. tauto.
      + split; auto. split; auto. intros q. rewrite In_. simpl. rewrite in_app_iff. simpl.
        split; [tauto|]. intros ([H|[H|[H|[]]]] & Q); auto. subst q.
        destruct Q as (d & Ed & Sd). exfalso. congruence.
  Qed.

  Lemma next_none ps : fold_left (rotate_next angle i1 i2 (b_space b)) ps None = None.
  Proof using. induction ps; simpl; auto. Qed.

  Lemma progress_all ps done st rotated : progress done st rotated ->
    match fold_left (rotate_next angle i1 i2 (b_space b)) ps (Some (st, rotated)) with
    | Some (st', rotated') => progress (done ++ ps) st' rotated'
    | None => exists p, In p ps /\ (nth_error store p = None \/
        exists c, nth_error store p = Some c /\ same c = true /\ rotate angle i1 i2 c = None)
    end.
  Proof using Eo.
    revert done st rotated. induction ps as [|p ps IH]; intros done st rotated P.
    - simpl. rewrite app_nil_r. auto.
    - cbn [fold_left]. assert (Q := progress_step p P).
      destruct (rotate_next _ _ _ _ (Some (st, rotated)) p) as [(st', rotated')|].
      + assert (Q' := IH _ _ _ Q).
        destruct (fold_left _ ps _) as [(st2, r2)|].
        * replace (done ++ p :: ps) with ((done ++ [p]) ++ ps); auto.
          rewrite <- app_assoc. auto.
        * destruct Q' as (q & I & H). exists q. simpl. auto.
      + rewrite next_none. exists p. simpl. auto.
  Qed.

  Lemma progress_first b' : rotate angle i1 i2 b = Some b' -> progress [] (upd store o b') [o].
  Proof using Eo.
    intros E. assert (Lo : (o < length store)%nat).
    { apply nth_error_Some. rewrite Eo. discriminate. }
    split; [apply length_upd|]. split.
    - intros p. simpl. split; [|tauto]. intros [<-|[]]. split; auto. exists b. split; auto.
      unfold same. apply eqb_prefix. exists []. rewrite app_nil_r. auto.
    - intros p c Ec. destruct (Nat.eq_dec o p) as [<-|Ne].
      + split; [|simpl; tauto]. intros _. exists b'. split; [congruence|].
        apply nth_error_upd_eq; auto.
      + rewrite nth_error_upd_neq by auto. split; auto. intros [H|[]]; contradiction.
  Qed.
End RotateStore.

(** Site spaces with positive measures that sum to one. *)
Definition full_space (space : site_space) : Prop :=
  (forall p, In p space -> (0 < snd p)%Qc) /\ qsum (map snd space) = 1%Qc.

Lemma full_eqb s t : full_space s -> full_space t -> (site_space_eqb s t = true <-> s = t).
Proof.
  intros (P & T) (P' & T'). apply eqb_exact; try (apply Forall_forall; auto). congruence.
Qed.

(** Every basis over the site space of the chosen orbit is rotated exactly once,
    no matter how often the orbits name it, and no other basis is changed.
    Missing: site spaces whose measures do not sum to one (see below). *)
Theorem C84_once_partial store orbits points id angle i1 i2 store' :
  (forall c, In c store -> full_space (b_space c)) ->
  rotate_site_basis store orbits points id angle i1 i2 = Some store' ->
  (1 <= id <= Z.of_nat points)%Z /\
  exists o rest b, nth_error orbits (Z.to_nat id - 1) = Some (o :: rest) /\
    nth_error store o = Some b /\ length store' = length store /\
    forall p c, nth_error store p = Some c ->
      (In p (concat orbits) /\ b_space c = b_space b ->
         exists c', rotate angle i1 i2 c = Some c' /\ nth_error store' p = Some c') /\
      (~ (In p (concat orbits) /\ b_space c = b_space b) -> nth_error store' p = Some c).
Proof.
  intros Full H. unfold rotate_site_basis in H.
  destruct (Z.leb_spec 1 id), (Z.ltb_spec id (Z.of_nat points + 1)); simpl in H; try discriminate.
  split; [lia|].
  destruct (nth_error orbits (Z.to_nat id - 1)) as [orbit|] eqn:Eo; [|discriminate].
  simpl in H. destruct orbit as [|o rest]; [discriminate|]. simpl in H.
  destruct (nth_error store o) as [b|] eqn:Eb; [|discriminate]. simpl in H.
  unfold rotate_store in H. rewrite Eb in H. simpl in H.
  destruct (rotate angle i1 i2 b) as [b'|] eqn:Er; [|discriminate]. simpl in H.
  rewrite fold_left_concat in H.
  assert (P := progress_all Eb (concat orbits) (progress_first Eb Er)).
  destruct (fold_left _ (concat orbits) _) as [(st, rotated)|]; [|discriminate].
  simpl in H. injection H as <-. destruct P as (L & I & A).
  exists o, rest, b. split; auto. split; auto. split; auto.
  assert (Oin : In o (concat orbits)).
  { apply in_concat. exists (o :: rest). split; [eapply nth_error_In; eauto|simpl; auto]. }
  intros p c Ec. destruct (A p c Ec) as (A1 & A2).
  assert (Q : In p rotated <-> In p (concat orbits) /\ b_space c = b_space b).
  { rewrite I. simpl.
    assert (F : site_space_eqb (b_space c) (b_space b) = true <-> b_space c = b_space b).
    { apply full_eqb; apply Full; eapply nth_error_In; eauto. }
    split.
    - intros (Hp & d & Ed & Sd). replace d with c in Sd by congruence. split; [|apply F; auto].
      destruct Hp as [<-|Hp]; auto.
    - intros (Hp & Sp). split; auto. exists c. split; auto. apply F; auto. }
  split; intros K; [apply A1|apply A2]; tauto.
Qed.

(** An id that is not that of a point orbit is refused. *)
Theorem C84_invalid_id store orbits points id angle i1 i2 :
  ~ (1 <= id <= Z.of_nat points)%Z ->
  rotate_site_basis store orbits points id angle i1 i2 = None.
Proof.
  intros H. unfold rotate_site_basis.
  destruct (Z.leb_spec 1 id), (Z.ltb_spec id (Z.of_nat points + 1)); simpl; auto. lia.
Qed.

(** A valid call is not refused unless the basis cannot be rotated. *)
Theorem C84_accepted store orbits points id angle i1 i2 o rest b :
  (forall c, In c store -> full_space (b_space c)) ->
  (1 <= id <= Z.of_nat points)%Z ->
  nth_error orbits (Z.to_nat id - 1) = Some (o :: rest) ->
  nth_error store o = Some b ->
  (forall p, In p (concat orbits) -> (p < length store)%nat) ->
  (forall p c, In p (concat orbits) -> nth_error store p = Some c -> b_space c = b_space b ->
     rotate angle i1 i2 c <> None) ->
  rotate_site_basis store orbits points id angle i1 i2 <> None.
Proof.
  intros Full Hid Eo Eb V Rot. unfold rotate_site_basis.
  destruct (Z.leb_spec 1 id), (Z.ltb_spec id (Z.of_nat points + 1)); simpl; try lia.
  rewrite Eo. simpl. rewrite Eb. simpl. unfold rotate_store. rewrite Eb. simpl.
  assert (Oin : In o (concat orbits)).
  { apply in_concat. exists (o :: rest). split; [eapply nth_error_In; eauto|simpl; auto]. }
  assert (Rb := Rot o b Oin Eb eq_refl).
  destruct (rotate angle i1 i2 b) as [b'|] eqn:Er; [|contradiction]. simpl.
  rewrite fold_left_concat.
  assert (P := progress_all Eb (concat orbits) (progress_first Eb Er)).
  destruct (fold_left _ (concat orbits) _) as [(st, rotated)|]; [simpl; discriminate|].
  exfalso. destruct P as (p & Ip & [N|(c & Ec & Sc & Rc)]).
  - apply nth_error_None in N. specialize (V p Ip). lia.
  - apply (Rot p c Ip Ec); auto.
    apply full_eqb; auto; apply Full; eapply nth_error_In; eauto.
Qed.

(** Site spaces are compared up to the shorter one.  With measures that do not
    sum to one, a basis over another site space is rotated too. *)
Definition longer : site_space :=
  [(Sp 0, Qc_frac 1 2); (Sp 1, Qc_frac 99 200); (Sp 2, Qc_frac 1 200)].
Definition shorter : site_space := [(Sp 0, Qc_frac 1 2); (Sp 1, Qc_frac 99 200)].

Lemma Qc2R_frac a (d : positive) : Qc2R (Qc_frac a d) = IZR a / IZR (Zpos d).
Proof.
  unfold Qc2R, Qc_frac. rewrite (Qeq_eqR _ (a # d)) by apply Qred_correct. reflexivity.
Qed.

Theorem C84_prefix_refuted :
  mk_site_space (fun _ _ => true) longer = Some longer /\
  mk_site_space (fun _ _ => true) shorter = Some shorter /\
  forall fl, exists b c store', basis_factory fl longer = Some b /\
    basis_factory fl shorter = Some c /\ b_space c <> b_space b /\
    rotate_site_basis [b; c] [[0]; [1]]%nat 2 1 PI 0 1 = Some store' /\
    nth_error store' 1 <> Some c.
Proof.
  split; [reflexivity|]. split; [reflexivity|]. intros fl.
  assert (N1 : NoDup (map fst longer)) by (repeat constructor; simpl; intuition discriminate).
  assert (N2 : NoDup (map fst shorter)) by (repeat constructor; simpl; intuition discriminate).
  assert (E1 := factory fl N1 ltac:(simpl; lia)). assert (E2 := factory fl N2 ltac:(simpl; lia)).
  set (b := MkBasis longer fl _ _ _) in E1. set (c := MkBasis shorter fl _ _ _) in E2.
  assert (U : forall space, space = longer \/ space = shorter ->
    forallb (fun x => close x (mu space 0)) (measure space) = false).
  { intros space Hs. apply not_true_is_false. intros F. rewrite forallb_forall in F.
    assert (B : close (Qc2R (Qc_frac 99 200)) (Qc2R (Qc_frac 1 2)) = true).
    { destruct Hs as [-> | ->]; apply F; simpl; auto. }
    apply close_bound in B. rewrite !Qc2R_frac in B.
    rewrite Rabs_left in B by lra. rewrite Rabs_right in B by lra. lra. }
  assert (Rb : exists b', rotate PI 0 1 b = Some b').
  { unfold rotate. rewrite (U (b_space b)) by auto. cbn [andb]. simpl Nat.eqb. simpl Z.eqb.
    change (Z.abs 0 >? Z.of_nat (length (b_space b)) - 2)%Z with false.
    change (Z.abs 1 >? Z.of_nat (length (b_space b)) - 2)%Z with false. eexists. reflexivity. }
  destruct Rb as (b' & Rb).
  assert (Rc : exists c', rotate PI 0 1 c = Some c' /\ entry (b_rot c') 0 0 = -1).
  { unfold rotate. rewrite (U (b_space c)) by auto. cbn [andb]. simpl Nat.eqb.
    eexists. split; [reflexivity|]. cbn [b_rot]. change (length (b_space c)) with 2%nat.
    unfold mul. rewrite entry_build, two_sum, !entry_build by lia.
    change (b_rot c) with (eye 2). rewrite !entry_eye by lia. cbn [Nat.eqb]. lra. }
  destruct Rc as (c' & Rc & Ec').
  exists b, c, [b'; c']. split; auto. split; auto. split; [discriminate|]. split.
  - unfold rotate_site_basis, rotate_store.
    change ((1 <=? 1) && (1 <? Z.of_nat 2 + 1))%Z with true. cbv iota.
    change (Z.to_nat 1 - 1)%nat with 0%nat. cbn [nth_error option_bind].
    rewrite Rb. cbn [option_bind upd fold_left rotate_next nth_error existsb negb].
    unfold rotate_next. cbn [option_bind nth_error existsb negb orb Nat.eqb].
    rewrite andb_false_r. cbn [option_bind nth_error].
    change (site_space_eqb (b_space c) (b_space b)) with true. cbn [andb negb].
    unfold rotate_store. cbn [nth_error option_bind]. rewrite Rc. reflexivity.
  - cbn [nth_error]. intros H. injection H as H. rewrite H in Ec'.
    change (b_rot c) with (eye 2) in Ec'. rewrite entry_eye in Ec' by lia. simpl in Ec'. lra.
Qed.

(** Non-vacuity: two orbits that share a basis, and a third with another. *)
Example C84_case : exists b c store',
  (forall d, In d [b; c] -> full_space (b_space d)) /\
  rotate_site_basis [b; c] [[0]; [1]; [0; 0; 1]]%nat 2 1 PI 0 1 = Some store' /\
  (exists b', rotate PI 0 1 b = Some b' /\ nth_error store' 0 = Some b') /\
  nth_error store' 1 = Some c.
Proof.
  destruct three_orthogonal as (b & Eb & Ob & _ & Sb).
  destruct C81_binary_case as (c & Ec & _ & _ & _ & _).
  assert (Sc : b_space c = two (Q2Qc (1 # 2)) (Q2Qc (1 # 2))).
  { assert (N : NoDup (map fst (two (Q2Qc (1 # 2)) (Q2Qc (1 # 2)))))
      by (repeat constructor; simpl; intuition discriminate).
    rewrite (factory Sinusoid N ltac:(simpl; lia)) in Ec. injection Ec as <-. auto. }
  assert (Full : forall d, In d [b; c] -> full_space (b_space d)).
  { intros d [<-|[<-|[]]]; rewrite ?Sb, ?Sc; split.
    - intros p [<-|[<-|[<-|[]]]]; reflexivity.
    - apply Qc_is_canon; reflexivity.
    - intros p [<-|[<-|[]]]; reflexivity.
    - apply Qc_is_canon; reflexivity. }
  assert (Df : b_space c <> b_space b) by (rewrite Sb, Sc; discriminate).
  destruct (rotate_site_basis [b; c] [[0]; [1]; [0; 0; 1]]%nat 2 1 PI 0 1) as [store'|] eqn:E.
  - exists b, c, store'. split; auto. split; auto.
    destruct (C84_once_partial Full E) as (_ & o & rest & d & Eo & Ed & _ & A).
    injection Eo as <- <-. injection Ed as <-. split.
    + apply (A 0%nat b eq_refl). simpl. auto.
    + apply (A 1%nat c eq_refl). intros (_ & H). contradiction.
  - exfalso. revert E. apply (C84_accepted (o := 0%nat) (rest := []) (b := b)); auto; [lia| |].
    + intros p. simpl. lia.
    + intros p d Ip Ed Sd. destruct p as [|[|p]]; simpl in Ed.
      * injection Ed as <-. rewrite C81_accepted by auto. rewrite Sb. simpl.
        intros (_ & [H|[H|H]]); lia.
      * injection Ed as <-. contradiction.
      * destruct p; discriminate.
Qed.

(** Non-vacuity of C79: five species. *)
Example C79_case : exists space : site_space, length space = 5%nat /\ NoDup (map fst space) /\
  forall fl, exists b, basis_factory fl space = Some b /\ length (function_array b) = 4%nat.
Proof.
  set (space := [(Sp 3, Qc_frac 1 2); (Sp 1, Qc_frac 1 8); (Vac, Qc_frac 1 8);
                 (Sp 0, Qc_frac 1 8); (Sp 7, Qc_frac 1 8)]).
  assert (N : NoDup (map fst space)) by (repeat constructor; simpl; intuition discriminate).
  exists space. split; auto. split; auto. intros fl.
  destruct (C79_complete fl N ltac:(simpl; lia)) as (b & E & _ & L & _). eauto.
Qed.

Print Assumptions C79_complete.
Print Assumptions C79_values.
Print Assumptions C79_polynomials.
Print Assumptions C80_orthonormal_partial.
Print Assumptions C80_again.
Print Assumptions C80_measure_refuted.
Print Assumptions C81_rotations_partial.
Print Assumptions C82_verdicts.
Print Assumptions C82_sinusoid.
Print Assumptions C82_indicator.
Print Assumptions C81_accepted.
Print Assumptions C81_binary_partial.
Print Assumptions C81_binary_refuted.
Print Assumptions C81_negative_index_refuted.
Print Assumptions C83_read_partial.
Print Assumptions C83_read_orthonormalized.
Print Assumptions C83_none_refuted.
Print Assumptions C84_once_partial.
Print Assumptions C84_invalid_id.
Print Assumptions C84_accepted.
Print Assumptions C84_prefix_refuted.
