(** Proofs about the extended Euclidean algorithm and the Smith decomposition. *)
From Verif Require Import LibProofs IntMath.
Set Implicit Arguments.
Unset Strict Implicit.
Open Scope Z_scope.

(** ** gcdex *)

Lemma gcdex_rec_total : forall fuel a b, (Z.abs_nat a < fuel)%nat -> exists r, gcdex_rec fuel a b = Some r.
Proof.
  induction fuel as [|fuel IH]; intros a b Hf; [lia|]. cbn [gcdex_rec].
  destruct (Z.eqb_spec a 0) as [->|Ha]; [eauto|].
  destruct (IH (b mod a) a) as (((x & y) & g) & E).
  { assert (Z.abs (b mod a) < Z.abs a).
    { destruct (Z_lt_le_dec 0 a).
      - pose proof (Z.mod_pos_bound b a ltac:(lia)). lia.
      - pose proof (Z.mod_neg_bound b a ltac:(lia)). lia. }
    lia. }
  rewrite E. simpl. eauto.
Qed.

Lemma gcdex_rec_spec : forall fuel a b x y g, gcdex_rec fuel a b = Some (x, y, g) ->
  a * x + b * y = g /\ Z.abs g = Z.gcd a b.
Proof.
  induction fuel as [|fuel IH]; intros a b x y g H; [discriminate|]. cbn [gcdex_rec] in H.
  destruct (Z.eqb_spec a 0) as [->|Ha].
  - injection H as <- <- <-. split; [lia|]. symmetry; apply Z.gcd_0_l.
  - destruct (gcdex_rec fuel (b mod a) a) as [[[x1 y1] g1]|] eqn:E; [|discriminate].
    cbn in H. injection H as <- <- <-. apply IH in E as (E1 & E2). split.
    + rewrite <- E1. rewrite Z.mod_eq by exact Ha. ring.
    + rewrite E2, Z.gcd_mod by exact Ha. reflexivity.
Qed.

Lemma gcdex_total a b : exists x y g, gcdex a b = Some (x, y, g).
Proof. destruct (@gcdex_rec_total (S (Z.abs_nat a)) a b) as (((x & y) & g) & E); [lia|]. exists x, y, g. exact E. Qed.
Lemma gcdex_spec a b x y g : gcdex a b = Some (x, y, g) -> a * x + b * y = g /\ Z.abs g = Z.gcd a b.
Proof. apply gcdex_rec_spec. Qed.
Lemma gcdex_div a b x y g : gcdex a b = Some (x, y, g) -> (g | a) /\ (g | b).
Proof.
  intro H. apply gcdex_spec in H as (_ & H). split; apply Z.divide_abs_l; rewrite H;
    [apply Z.gcd_divide_l|apply Z.gcd_divide_r].
Qed.

(** ** Sums and function matrices *)

Definition sum (n : nat) (f : nat -> Z) : Z := zsum (map f (seq 0 n)).
Lemma sum_S n f : sum (S n) f = sum n f + f n.
Proof.
  unfold sum. rewrite seq_S, map_app. simpl. induction (map f (seq 0 n)); simpl; lia.
Qed.
Lemma sum_ext n f g : (forall i, (i < n)%nat -> f i = g i) -> sum n f = sum n g.
Proof. induction n; intro H; [reflexivity|]. rewrite !sum_S, IHn, H; auto. Qed.
Lemma sum_add n f g : sum n (fun i => f i + g i) = sum n f + sum n g.
Proof. induction n; [reflexivity|]. rewrite !sum_S, IHn. ring. Qed.
Lemma sum_mul n k f : sum n (fun i => k * f i) = k * sum n f.
Proof. induction n; [cbn; lia|]. rewrite !sum_S, IHn. ring. Qed.
Lemma sum_mul_r n k f : sum n (fun i => f i * k) = sum n f * k.
Proof. induction n; [cbn; lia|]. rewrite !sum_S, IHn. ring. Qed.
Lemma sum_0 n f : (forall i, (i < n)%nat -> f i = 0) -> sum n f = 0.
Proof. induction n; intro H; [reflexivity|]. rewrite sum_S, IHn, H; auto. Qed.
Lemma sum_swap n k f : sum n (fun i => sum k (f i)) = sum k (fun j => sum n (fun i => f i j)).
Proof.
  induction n.
  - symmetry. apply sum_0. reflexivity.
  - rewrite sum_S, IHn, <- sum_add. apply sum_ext. intros. rewrite sum_S. reflexivity.
Qed.
Definition delta (i j : nat) : Z := if Nat.eqb i j then 1 else 0.
Lemma delta_sym i j : delta i j = delta j i.
Proof. unfold delta. rewrite Nat.eqb_sym. reflexivity. Qed.
Lemma sum_delta n i f : (i < n)%nat -> sum n (fun l => delta l i * f l) = f i.
Proof.
  intro H. induction n; [lia|]. rewrite sum_S. unfold delta at 2.
  destruct (Nat.eqb_spec n i) as [->|Hn].
  - rewrite sum_0; [ring|]. intros j Hj. unfold delta. destruct (Nat.eqb_spec j i); lia.
  - rewrite IHn by lia. ring.
Qed.

Definition F := nat -> nat -> Z.
Definition meq (n d : nat) (A B : F) := forall i j, (i < n)%nat -> (j < d)%nat -> A i j = B i j.
Definition mm (k : nat) (A B : F) : F := fun i j => sum k (fun l => A i l * B l j).

Lemma meq_refl n d A : meq n d A A. Proof. intros i j _ _; reflexivity. Qed.
Lemma meq_sym n d A B : meq n d A B -> meq n d B A.
Proof. intros H i j Hi Hj. symmetry; auto. Qed.
Lemma meq_trans n d A B C : meq n d A B -> meq n d B C -> meq n d A C.
Proof. intros H1 H2 i j Hi Hj. rewrite H1, H2; auto. Qed.
Lemma mm_assoc p q A B C : forall i j, mm p (mm q A B) C i j = mm q A (mm p B C) i j.
Proof.
  intros i j. unfold mm.
  transitivity (sum p (fun l => sum q (fun k => A i k * B k l * C l j))).
  - apply sum_ext. intros. rewrite <- sum_mul_r. reflexivity.
  - rewrite sum_swap. apply sum_ext. intros. rewrite <- sum_mul. apply sum_ext. intros. ring.
Qed.
Lemma mm_ext n k d A A' B B' : meq n k A A' -> meq k d B B' -> meq n d (mm k A B) (mm k A' B').
Proof. intros H1 H2 i j Hi Hj. apply sum_ext. intros l Hl. rewrite H1, H2; auto. Qed.
Lemma mm_id_l n d A : meq n d (mm n delta A) A.
Proof.
  intros i j Hi Hj. unfold mm.
  rewrite (sum_ext (g := fun l => delta l i * A l j)).
  - apply sum_delta with (f := fun l => A l j); exact Hi.
  - intros. rewrite delta_sym. reflexivity.
Qed.
Lemma mm_id_r n d A : meq n d (mm d A delta) A.
Proof.
  intros i j Hi Hj. unfold mm.
  rewrite (sum_ext (g := fun l => delta l j * A i l)).
  - apply sum_delta with (f := fun l => A i l); exact Hj.
  - intros. ring.
Qed.

(** Elementary matrices. *)
Definition El (i0 i1 : nat) (a b c e : Z) : F := fun i j =>
  if Nat.eqb i i1 then c * delta j i0 + e * delta j i1
  else if Nat.eqb i i0 then a * delta j i0 + b * delta j i1
  else delta i j.

Lemma El_l n i0 i1 a b c e B i j : (i0 < n)%nat -> (i1 < n)%nat -> (i < n)%nat ->
  mm n (El i0 i1 a b c e) B i j =
  if Nat.eqb i i1 then c * B i0 j + e * B i1 j
  else if Nat.eqb i i0 then a * B i0 j + b * B i1 j else B i j.
Proof.
  intros H0 H1 Hi. unfold mm, El.
  assert (forall x y, sum n (fun l => (x * delta l i0 + y * delta l i1) * B l j) = x * B i0 j + y * B i1 j) as H.
  { intros x y. rewrite (sum_ext (g := fun l => x * (delta l i0 * B l j) + y * (delta l i1 * B l j))) by (intros; ring).
    rewrite sum_add, !sum_mul. rewrite !(fun i => @sum_delta n i (fun l => B l j)) by assumption. reflexivity. }
  destruct (Nat.eqb i i1); [apply H|]. destruct (Nat.eqb i i0); [apply H|].
  rewrite (sum_ext (g := fun l => delta l i * B l j)); [apply (@sum_delta _ _ (fun l => B l j)); exact Hi|].
  intros; rewrite delta_sym; reflexivity.
Qed.

Lemma El_r n i0 i1 a b c e B i j : (i0 < n)%nat -> (i1 < n)%nat -> (j < n)%nat -> i0 <> i1 ->
  mm n B (El i0 i1 a b c e) i j =
  if Nat.eqb j i1 then b * B i i0 + e * B i i1
  else if Nat.eqb j i0 then a * B i i0 + c * B i i1 else B i j.
Proof.
  intros H0 H1 Hj Hne. unfold mm.
  assert (forall l, El i0 i1 a b c e l j =
     delta l i0 * (if Nat.eqb j i1 then b else if Nat.eqb j i0 then a else 0)
     + delta l i1 * (if Nat.eqb j i1 then e else if Nat.eqb j i0 then c else 0)
     + delta l j * (if Nat.eqb j i1 then 0 else if Nat.eqb j i0 then 0 else 1)) as HE.
  { intro l. unfold El, delta.
    destruct (Nat.eqb_spec l i1), (Nat.eqb_spec l i0), (Nat.eqb_spec j i1), (Nat.eqb_spec j i0), (Nat.eqb_spec l j);
      subst; try congruence; try lia. }
  rewrite (sum_ext (g := fun l =>
     delta l i0 * ((if Nat.eqb j i1 then b else if Nat.eqb j i0 then a else 0) * B i l)
     + delta l i1 * ((if Nat.eqb j i1 then e else if Nat.eqb j i0 then c else 0) * B i l)
     + delta l j * ((if Nat.eqb j i1 then 0 else if Nat.eqb j i0 then 0 else 1) * B i l)))
    by (intros; rewrite HE; ring).
  rewrite !sum_add.
  rewrite (@sum_delta _ _ (fun l => (if Nat.eqb j i1 then b else if Nat.eqb j i0 then a else 0) * B i l)) by exact H0.
  rewrite (@sum_delta _ _ (fun l => (if Nat.eqb j i1 then e else if Nat.eqb j i0 then c else 0) * B i l)) by exact H1.
  rewrite (@sum_delta _ _ (fun l => (if Nat.eqb j i1 then 0 else if Nat.eqb j i0 then 0 else 1) * B i l)) by exact Hj.
  destruct (Nat.eqb j i1), (Nat.eqb j i0); ring.
Qed.

Lemma El_inv n i0 i1 a b c e D : (i0 < n)%nat -> (i1 < n)%nat -> i0 <> i1 ->
  D = a * e - b * c -> D * D = 1 ->
  meq n n (mm n (El i0 i1 a b c e) (El i0 i1 (D * e) (- D * b) (- D * c) (D * a))) delta.
Proof.
  intros H0 H1 Hne HD HD2 i j Hi Hj. rewrite El_l by assumption.
  assert (a * (D * e) + b * (- D * c) = 1) as P1 by (rewrite <- HD2, HD; ring).
  assert (c * (- D * b) + e * (D * a) = 1) as P2 by (rewrite <- HD2, HD; ring).
  unfold El, delta.
  rewrite !Nat.eqb_refl.
  destruct (Nat.eqb_spec i i1), (Nat.eqb_spec i i0), (Nat.eqb_spec i0 i1), (Nat.eqb_spec j i0), (Nat.eqb_spec j i1), (Nat.eqb_spec i j);
    subst; try congruence; try lia.
Qed.

(** ** Lists of rows *)

Lemma get_tab n d f i j : (i < n)%nat -> (j < d)%nat -> get (tab n d f) i j = f i j.
Proof.
  intros Hi Hj. unfold get, tab.
  rewrite (nth_indep _ [] (map (f 0%nat) (seq 0 d))) by (rewrite map_length, seq_length; exact Hi).
  rewrite (map_nth (fun i => map (f i) (seq 0 d))), seq_nth by exact Hi.
  rewrite (nth_indep _ 0 (f (0 + i)%nat 0%nat)) by (rewrite map_length, seq_length; exact Hj).
  rewrite map_nth, seq_nth by exact Hj. reflexivity.
Qed.

(** Two-sided integer inverse. *)
Definition invertible (n : nat) (A : F) :=
  exists B, meq n n (mm n A B) delta /\ meq n n (mm n B A) delta.

Lemma invertible_ext n A B : meq n n A B -> invertible n A -> invertible n B.
Proof.
  intros H (C & H1 & H2). exists C. split.
  - eapply meq_trans; [|exact H1]. apply mm_ext; [apply meq_sym, H|apply meq_refl].
  - eapply meq_trans; [|exact H2]. apply mm_ext; [apply meq_refl|apply meq_sym, H].
Qed.
Lemma invertible_mm n A B : invertible n A -> invertible n B -> invertible n (mm n A B).
Proof.
  intros (A' & H1 & H2) (B' & H3 & H4). exists (mm n B' A'). split; intros i j Hi Hj.
  - rewrite mm_assoc.
    transitivity (mm n A A' i j); [|apply H1; auto].
    apply (mm_ext (n := n) (d := n)); [apply meq_refl| |exact Hi|exact Hj].
    intros k l Hk Hl. rewrite <- mm_assoc.
    transitivity (mm n delta A' k l); [|apply (mm_id_l (d := n)); auto].
    apply (mm_ext (n := n) (d := n)); auto. apply meq_refl.
  - rewrite mm_assoc.
    transitivity (mm n B' B i j); [|apply H4; auto].
    apply (mm_ext (n := n) (d := n)); [apply meq_refl| |exact Hi|exact Hj].
    intros k l Hk Hl. rewrite <- mm_assoc.
    transitivity (mm n delta B k l); [|apply (mm_id_l (d := n)); auto].
    apply (mm_ext (n := n) (d := n)); auto. apply meq_refl.
Qed.
Lemma invertible_id n : invertible n delta.
Proof. exists delta. split; apply mm_id_l. Qed.
Lemma invertible_El n i0 i1 a b c e : (i0 < n)%nat -> (i1 < n)%nat -> i0 <> i1 ->
  (a * e - b * c) * (a * e - b * c) = 1 -> invertible n (El i0 i1 a b c e).
Proof.
  intros H0 H1 Hne HD. set (D := a * e - b * c) in *.
  exists (El i0 i1 (D * e) (- D * b) (- D * c) (D * a)). split.
  - apply El_inv; auto.
  - assert (a = D * (D * a)) as Ea by (rewrite Z.mul_assoc, HD; ring).
    assert (b = - D * (- D * b)) as Eb by (transitivity (D * D * b); [rewrite HD|]; ring).
    assert (c = - D * (- D * c)) as Ec by (transitivity (D * D * c); [rewrite HD|]; ring).
    assert (e = D * (D * e)) as Ee by (rewrite Z.mul_assoc, HD; ring).
    assert (meq n n (El i0 i1 a b c e)
              (El i0 i1 (D * (D * a)) (- D * (- D * b)) (- D * (- D * c)) (D * (D * e)))) as HE.
    { rewrite <- Ea, <- Eb, <- Ec, <- Ee. apply meq_refl. }
    eapply meq_trans; [apply mm_ext; [apply meq_refl|exact HE]|].
    apply El_inv; auto. transitivity (D * D * D); [rewrite HD|]; unfold D; ring.
Qed.

Lemma leftmult_El n d m i0 i1 a b c e : (i0 < n)%nat -> (i1 < n)%nat ->
  meq n d (get (leftmult n d m i0 i1 a b c e)) (mm n (El i0 i1 a b c e) (get m)).
Proof. intros H0 H1 i j Hi Hj. unfold leftmult. rewrite get_tab, El_l by assumption. reflexivity. Qed.
Lemma rightmult_El n d m j0 j1 a b c e : (j0 < d)%nat -> (j1 < d)%nat -> j0 <> j1 ->
  meq n d (get (rightmult n d m j0 j1 a b c e)) (mm d (get m) (El j0 j1 a b c e)).
Proof. intros H0 H1 Hne i j Hi Hj. unfold rightmult. rewrite get_tab, El_r by assumption. reflexivity. Qed.

(** ** The decomposition invariant *)

Section Snf.
Variables (n d : nat) (A : mat).

Definition shape (k l : nat) (m : mat) := length m = k /\ Forall (fun r => length r = l) m.
Lemma tab_shape k l f : shape k l (tab k l f).
Proof.
  unfold shape, tab. split; [rewrite map_length, seq_length; reflexivity|].
  apply Forall_forall. intros r Hr. apply in_map_iff in Hr as (i & <- & _).
  rewrite map_length, seq_length. reflexivity.
Qed.
Definition shapes (x : snf_state) := shape n n (st_s x) /\ shape n d (st_m x) /\ shape d d (st_t x).
Definition decomp (x : snf_state) : Prop :=
  shapes x /\ invertible n (get (st_s x)) /\ invertible d (get (st_t x)) /\
  meq n d (get (st_m x)) (mm d (mm n (get (st_s x)) (get A)) (get (st_t x))).

Lemma decomp_row x i0 i1 a b c e : (i0 < n)%nat -> (i1 < n)%nat -> i0 <> i1 ->
  (a * e - b * c) * (a * e - b * c) = 1 -> decomp x -> decomp (row_op n d x i0 i1 a b c e).
Proof.
  intros H0 H1 Hne HD ((Sa & Sb & Sc) & Hs & Ht & Hm). unfold decomp, shapes, row_op; cbn [st_s st_t st_m].
  split; [split; [apply tab_shape|split; [apply tab_shape|exact Sc]]|]. split; [|split].
  - apply (invertible_ext (A := mm n (El i0 i1 a b c e) (get (st_s x)))).
    + apply meq_sym, leftmult_El; assumption.
    + apply invertible_mm; [apply invertible_El; assumption|exact Hs].
  - exact Ht.
  - eapply meq_trans; [apply leftmult_El; assumption|].
    eapply meq_trans; [apply mm_ext; [apply meq_refl|exact Hm]|].
    intros i j Hi Hj. rewrite <- mm_assoc.
    apply (mm_ext (n := n) (d := d)); [|apply meq_refl|exact Hi|exact Hj].
    intros k l Hk Hl. rewrite <- mm_assoc.
    apply (mm_ext (n := n) (d := d)); [|apply meq_refl|exact Hk|exact Hl].
    apply meq_sym, leftmult_El; assumption.
Qed.
Lemma decomp_col x j0 j1 a b c e : (j0 < d)%nat -> (j1 < d)%nat -> j0 <> j1 ->
  (a * e - b * c) * (a * e - b * c) = 1 -> decomp x -> decomp (col_op n d x j0 j1 a b c e).
Proof.
  intros H0 H1 Hne HD ((Sa & Sb & Sc) & Hs & Ht & Hm). unfold decomp, shapes, col_op; cbn [st_s st_t st_m].
  split; [split; [exact Sa|split; apply tab_shape]|]. split; [|split].
  - exact Hs.
  - apply (invertible_ext (A := mm d (get (st_t x)) (El j0 j1 a b c e))).
    + apply meq_sym, rightmult_El; assumption.
    + apply invertible_mm; [exact Ht|apply invertible_El; assumption].
  - eapply meq_trans; [apply rightmult_El; assumption|].
    eapply meq_trans; [apply mm_ext; [exact Hm|apply meq_refl]|].
    intros i j Hi Hj. rewrite mm_assoc.
    apply (mm_ext (n := n) (d := d)); [apply meq_refl| |exact Hi|exact Hj].
    apply meq_sym, rightmult_El; assumption.
Qed.
(** The exchange of a column with itself. *)
Lemma decomp_col_same x j : (j < d)%nat -> decomp x -> decomp (col_op n d x j j 0 1 1 0).
Proof.
  intros Hj ((Sa & Sb & Sc) & Hs & Ht & Hm). unfold decomp, shapes, col_op; cbn [st_s st_t st_m].
  split; [split; [exact Sa|split; apply tab_shape]|].
  assert (forall k m, meq k d (get (rightmult k d m j j 0 1 1 0)) (get m)) as Hid.
  { intros k m i l Hi Hl. unfold rightmult. rewrite get_tab by assumption.
    destruct (Nat.eqb_spec l j); subst; lia. }
  split; [exact Hs|]. split.
  - apply (invertible_ext (A := get (st_t x))); [apply meq_sym, Hid|exact Ht].
  - eapply meq_trans; [apply Hid|]. eapply meq_trans; [exact Hm|].
    apply mm_ext; [apply meq_refl|]. apply meq_sym, Hid.
Qed.

(** Entries after a row or column operation. *)
Lemma row_get x i0 i1 a b c e i j : (i < n)%nat -> (j < d)%nat ->
  get (st_m (row_op n d x i0 i1 a b c e)) i j =
  if Nat.eqb i i1 then c * get (st_m x) i0 j + e * get (st_m x) i1 j
  else if Nat.eqb i i0 then a * get (st_m x) i0 j + b * get (st_m x) i1 j
  else get (st_m x) i j.
Proof. intros Hi Hj. unfold row_op, leftmult; cbn [st_m]. apply get_tab; assumption. Qed.
Lemma col_get x j0 j1 a b c e i j : (i < n)%nat -> (j < d)%nat ->
  get (st_m (col_op n d x j0 j1 a b c e)) i j =
  if Nat.eqb j j1 then b * get (st_m x) i j0 + e * get (st_m x) i j1
  else if Nat.eqb j j0 then a * get (st_m x) i j0 + c * get (st_m x) i j1
  else get (st_m x) i j.
Proof. intros Hi Hj. unfold col_op, rightmult; cbn [st_m]. apply get_tab; assumption. Qed.

(** Rows and columns before [i] are cleared, with non-zero pivots. *)
Definition cleared (i : nat) (x : snf_state) : Prop :=
  (forall r c, (r < n)%nat -> (c < d)%nat -> r <> c -> (r < i \/ c < i)%nat -> get (st_m x) r c = 0) /\
  (forall r, (r < i)%nat -> (r < n)%nat -> (r < d)%nat -> get (st_m x) r r <> 0).

Lemma cleared_row i x i0 i1 a b c e : (i <= i0 < n)%nat -> (i <= i1 < n)%nat ->
  cleared i x -> cleared i (row_op n d x i0 i1 a b c e).
Proof.
  intros H0 H1 (C1 & C2). split.
  - intros r c0 Hr Hc Hne Hlt. rewrite row_get by assumption.
    destruct (Nat.eqb_spec r i1) as [->|]; [|destruct (Nat.eqb_spec r i0) as [->|]].
    + rewrite (C1 i0 c0), (C1 i1 c0) by lia. ring.
    + rewrite (C1 i0 c0), (C1 i1 c0) by lia. ring.
    + apply C1; assumption.
  - intros r Hr Hn Hd. rewrite row_get by assumption.
    destruct (Nat.eqb_spec r i1); [lia|]. destruct (Nat.eqb_spec r i0); [lia|]. apply C2; assumption.
Qed.
Lemma cleared_col i x j0 j1 a b c e : (i <= j0 < d)%nat -> (i <= j1 < d)%nat ->
  cleared i x -> cleared i (col_op n d x j0 j1 a b c e).
Proof.
  intros H0 H1 (C1 & C2). split.
  - intros r c0 Hr Hc Hne Hlt. rewrite col_get by assumption.
    destruct (Nat.eqb_spec c0 j1) as [->|]; [|destruct (Nat.eqb_spec c0 j0) as [->|]].
    + rewrite (C1 r j0), (C1 r j1) by lia. ring.
    + rewrite (C1 r j0), (C1 r j1) by lia. ring.
    + apply C1; assumption.
  - intros r Hr Hn Hd. rewrite col_get by assumption.
    destruct (Nat.eqb_spec r j1); [lia|]. destruct (Nat.eqb_spec r j0); [lia|]. apply C2; assumption.
Qed.

(** ** One round of the while loop *)

Section Round.
Variable i : nat.
Hypothesis Hin : (i < n)%nat.
Hypothesis Hid : (i < d)%nat.

Definition piv (x : snf_state) := get (st_m x) i i.
Definition ok (x : snf_state) := decomp x /\ cleared i x /\ piv x <> 0.

Lemma not_divides p q g : p <> 0 -> q mod p <> 0 -> Z.abs g = Z.gcd p q ->
  g <> 0 /\ Z.abs g < Z.abs p.
Proof.
  intros Hp Hq Hg. assert (Z.gcd p q <> 0) by (intro E; apply Z.gcd_eq_0_l in E; contradiction).
  split; [lia|]. pose proof (Z.gcd_divide_l p q) as Hl. pose proof (Z.gcd_divide_r p q) as Hr.
  rewrite <- Hg in Hl, Hr. apply (Z.divide_abs_l g) in Hl. apply (Z.divide_abs_l g) in Hr.
  assert (Z.abs g <= Z.abs p).
  { apply Z.divide_pos_le; [lia|]. apply Z.divide_abs_l, Z.divide_abs_r. exact Hl. }
  assert (Z.abs g <> Z.abs p); [|lia].
  intro E. apply Hq, Z.mod_divide; [exact Hp|].
  apply Z.divide_abs_l. rewrite <- E. apply Z.divide_abs_l. exact Hr.
Qed.

(** Progress of the pivot in a sweep: unchanged together with its row (column) or
    strictly smaller. *)
Definition row_kept (x y : snf_state) := forall c, (c < d)%nat -> get (st_m y) i c = get (st_m x) i c.
Definition col_kept (x y : snf_state) := forall r, (r < n)%nat -> get (st_m y) r i = get (st_m x) r i.

Lemma clear_row_step x u ii : ok x -> (i < ii < n)%nat ->
  exists y u', clear_row n d i (x, u) ii = Some (y, u') /\ ok y /\
    (row_kept x y \/ Z.abs (piv y) < Z.abs (piv x)) /\
    get (st_m y) ii i = 0 /\
    (forall r c, (r < n)%nat -> (c < d)%nat -> r <> i -> r <> ii -> get (st_m y) r c = get (st_m x) r c) /\
    (u' = true \/ (y = x /\ u' = u)).
Proof.
  intros (Dx & Cx & Px) Hii. unfold clear_row, piv in *.
  set (p := get (st_m x) i i) in *. set (q := get (st_m x) ii i) in *.
  destruct (Z.eqb_spec q 0) as [Hq|Hq].
  - exists x, u. split; [reflexivity|]. split; [exact (conj Dx (conj Cx Px))|].
    split; [left; intros c _; reflexivity|]. split; [exact Hq|]. split; [auto|]. right; auto.
  - destruct (Z.eqb_spec (q mod p) 0) as [Hm|Hm].
    + cbn [option_bind]. fold p q. eexists _, true. split; [reflexivity|].
      assert (q = p * (q / p)) as Hdiv.
      { pose proof (Z.div_mod q p Px). lia. }
      assert (forall r c, (r < n)%nat -> (c < d)%nat -> r <> ii ->
         get (st_m (row_op n d x i ii 1 0 (- (q / p)) 1)) r c = get (st_m x) r c) as Hsame.
      { intros r c Hr Hc Hne. rewrite row_get by lia.
        destruct (Nat.eqb_spec r ii); [contradiction|]. destruct (Nat.eqb_spec r i); [subst; ring|reflexivity]. }
      split; [|split; [|split; [|split]]].
      * split; [apply decomp_row; [lia|lia|lia|lia|exact Dx]|]. split; [apply cleared_row; [lia|lia|exact Cx]|].
        unfold piv. rewrite Hsame by lia. exact Px.
      * left. intros c Hc. apply Hsame; lia.
      * rewrite row_get by lia. rewrite Nat.eqb_refl. fold p q. lia.
      * intros r c Hr Hc H1 H2. apply Hsame; assumption.
      * left; reflexivity.
    + destruct (gcdex_total p q) as (c1 & c2 & g & Hg). rewrite Hg. cbn [option_bind].
      destruct (gcdex_spec Hg) as (Hb & Hab). destruct (gcdex_div Hg) as ((p' & Hp') & (q' & Hq')).
      destruct (not_divides Px Hm Hab) as (Hg0 & Hlt).
      assert (p / g = p') as Ep by (rewrite Hp'; apply Z.div_mul; exact Hg0).
      assert (q / g = q') as Eq by (rewrite Hq'; apply Z.div_mul; exact Hg0).
      rewrite Ep, Eq.
      set (x1 := row_op n d x i ii c1 c2 (- q') p').
      assert (p' * c1 + q' * c2 = 1) as Hdet.
      { apply Z.mul_reg_r with g; [exact Hg0|]. rewrite Hp', Hq' in Hb at 1. lia. }
      assert (get (st_m x1) ii i = 0) as E1.
      { unfold x1. rewrite row_get by lia. rewrite Nat.eqb_refl. fold p q. rewrite Hp', Hq'. ring. }
      assert (get (st_m x1) i i = g) as E2.
      { unfold x1. rewrite row_get by lia. destruct (Nat.eqb_spec i ii); [lia|]. rewrite Nat.eqb_refl.
        fold p q. lia. }
      rewrite E1, E2, Z.div_0_l by exact Hg0.
      eexists _, true. split; [reflexivity|].
      assert (decomp x1) as D1.
      { apply decomp_row; [lia|lia|lia| |exact Dx].
        assert (c1 * p' - c2 * - q' = 1) as -> by lia. reflexivity. }
      assert (cleared i x1) as C1 by (apply cleared_row; [lia|lia|exact Cx]).
      assert (forall r c, (r < n)%nat -> (c < d)%nat ->
         get (st_m (row_op n d x1 i ii 1 0 (- 0) 1)) r c = get (st_m x1) r c) as Hsame.
      { intros r c Hr Hc. rewrite row_get by lia.
        destruct (Nat.eqb_spec r ii); [subst; ring|]. destruct (Nat.eqb_spec r i); [subst; ring|reflexivity]. }
      split; [|split; [|split; [|split]]].
      * split; [apply decomp_row; [lia|lia|lia|lia|exact D1]|]. split; [apply cleared_row; [lia|lia|exact C1]|].
        unfold piv. rewrite Hsame, E2 by lia. exact Hg0.
      * right. rewrite Hsame, E2 by lia. exact Hlt.
      * rewrite Hsame, E1 by lia. reflexivity.
      * intros r c Hr Hc H1 H2. rewrite Hsame by assumption. unfold x1. rewrite row_get by lia.
        destruct (Nat.eqb_spec r ii); [contradiction|]. destruct (Nat.eqb_spec r i); [contradiction|reflexivity].
      * left; reflexivity.
Qed.

Lemma clear_col_step x u jj : ok x -> (i < jj < d)%nat ->
  exists y u', clear_col n d i (x, u) jj = Some (y, u') /\ ok y /\
    (col_kept x y \/ Z.abs (piv y) < Z.abs (piv x)) /\
    get (st_m y) i jj = 0 /\
    (forall r c, (r < n)%nat -> (c < d)%nat -> c <> i -> c <> jj -> get (st_m y) r c = get (st_m x) r c) /\
    (u' = true \/ (y = x /\ u' = u)).
Proof.
  intros (Dx & Cx & Px) Hjj. unfold clear_col, piv in *.
  set (p := get (st_m x) i i) in *. set (q := get (st_m x) i jj) in *.
  destruct (Z.eqb_spec q 0) as [Hq|Hq].
  - exists x, u. split; [reflexivity|]. split; [exact (conj Dx (conj Cx Px))|].
    split; [left; intros c _; reflexivity|]. split; [exact Hq|]. split; [auto|]. right; auto.
  - destruct (Z.eqb_spec (q mod p) 0) as [Hm|Hm].
    + cbn [option_bind]. fold p q. eexists _, true. split; [reflexivity|].
      assert (q = p * (q / p)) as Hdiv.
      { pose proof (Z.div_mod q p Px). lia. }
      assert (forall r c, (r < n)%nat -> (c < d)%nat -> c <> jj ->
         get (st_m (col_op n d x i jj 1 (- (q / p)) 0 1)) r c = get (st_m x) r c) as Hsame.
      { intros r c Hr Hc Hne. rewrite col_get by lia.
        destruct (Nat.eqb_spec c jj); [contradiction|]. destruct (Nat.eqb_spec c i); [subst; ring|reflexivity]. }
      split; [|split; [|split; [|split]]].
      * split; [apply decomp_col; [lia|lia|lia|lia|exact Dx]|]. split; [apply cleared_col; [lia|lia|exact Cx]|].
        unfold piv. rewrite Hsame by lia. exact Px.
      * left. intros c Hc. apply Hsame; lia.
      * rewrite col_get by lia. rewrite Nat.eqb_refl. fold p q. lia.
      * intros r c Hr Hc H1 H2. apply Hsame; assumption.
      * left; reflexivity.
    + destruct (gcdex_total p q) as (c1 & c2 & g & Hg). rewrite Hg. cbn [option_bind].
      destruct (gcdex_spec Hg) as (Hb & Hab). destruct (gcdex_div Hg) as ((p' & Hp') & (q' & Hq')).
      destruct (not_divides Px Hm Hab) as (Hg0 & Hlt).
      assert (p / g = p') as Ep by (rewrite Hp'; apply Z.div_mul; exact Hg0).
      assert (q / g = q') as Eq by (rewrite Hq'; apply Z.div_mul; exact Hg0).
      rewrite Ep, Eq.
      set (x1 := col_op n d x i jj c1 (- q') c2 p').
      assert (p' * c1 + q' * c2 = 1) as Hdet.
      { apply Z.mul_reg_r with g; [exact Hg0|]. rewrite Hp', Hq' in Hb at 1. lia. }
      assert (get (st_m x1) i jj = 0) as E1.
      { unfold x1. rewrite col_get by lia. rewrite Nat.eqb_refl. fold p q. rewrite Hp', Hq'. ring. }
      assert (get (st_m x1) i i = g) as E2.
      { unfold x1. rewrite col_get by lia. destruct (Nat.eqb_spec i jj); [lia|]. rewrite Nat.eqb_refl.
        fold p q. lia. }
      rewrite E1, E2, Z.div_0_l by exact Hg0.
      eexists _, true. split; [reflexivity|].
      assert (decomp x1) as D1.
      { apply decomp_col; [lia|lia|lia| |exact Dx].
        assert (c1 * p' - - q' * c2 = 1) as -> by lia. reflexivity. }
      assert (cleared i x1) as C1 by (apply cleared_col; [lia|lia|exact Cx]).
      assert (forall r c, (r < n)%nat -> (c < d)%nat ->
         get (st_m (col_op n d x1 i jj 1 (- 0) 0 1)) r c = get (st_m x1) r c) as Hsame.
      { intros r c Hr Hc. rewrite col_get by lia.
        destruct (Nat.eqb_spec c jj); [subst; ring|]. destruct (Nat.eqb_spec c i); [subst; ring|reflexivity]. }
      split; [|split; [|split; [|split]]].
      * split; [apply decomp_col; [lia|lia|lia|lia|exact D1]|]. split; [apply cleared_col; [lia|lia|exact C1]|].
        unfold piv. rewrite Hsame, E2 by lia. exact Hg0.
      * right. rewrite Hsame, E2 by lia. exact Hlt.
      * rewrite Hsame, E1 by lia. reflexivity.
      * intros r c Hr Hc H1 H2. rewrite Hsame by assumption. unfold x1. rewrite col_get by lia.
        destruct (Nat.eqb_spec c jj); [contradiction|]. destruct (Nat.eqb_spec c i); [contradiction|reflexivity].
      * left; reflexivity.
Qed.

Lemma row_sweep : forall k s x u, ok x -> (i < s)%nat -> (s + k <= n)%nat ->
  (forall r, (i < r < s)%nat -> get (st_m x) r i = 0) ->
  exists y u', foldo (clear_row n d i) (seq s k) (x, u) = Some (y, u') /\ ok y /\
    (row_kept x y \/ Z.abs (piv y) < Z.abs (piv x)) /\
    (forall r, (i < r < s + k)%nat -> get (st_m y) r i = 0) /\
    (u' = true \/ (y = x /\ u' = u)).
Proof.
  induction k as [|k IH]; intros s x u Ox Hs Hk Hz; cbn [seq foldo].
  - exists x, u. split; [reflexivity|]. split; [exact Ox|]. split; [left; intros c _; reflexivity|].
    split; [intros r Hr; apply Hz; lia|]. right; auto.
  - destruct (@clear_row_step x u s Ox) as (y & u1 & E & Oy & K & Z0 & Hoth & U); [lia|].
    rewrite E. cbn [option_bind].
    destruct (IH (S s) y u1 Oy) as (z & u2 & E2 & Oz & K2 & Z2 & U2); [lia|lia| |].
    { intros r Hr. destruct (Nat.eq_dec r s) as [->|Hne]; [exact Z0|]. rewrite Hoth by lia. apply Hz. lia. }
    exists z, u2. split; [exact E2|]. split; [exact Oz|]. split; [|split].
    + destruct K as [K|K], K2 as [K2|K2].
      * left. intros c Hc. rewrite K2, K by exact Hc. reflexivity.
      * right. unfold piv in *. rewrite (K i Hid) in K2. exact K2.
      * right. unfold piv in *. rewrite (K2 i Hid). exact K.
      * right. lia.
    + intros r Hr. apply Z2. lia.
    + destruct U2 as [->|(-> & ->)]; [left; reflexivity|]. destruct U as [->|(-> & ->)]; auto.
Qed.
Lemma col_sweep : forall k s x u, ok x -> (i < s)%nat -> (s + k <= d)%nat ->
  (forall c, (i < c < s)%nat -> get (st_m x) i c = 0) ->
  exists y u', foldo (clear_col n d i) (seq s k) (x, u) = Some (y, u') /\ ok y /\
    (col_kept x y \/ Z.abs (piv y) < Z.abs (piv x)) /\
    (forall c, (i < c < s + k)%nat -> get (st_m y) i c = 0) /\
    (u' = true \/ (y = x /\ u' = u)).
Proof.
  induction k as [|k IH]; intros s x u Ox Hs Hk Hz; cbn [seq foldo].
  - exists x, u. split; [reflexivity|]. split; [exact Ox|]. split; [left; intros c _; reflexivity|].
    split; [intros r Hr; apply Hz; lia|]. right; auto.
  - destruct (@clear_col_step x u s Ox) as (y & u1 & E & Oy & K & Z0 & Hoth & U); [lia|].
    rewrite E. cbn [option_bind].
    destruct (IH (S s) y u1 Oy) as (z & u2 & E2 & Oz & K2 & Z2 & U2); [lia|lia| |].
    { intros r Hr. destruct (Nat.eq_dec r s) as [->|Hne]; [exact Z0|]. rewrite Hoth by lia. apply Hz. lia. }
    exists z, u2. split; [exact E2|]. split; [exact Oz|]. split; [|split].
    + destruct K as [K|K], K2 as [K2|K2].
      * left. intros c Hc. rewrite K2, K by exact Hc. reflexivity.
      * right. unfold piv in *. rewrite (K i Hin) in K2. exact K2.
      * right. unfold piv in *. rewrite (K2 i Hin). exact K.
      * right. lia.
    + intros r Hr. apply Z2. lia.
    + destruct U2 as [->|(-> & ->)]; [left; reflexivity|]. destruct U as [->|(-> & ->)]; auto.
Qed.

Definition cross (x : snf_state) :=
  (forall r, (i < r < n)%nat -> get (st_m x) r i = 0) /\
  (forall c, (i < c < d)%nat -> get (st_m x) i c = 0).

Lemma foldo_row_idle x : cross x -> forall k s u, (i < s)%nat -> (s + k <= n)%nat ->
  foldo (clear_row n d i) (seq s k) (x, u) = Some (x, u).
Proof.
  intros (C1 & C2). induction k as [|k IH]; intros s u Hs Hk; [reflexivity|].
  cbn [seq foldo]. unfold clear_row at 1. rewrite (C1 s) by lia. cbn [Z.eqb option_bind]. apply IH; lia.
Qed.
Lemma foldo_col_idle x : cross x -> forall k s u, (i < s)%nat -> (s + k <= d)%nat ->
  foldo (clear_col n d i) (seq s k) (x, u) = Some (x, u).
Proof.
  intros (C1 & C2). induction k as [|k IH]; intros s u Hs Hk; [reflexivity|].
  cbn [seq foldo]. unfold clear_col at 1. rewrite (C2 s) by lia. cbn [Z.eqb option_bind]. apply IH; lia.
Qed.

Lemma clear_cross_idle fuel x : cross x -> clear_cross (S fuel) n d i x = Some x.
Proof.
  intro C. cbn [clear_cross]. rewrite (foldo_row_idle C) by lia. cbn [option_bind].
  rewrite (foldo_col_idle C) by lia. reflexivity.
Qed.

Lemma clear_cross_ok : forall fuel x, ok x -> (Z.abs_nat (piv x) + 2 <= fuel)%nat ->
  exists y, clear_cross fuel n d i x = Some y /\ ok y /\ cross y.
Proof.
  induction fuel as [|fuel IH]; intros x Ox Hf; [lia|]. cbn [clear_cross].
  destruct (@row_sweep (n - S i) (S i) x false Ox) as (y & u1 & E1 & Oy & K1 & Z1 & U1); [lia|lia|lia|].
  rewrite E1. cbn [option_bind].
  destruct (@col_sweep (d - S i) (S i) y u1 Oy) as (z & u2 & E2 & Oz & K2 & Z2 & U2); [lia|lia|lia|].
  rewrite E2. cbn [option_bind fst snd]. destruct u2.
  - assert (cross z \/ Z.abs (piv z) < Z.abs (piv x)) as [C|L].
    { destruct K2 as [K2|K2].
      - destruct K1 as [K1|K1].
        + left. split; intros r Hr; [|apply Z2; lia]. rewrite K2 by lia. apply Z1. lia.
        + right. unfold piv in *. rewrite (K2 i Hin). exact K1.
      - right. destruct K1 as [K1|K1]; [|lia]. unfold piv in *. rewrite <- (K1 i Hid). exact K2. }
    + destruct fuel as [|fuel]; [lia|]. rewrite (clear_cross_idle fuel C). eauto.
    + apply IH; [exact Oz|]. lia.
  - destruct U2 as [HU|(-> & <-)]; [discriminate|].
    exists y. split; [reflexivity|]. split; [exact Oy|]. split; intros r Hr; [apply Z1; lia|apply Z2; lia].
Qed.
End Round.

(** ** The loop over rows *)

Definition diagonal (k : nat) (x : snf_state) : Prop :=
  (forall r c, (r < n)%nat -> (c < d)%nat -> r <> c -> get (st_m x) r c = 0) /\
  (forall r, (r < n)%nat -> (r < d)%nat -> (get (st_m x) r r <> 0 <-> (r < k)%nat)).

Lemma find_none A0 (f : A0 -> bool) l : find f l = None -> forall x, In x l -> f x = false.
Proof. intros H x Hx. exact (find_none f l H x Hx). Qed.

Lemma find_first f : forall k s x, find f (seq s k) = Some x -> f x = true /\ (s <= x < s + k)%nat.
Proof.
  intros k s x H. destruct (find_some f _ H) as (H1 & H2). apply in_seq in H1. split; [exact H2|lia].
Qed.

Lemma diagonalise_ok : forall k i x, (i + k = n)%nat -> decomp x -> cleared i x ->
  exists y rk, diagonalise n d (seq i k) x = Some y /\ decomp y /\ diagonal rk y.
Proof.
  induction k as [|k IH]; intros i x Hik Dx Cx; cbn [seq diagonalise].
  - exists x, n. split; [reflexivity|]. split; [exact Dx|]. destruct Cx as (C1 & C2). split.
    + intros r c Hr Hc Hne. apply C1; auto. left; lia.
    + intros r Hr Hd. split; [intros _; exact Hr|]. intros _. apply C2; lia.
  - destruct (find _ _) as [j|] eqn:Ej.
    + apply find_first in Ej as (Hnz & Hj).
      assert (i < d)%nat as Hid by lia. assert (i < n)%nat as Hin by lia.
      (* a row with a non-zero entry in column j *)
      assert (exists r, (i <= r < n)%nat /\ get (st_m x) r j <> 0) as (r0 & Hr0 & Hr0z).
      { apply Bool.negb_true_iff in Hnz. unfold column_zero in Hnz.
        destruct (forallb _ _) eqn:Ef in Hnz; [discriminate|].
        apply Bool.not_true_iff_false in Ef. rewrite forallb_forall in Ef.
        destruct (existsb (fun r => negb (get (st_m x) r j =? 0)) (seq 0 n)) eqn:Ee.
        - apply existsb_exists in Ee as (r & Hr & Hz). apply in_seq in Hr.
          apply Bool.negb_true_iff, Z.eqb_neq in Hz. exists r. split; [|exact Hz].
          destruct (Nat.lt_ge_cases r i) as [Hlt|Hge]; [|lia].
          exfalso. apply Hz. destruct Cx as (C1 & _). apply C1; lia.
        - exfalso. apply Ef. intros r Hr. destruct (get (st_m x) r j =? 0) eqn:E; [reflexivity|].
          exfalso. apply Bool.not_true_iff_false in Ee. apply Ee. apply existsb_exists. exists r. rewrite E. auto. }
      set (x1 := if get (st_m x) i j =? 0 then _ else x).
      assert (decomp x1 /\ cleared i x1 /\ get (st_m x1) i j <> 0) as (D1 & C1 & P1).
      { unfold x1. destruct (Z.eqb_spec (get (st_m x) i j) 0) as [Hz|Hz]; [|auto].
        destruct (find _ (seq 0 n)) as [ii|] eqn:Eii.
        - apply find_first in Eii as (Hii & Hiir). apply Bool.negb_true_iff, Z.eqb_neq in Hii.
          assert (i < ii)%nat as Hlt.
          { destruct (Nat.lt_trichotomy ii i) as [Hl|[->|Hl]]; [|contradiction|exact Hl].
            exfalso. apply Hii. destruct Cx as (C1 & _). apply C1; lia. }
          split; [apply decomp_row; [lia|lia|lia|reflexivity|exact Dx]|].
          split; [apply cleared_row; [lia|lia|exact Cx]|].
          rewrite row_get by lia. destruct (Nat.eqb_spec i ii); [lia|]. rewrite Nat.eqb_refl.
          rewrite Z.mul_0_l, Z.mul_1_l. exact Hii.
        - exfalso. assert (negb (get (st_m x) r0 j =? 0) = false) as Hf.
          { apply (find_none Eii). apply in_seq. lia. }
          apply Bool.negb_false_iff, Z.eqb_eq in Hf. contradiction. }
      clearbody x1.
      set (x2 := col_op n d x1 j i 0 1 1 0).
      assert (ok i x2) as O2.
      { unfold x2, ok, piv. destruct (Nat.eq_dec j i) as [->|Hne].
        - split; [apply decomp_col_same; assumption|]. split; [apply cleared_col; [lia|lia|exact C1]|].
          rewrite col_get by lia. rewrite Nat.eqb_refl. lia.
        - split; [apply decomp_col; [lia|lia|lia|reflexivity|exact D1]|].
          split; [apply cleared_col; [lia|lia|exact C1]|].
          rewrite col_get by lia. rewrite Nat.eqb_refl. lia. }
      destruct (@clear_cross_ok i Hin Hid (S (S (Z.abs_nat (get (st_m x2) i i)))) x2 O2) as (x3 & E3 & (D3 & C3 & P3) & X3);
        [unfold piv; lia|].
      rewrite E3. cbn [option_bind]. apply IH; [lia|exact D3|].
      destruct C3 as (C3 & C3'), X3 as (X1 & X2). split.
      * intros r c Hr Hc Hne Hlt.
        destruct (Nat.lt_ge_cases r i) as [|Hri]; [apply C3; auto|].
        destruct (Nat.lt_ge_cases c i) as [|Hci]; [apply C3; auto|].
        destruct (Nat.eq_dec r i) as [->|]; [apply X2; lia|].
        assert (c = i) as -> by lia. apply X1. lia.
      * intros r Hr _ _. destruct (Nat.eq_dec r i) as [->|]; [exact P3|]. apply C3'; lia.
    + exists x, i. split; [reflexivity|]. split; [exact Dx|]. destruct Cx as (C1 & C2).
      assert (forall r c, (r < n)%nat -> (i <= c < d)%nat -> get (st_m x) r c = 0) as Hzero.
      { intros r c Hr Hc. assert (negb (column_zero n (st_m x) c) = false) as Hf.
        { apply (find_none Ej). apply in_seq. lia. }
        apply Bool.negb_false_iff in Hf. unfold column_zero in Hf. rewrite forallb_forall in Hf.
        apply Z.eqb_eq. apply Hf. apply in_seq. lia. }
      split.
      * intros r c Hr Hc Hne. destruct (Nat.lt_ge_cases c i); [apply C1; auto|]. apply Hzero; lia.
      * intros r Hr Hd. split.
        -- intro Hz. destruct (Nat.lt_ge_cases r i); [assumption|]. exfalso. apply Hz. apply Hzero; lia.
        -- intro Hlt. apply C2; lia.
Qed.

(** ** The last pass *)

Lemma fix_pair_ok rk x i0 i1 : decomp x -> diagonal rk x -> (i0 < i1)%nat -> (i1 < n)%nat -> (i1 < d)%nat ->
  exists y, fix_pair n d i1 x i0 = Some y /\ decomp y /\ diagonal rk y /\
    (forall r, (r < n)%nat -> (r < d)%nat -> r <> i0 -> r <> i1 -> get (st_m y) r r = get (st_m x) r r) /\
    (get (st_m y) i0 i0 | get (st_m x) i0 i0) /\
    (get (st_m y) i0 i0 | get (st_m x) i1 i1) /\
    (get (st_m x) i0 i0 | get (st_m y) i1 i1) /\
    (get (st_m x) i1 i1 | get (st_m y) i1 i1).
Proof.
  intros Dx (G1 & G2) Hlt Hn Hd. unfold fix_pair.
  set (d0 := get (st_m x) i0 i0). set (d1 := get (st_m x) i1 i1).
  destruct (gcdex_total d0 d1) as (c1 & c2 & g & Hg). rewrite Hg. cbn [option_bind].
  destruct (gcdex_spec Hg) as (Hb & Hab). destruct (gcdex_div Hg) as ((p & Hp) & (q & Hq)).
  destruct (Z.eqb_spec g 0) as [Hg0|Hg0].
  - exists x. split; [reflexivity|]. rewrite Hg0 in Hp, Hq.
    assert (d0 = 0) as E0 by lia. assert (d1 = 0) as E1 by lia.
    fold d0 d1. rewrite E0, E1. split; [exact Dx|]. split; [split; assumption|].
    split; [auto|]. repeat split; apply Z.divide_0_r.
  - assert (d0 / g = p) as -> by (rewrite Hp; apply Z.div_mul; exact Hg0).
    assert (d1 / g = q) as -> by (rewrite Hq; apply Z.div_mul; exact Hg0).
    assert (p * c1 + q * c2 = 1) as Hdet.
    { apply Z.mul_reg_r with g; [exact Hg0|]. rewrite Hp, Hq in Hb at 1. lia. }
    set (x1 := row_op n d x i0 i1 1 c2 q (c2 * q - 1)).
    assert (decomp x1) as D1.
    { apply decomp_row; [lia|lia|lia| |exact Dx]. assert (1 * (c2 * q - 1) - c2 * q = -1) as -> by ring. reflexivity. }
    set (y := col_op n d x1 i0 i1 c1 (1 - c1 * p) 1 (- p)).
    assert (decomp y) as D2.
    { apply decomp_col; [lia|lia|lia| |exact D1].
      assert (c1 * - p - (1 - c1 * p) * 1 = -1) as -> by ring. reflexivity. }
    exists y. split; [reflexivity|]. split; [exact D2|].
    assert (forall r c, (r < n)%nat -> (c < d)%nat -> get (st_m y) r c =
       if Nat.eqb r i0 then (if Nat.eqb c i0 then g else 0)
       else if Nat.eqb r i1 then (if Nat.eqb c i1 then p * d1 else 0)
       else get (st_m x) r c) as Hy.
    { intros r c Hr Hc. unfold y. rewrite col_get by lia. unfold x1. rewrite !row_get by lia.
      assert (get (st_m x) i0 i1 = 0) as Z01 by (apply G1; lia).
      assert (get (st_m x) i1 i0 = 0) as Z10 by (apply G1; lia).
      fold d0 d1. rewrite Z01, Z10.
      destruct (Nat.eqb_spec r i0) as [->|H0]; [|destruct (Nat.eqb_spec r i1) as [->|H1]].
      - destruct (Nat.eqb_spec i0 i1) as [|_]; [lia|].
        destruct (Nat.eqb_spec c i1) as [->|Hc1]; [|destruct (Nat.eqb_spec c i0) as [->|Hc0]].
        + destruct (Nat.eqb_spec i1 i0); [lia|].
          transitivity (d0 - p * (d0 * c1 + d1 * c2)); [ring|]. rewrite Hb. lia.
        + transitivity (d0 * c1 + d1 * c2); [ring|]. exact Hb.
        + rewrite (G1 i0 c), (G1 i1 c) by lia. ring.
      - destruct (Nat.eqb_spec c i1) as [->|Hc1]; [|destruct (Nat.eqb_spec c i0) as [->|Hc0]].
        + transitivity (q * d0 + p * d1 - q * p * (d0 * c1 + d1 * c2)); [ring|].
          rewrite Hb, Hp, Hq. ring.
        + transitivity (q * (d0 * c1 + d1 * c2) - d1); [ring|]. rewrite Hb, Hq. ring.
        + rewrite (G1 i0 c), (G1 i1 c) by lia. ring.
      - destruct (Nat.eqb_spec c i1) as [->|Hc1]; [|destruct (Nat.eqb_spec c i0) as [->|Hc0]].
        + rewrite (G1 r i0), (G1 r i1) by lia. ring.
        + rewrite (G1 r i0), (G1 r i1) by lia. ring.
        + reflexivity. }
    assert (d0 <> 0 <-> (i0 < rk)%nat) as R0 by (apply G2; lia).
    assert (d1 <> 0 <-> (i1 < rk)%nat) as R1 by (apply G2; lia).
    assert (get (st_m y) i0 i0 = g) as Ey0 by (rewrite Hy by lia; rewrite Nat.eqb_refl; reflexivity).
    assert (get (st_m y) i1 i1 = p * d1) as Ey1.
    { rewrite Hy by lia. destruct (Nat.eqb_spec i1 i0); [lia|]. rewrite Nat.eqb_refl. reflexivity. }
    split; [split|split; [|split; [|split; [|split]]]].
    + intros r c Hr Hc Hne. rewrite Hy by assumption.
      destruct (Nat.eqb_spec r i0) as [->|]; [destruct (Nat.eqb_spec c i0); congruence|].
      destruct (Nat.eqb_spec r i1) as [->|]; [destruct (Nat.eqb_spec c i1); congruence|]. apply G1; assumption.
    + intros r Hr Hrd. destruct (Nat.eq_dec r i0) as [->|H0]; [|destruct (Nat.eq_dec r i1) as [->|H1]].
      * rewrite Ey0. split; [|intros _; exact Hg0]. intros _. apply R0.
        intro E0. assert (d1 <> 0) as E1 by (intro E1; apply Hg0; rewrite E0, E1 in Hab; simpl in Hab; lia).
        apply R1 in E1. assert (d0 <> 0) by (apply R0; lia). contradiction.
      * rewrite Ey1. split.
        -- intro Hz. apply R1. intro E. apply Hz. rewrite E. ring.
        -- intros Hlt1. apply R1 in Hlt1 as E1. assert (d0 <> 0) as E0 by (apply R0; lia).
           intro Hz. apply Z.mul_eq_0 in Hz as [Hz|Hz]; [|contradiction]. apply E0. rewrite Hp, Hz. ring.
      * rewrite Hy by assumption. destruct (Nat.eqb_spec r i0); [contradiction|].
        destruct (Nat.eqb_spec r i1); [contradiction|]. apply G2; assumption.
    + intros r Hr Hrd H0 H1. rewrite Hy by assumption. destruct (Nat.eqb_spec r i0); [contradiction|].
      destruct (Nat.eqb_spec r i1); [contradiction|]. reflexivity.
    + rewrite Ey0. exists p. exact Hp.
    + rewrite Ey0. exists q. exact Hq.
    + rewrite Ey1. fold d0. exists q. rewrite Hp. rewrite Hq at 1. ring.
    + rewrite Ey1. exists p. reflexivity.
Qed.

Lemma fix_index_ok rk i1 : (i1 < n)%nat -> (i1 < d)%nat -> forall k x, (k <= i1)%nat ->
  decomp x -> diagonal rk x ->
  (forall r, (k <= r < i1)%nat -> (get (st_m x) r r | get (st_m x) i1 i1)) ->
  exists y, foldo (fix_pair n d i1) (rev (seq 0 k)) x = Some y /\ decomp y /\ diagonal rk y /\
    (forall r, (r < i1)%nat -> (get (st_m y) r r | get (st_m y) i1 i1)).
Proof.
  intros Hn Hd. induction k as [|k IH]; intros x Hk Dx Gx Hx.
  - exists x. split; [reflexivity|]. split; [exact Dx|]. split; [exact Gx|]. intros r Hr. apply Hx. lia.
  - rewrite seq_S, rev_app_distr. cbn [rev app foldo Nat.add].
    destruct (@fix_pair_ok rk x k i1 Dx Gx) as (y & E & Dy & Gy & Hoth & V1 & V2 & V3 & V4); try lia.
    rewrite E. cbn [option_bind]. apply IH; [lia|exact Dy|exact Gy|].
    intros r Hr. destruct (Nat.eq_dec r k) as [->|Hne].
    + eapply Z.divide_trans; [exact V1|exact V3].
    + rewrite (Hoth r) by lia. eapply Z.divide_trans; [apply Hx; lia|exact V4].
Qed.

Lemma fix_all_ok rk : forall k s x, (s + k = Nat.min n d)%nat -> decomp x -> diagonal rk x ->
  (forall r, (S r < s)%nat -> (get (st_m x) r r | get (st_m x) (s - 1) (s - 1))) ->
  exists y, foldo (fix_index n d) (seq s k) x = Some y /\ decomp y /\ diagonal rk y /\
    (forall r, (S r < Nat.min n d)%nat ->
       (get (st_m y) r r | get (st_m y) (Nat.min n d - 1) (Nat.min n d - 1))).
Proof.
  induction k as [|k IH]; intros s x Hs Dx Gx Hx; cbn [seq foldo].
  - exists x. split; [reflexivity|]. split; [exact Dx|]. split; [exact Gx|].
    rewrite <- Hs. intros r Hr. rewrite Nat.add_0_r in *. apply Hx. exact Hr.
  - unfold fix_index at 1.
    destruct (@fix_index_ok rk s ltac:(lia) ltac:(lia) s x (le_n s) Dx Gx) as (y & E & Dy & Gy & Hy); [lia|].
    rewrite E. cbn [option_bind]. apply IH; [lia|exact Dy|exact Gy|].
    intros r Hr. replace (S s - 1)%nat with s by lia. apply Hy. lia.
Qed.

Lemma eye_get k : meq k k (get (eye k)) delta.
Proof. intros i j Hi Hj. unfold eye. rewrite get_tab by assumption. reflexivity. Qed.

Lemma compute_snf_ok : shape n d A -> exists y rk, compute_snf n d A = Some y /\ decomp y /\ diagonal rk y /\
    (forall r, (S r < Nat.min n d)%nat ->
       (get (st_m y) r r | get (st_m y) (Nat.min n d - 1) (Nat.min n d - 1))).
Proof.
  intro HA. unfold compute_snf.
  destruct (@diagonalise_ok n 0 (mkSnf (eye n) A (eye d))) as (x & rk & E & Dx & Gx); [lia| | |].
  - split; [split; [apply tab_shape|split; [exact HA|apply tab_shape]]|].
    split; [|split]; cbn [st_s st_m st_t].
    + apply (invertible_ext (A := delta)); [apply meq_sym, eye_get|apply invertible_id].
    + apply (invertible_ext (A := delta)); [apply meq_sym, eye_get|apply invertible_id].
    + apply meq_sym. eapply meq_trans.
      * apply mm_ext; [|apply eye_get].
        eapply meq_trans; [apply mm_ext; [apply eye_get|apply meq_refl]|apply mm_id_l].
      * apply mm_id_r.
  - split; [intros r c _ _ _ [H|H]; lia|intros r H; lia].
  - rewrite E. cbn [option_bind].
    destruct (@fix_all_ok rk (Nat.min n d) 0 x) as (y & E2 & Dy & Gy & Hy); [lia|exact Dx|exact Gx|lia|].
    rewrite E2. exists y, rk. auto.
Qed.
End Snf.
