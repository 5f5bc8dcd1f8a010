(** Lemmas about [Lib]. *)
From Verif Require Import Lib.
Set Implicit Arguments.

Section Upd.
Context {A : Type}.
Implicit Types (l : list A) (i j : nat) (x y : A).

Lemma length_upd l i x : length (upd l i x) = length l.
Proof. revert i; induction l as [|y l IH]; intros [|i]; simpl; auto. Qed.

Lemma nth_error_upd_eq l i x : i < length l -> nth_error (upd l i x) i = Some x.
Proof.
  revert i; induction l as [|y l IH]; intros [|i] Hi; simpl in *; try lia; auto.
  apply IH; lia.
Qed.

Lemma nth_error_upd_neq l i j x : i <> j -> nth_error (upd l i x) j = nth_error l j.
Proof.
  revert i j; induction l as [|y l IH]; intros [|i] [|j] Hij; simpl; auto; try lia.
Qed.

Lemma nth_error_upd l i j x :
  nth_error (upd l i x) j =
  if Nat.eqb i j then (if j <? length l then Some x else None) else nth_error l j.
Proof.
  destruct (Nat.eqb_spec i j) as [->|Hij].
  - destruct (Nat.ltb_spec j (length l)) as [Hj|Hj].
    + apply nth_error_upd_eq; auto.
    + apply nth_error_None. rewrite length_upd; lia.
  - apply nth_error_upd_neq; auto.
Qed.

Lemma upd_out l i x : length l <= i -> upd l i x = l.
Proof.
  revert i; induction l as [|y l IH]; intros [|i] Hi; simpl in *; auto; try lia.
  rewrite IH; auto; lia.
Qed.

Lemma upd_same l i x : nth_error l i = Some x -> upd l i x = l.
Proof.
  revert i; induction l as [|y l IH]; intros [|i] Hi; simpl in *; auto; try congruence.
  rewrite IH; auto.
Qed.

Lemma upd_upd_eq l i x y : upd (upd l i x) i y = upd l i y.
Proof. revert i; induction l as [|z l IH]; intros [|i]; simpl; auto. rewrite IH; auto. Qed.

Lemma upd_upd_neq l i j x y : i <> j -> upd (upd l i x) j y = upd (upd l j y) i x.
Proof.
  revert i j; induction l as [|z l IH]; intros [|i] [|j] Hij; simpl; auto; try lia.
  rewrite IH; auto.
Qed.

Lemma upd_split l i x y :
  nth_error l i = Some y ->
  exists l1 l2, l = l1 ++ y :: l2 /\ length l1 = i /\ upd l i x = l1 ++ x :: l2.
Proof.
  revert i; induction l as [|z l IH]; intros [|i] Hi; simpl in *; try congruence.
  - inversion Hi; subst. exists [], l; auto.
  - destruct (IH _ Hi) as (l1 & l2 & -> & <- & ->). exists (z :: l1), l2; auto.
Qed.

Lemma list_ext l1 l2 :
  length l1 = length l2 -> (forall i, nth_error l1 i = nth_error l2 i) -> l1 = l2.
Proof.
  revert l2; induction l1 as [|x l1 IH]; intros [|y l2] Hl H; simpl in *; try lia; auto.
  pose proof (H 0) as H0; simpl in H0; inversion H0; subst.
  f_equal. apply IH; [lia|]. intros i; exact (H (S i)).
Qed.
End Upd.

Lemma list_ext_lt {A} (l1 l2 : list A) :
  length l1 = length l2 ->
  (forall i, i < length l1 -> nth_error l1 i = nth_error l2 i) -> l1 = l2.
Proof.
  intros Hl H. apply list_ext; auto. intros i.
  destruct (Nat.lt_ge_cases i (length l1)) as [Hi|Hi]; auto.
  rewrite (proj2 (nth_error_None l1 i)), (proj2 (nth_error_None l2 i)); auto; lia.
Qed.

Lemma nth_error_lt {A} (l : list A) i : i < length l -> exists x, nth_error l i = Some x.
Proof.
  intros Hi. destruct (nth_error l i) eqn:E; eauto.
  apply nth_error_None in E; lia.
Qed.

Lemma nth_error_Some_lt {A} (l : list A) i x : nth_error l i = Some x -> i < length l.
Proof. intros H. apply nth_error_Some. congruence. Qed.

Lemma nth_error_map_iff {A B} (f : A -> B) l i :
  nth_error (map f l) i = option_map f (nth_error l i).
Proof. apply nth_error_map. Qed.

Lemma nth_error_seq s n i : nth_error (seq s n) i = if i <? n then Some (s + i) else None.
Proof.
  revert s i; induction n as [|n IH]; intros s i.
  - destruct i; reflexivity.
  - destruct i as [|i]; cbn [seq nth_error].
    + rewrite Nat.add_0_r. reflexivity.
    + rewrite IH. change (S i <? S n) with (i <? n). destruct (i <? n); auto. f_equal; lia.
Qed.

(** ** Integer sums *)
Lemma zsum_app l1 l2 : zsum (l1 ++ l2) = (zsum l1 + zsum l2)%Z.
Proof. induction l1 as [|x l1 IH]; simpl; auto. rewrite IH; lia. Qed.

Lemma zsum_cons x l : zsum (x :: l) = (x + zsum l)%Z.
Proof. reflexivity. Qed.

Lemma zsum_perm l1 l2 : Permutation l1 l2 -> zsum l1 = zsum l2.
Proof. induction 1; simpl; lia. Qed.

Lemma zsum_map_add {A} (f g : A -> Z) l :
  zsum (map (fun x => (f x + g x)%Z) l) = (zsum (map f l) + zsum (map g l))%Z.
Proof. induction l as [|x l IH]; simpl; lia. Qed.

Lemma zsum_map_sub {A} (f g : A -> Z) l :
  zsum (map (fun x => (f x - g x)%Z) l) = (zsum (map f l) - zsum (map g l))%Z.
Proof. induction l as [|x l IH]; simpl; lia. Qed.

Lemma zsum_map_scale {A} (f : A -> Z) k l :
  zsum (map (fun x => (k * f x)%Z) l) = (k * zsum (map f l))%Z.
Proof. induction l as [|x l IH]; simpl; lia. Qed.

Lemma zsum_map_ext {A} (f g : A -> Z) l :
  (forall x, In x l -> f x = g x) -> zsum (map f l) = zsum (map g l).
Proof. intros H; f_equal; apply map_ext_in; auto. Qed.

Lemma zsum_map_0 {A} (f : A -> Z) l : (forall x, In x l -> f x = 0%Z) -> zsum (map f l) = 0%Z.
Proof.
  induction l as [|x l IH]; simpl; intros H; auto.
  rewrite IH by auto. rewrite H by auto. lia.
Qed.

Lemma zsum_nonneg l : (forall x, In x l -> (0 <= x)%Z) -> (0 <= zsum l)%Z.
Proof.
  induction l as [|x l IH]; simpl; intros H; [lia|].
  pose proof (H x (or_introl eq_refl)). specialize (IH (fun y Hy => H y (or_intror Hy))). lia.
Qed.

(** Exchange of two finite sums. *)
Lemma zsum_swap {A B} (f : A -> B -> Z) l1 l2 :
  zsum (map (fun a => zsum (map (f a) l2)) l1) =
  zsum (map (fun b => zsum (map (fun a => f a b) l1)) l2).
Proof.
  induction l1 as [|a l1 IH]; simpl.
  - symmetry; apply zsum_map_0; auto.
  - rewrite IH, <- zsum_map_add. reflexivity.
Qed.

(** ** Counting *)
Lemma countb_app {A} (f : A -> bool) l1 l2 : countb f (l1 ++ l2) = countb f l1 + countb f l2.
Proof. unfold countb. rewrite filter_app, app_length; auto. Qed.

Lemma countb_cons {A} (f : A -> bool) x l :
  countb f (x :: l) = (if f x then 1 else 0) + countb f l.
Proof. unfold countb; simpl. destruct (f x); auto. Qed.

Lemma countb_perm {A} (f : A -> bool) l1 l2 : Permutation l1 l2 -> countb f l1 = countb f l2.
Proof.
  induction 1; auto.
  - rewrite !countb_cons; lia.
  - rewrite !countb_cons; lia.
  - lia.
Qed.

Lemma countb_map {A B} (g : B -> A) (f : A -> bool) l : countb f (map g l) = countb (fun x => f (g x)) l.
Proof.
  induction l as [|x l IH]; auto. simpl map. rewrite !countb_cons, IH; auto.
Qed.

Lemma countb_ext {A} (f g : A -> bool) l :
  (forall x, In x l -> f x = g x) -> countb f l = countb g l.
Proof.
  induction l as [|x l IH]; intros H; auto.
  rewrite !countb_cons, H, IH; simpl; auto. intros y Hy; apply H; simpl; auto.
Qed.

Lemma countb_le {A} (f : A -> bool) l : countb f l <= length l.
Proof. unfold countb. induction l as [|x l IH]; simpl; auto. destruct (f x); simpl; lia. Qed.

Lemma countb_false {A} (l : list A) : countb (fun _ => false) l = 0.
Proof. induction l; auto. Qed.

Lemma countb_zsum {A} (f : A -> bool) l :
  Z.of_nat (countb f l) = zsum (map (fun x => if f x then 1%Z else 0%Z) l).
Proof.
  induction l as [|x l IH]; auto. rewrite countb_cons. simpl. rewrite <- IH.
  destruct (f x); lia.
Qed.

(** Summing the count of each class over all classes gives the whole. *)
Lemma countb_0 {A} (f : A -> bool) l : (forall x, In x l -> f x = false) -> countb f l = 0.
Proof.
  intros H. rewrite (@countb_ext _ f (fun _ => false)) by auto. apply countb_false.
Qed.

Lemma length_vadd u v : length (vadd u v) = Nat.min (length u) (length v).
Proof. revert v; induction u as [|x u IH]; intros [|y v]; simpl; auto. Qed.

Lemma nth_error_vadd u v i x y :
  nth_error u i = Some x -> nth_error v i = Some y -> nth_error (vadd u v) i = Some (x + y)%Z.
Proof.
  revert v i; induction u as [|a u IH]; intros [|b v] [|i]; simpl; try congruence.
  apply IH.
Qed.

Lemma nth_vadd u v i :
  length u = length v -> nth i (vadd u v) 0%Z = (nth i u 0 + nth i v 0)%Z.
Proof.
  revert v i; induction u as [|a u IH]; intros [|b v] [|i] H; simpl in *; auto; try lia.
Qed.

(** [opt_map] *)
Lemma opt_map_length {A B} (f : A -> option B) l ys : opt_map f l = Some ys -> length ys = length l.
Proof.
  revert ys; induction l as [|x l IH]; simpl; intros ys H.
  - inversion H; auto.
  - destruct (f x), (opt_map f l); inversion H; subst. simpl; f_equal; auto.
Qed.

Lemma opt_map_nth {A B} (f : A -> option B) l ys i x :
  opt_map f l = Some ys -> nth_error l i = Some x ->
  exists y, f x = Some y /\ nth_error ys i = Some y.
Proof.
  revert ys i; induction l as [|a l IH]; simpl; intros ys i H Hi.
  - destruct i; discriminate.
  - destruct (f a) eqn:Ea; [|discriminate].
    destruct (opt_map f l) eqn:El; [|discriminate].
    inversion H; subst. destruct i; simpl in *.
    + inversion Hi; subst; eauto.
    + eauto.
Qed.

Lemma opt_map_all {A B} (f : A -> option B) l :
  (forall x, In x l -> f x <> None) -> exists ys, opt_map f l = Some ys.
Proof.
  induction l as [|x l IH]; intros H; simpl; eauto.
  destruct IH as [ys Hys]; [intros y Hy; apply H; right; auto|].
  rewrite Hys. destruct (f x) eqn:E; eauto. exfalso. apply (H x); [left; auto| auto].
Qed.

Lemma opt_map_map {A B} (f : A -> option B) (g : A -> B) l :
  (forall x, In x l -> f x = Some (g x)) -> opt_map f l = Some (map g l).
Proof.
  induction l as [|x l IH]; intros H; simpl; auto.
  rewrite H by (left; auto). rewrite IH; auto. intros y Hy; apply H; right; auto.
Qed.

Lemma NoDup_filter' {A} (f : A -> bool) l : NoDup l -> NoDup (filter f l).
Proof. apply NoDup_filter. Qed.

Lemma NoDup_map_inj {A B} (f : A -> B) l :
  (forall x y, In x l -> In y l -> f x = f y -> x = y) -> NoDup l -> NoDup (map f l).
Proof.
  induction l as [|x l IH]; intros Hf Hl; simpl; constructor; inversion Hl; subst.
  - intros Hin. apply in_map_iff in Hin. destruct Hin as (y & Hy & Hin).
    apply Hf in Hy; simpl; auto. subst; auto.
  - apply IH; auto. intros; apply Hf; simpl; auto.
Qed.

Lemma NoDup_app_remove_l {A} (l l' : list A) : NoDup (l ++ l') -> NoDup l'.
Proof. induction l as [|x l IH]; simpl; auto. intros H; inversion H; auto. Qed.
Lemma NoDup_app_remove_r {A} (l l' : list A) : NoDup (l ++ l') -> NoDup l.
Proof.
  induction l as [|x l IH]; simpl; intros H; [constructor|]. inversion H; subst.
  constructor; auto. intros Hin; apply H2, in_app_iff; auto.
Qed.
Lemma NoDup_app_disj {A} (l l' : list A) x : NoDup (l ++ l') -> In x l -> ~ In x l'.
Proof.
  induction l as [|y l IH]; simpl; [tauto|]. intros H; inversion H; subst.
  intros [->|Hx]; auto. intros Hin; apply H2, in_app_iff; auto.
Qed.
Lemma NoDup_app_intro {A} (l l' : list A) :
  NoDup l -> NoDup l' -> (forall x, In x l -> ~ In x l') -> NoDup (l ++ l').
Proof.
  induction l as [|y l IH]; simpl; auto. intros H H' Hd; inversion H; subst.
  constructor.
  - intros Hin; apply in_app_iff in Hin. destruct Hin; auto. apply (Hd y); auto.
  - apply IH; auto.
Qed.

Lemma opt_map_perm {A B} (f : A -> option B) l l' ys :
  Permutation l l' -> opt_map f l = Some ys ->
  exists ys', opt_map f l' = Some ys' /\ Permutation ys ys'.
Proof.
  intros H; revert ys; induction H as [|x l l' H IH|x y l|l l1 l2 H1 IH1 H2 IH2]; intros ys E; simpl in *.
  - eauto.
  - destruct (f x); [|discriminate]. destruct (opt_map f l) as [zs|]; [|discriminate].
    destruct (IH zs eq_refl) as (ys' & -> & P). inversion E; subst. eauto.
  - destruct (f y); [|discriminate]. destruct (f x); [|discriminate].
    destruct (opt_map f l); [|discriminate]. inversion E; subst.
    eexists; split; [reflexivity|]. apply perm_swap.
  - destruct (IH1 _ E) as (ys1 & E1 & P1). destruct (IH2 _ E1) as (ys2 & E2 & P2).
    exists ys2; split; auto. eapply perm_trans; eauto.
Qed.

Lemma Forall2_length {A B} (R : A -> B -> Prop) l l' : Forall2 R l l' -> length l = length l'.
Proof. induction 1; simpl; auto. Qed.

Lemma nth_error_map_inv {A B} (f : A -> B) l i y :
  nth_error (map f l) i = Some y -> exists x, nth_error l i = Some x /\ y = f x.
Proof.
  rewrite nth_error_map. destruct (nth_error l i) as [x|]; simpl; [|discriminate].
  intros H; inversion H; eauto.
Qed.

Lemma combine_map2 {A B C} (f : A -> B) (g : A -> C) (l : list A) :
  combine (map f l) (map g l) = map (fun x => (f x, g x)) l.
Proof. induction l as [|x l IH]; simpl; congruence. Qed.

Lemma filter_true {A} (l : list A) : filter (fun _ => true) l = l.
Proof. induction l as [|x l IH]; simpl; congruence. Qed.

Lemma forallb_map {A B} (f : A -> B) (P : B -> bool) l : forallb P (map f l) = forallb (fun x => P (f x)) l.
Proof. induction l as [|x l IH]; simpl; congruence. Qed.

Lemma countb_negb {A} (P : A -> bool) l : countb (fun x => negb (P x)) l + countb P l = length l.
Proof.
  induction l as [|x l IH]; auto. rewrite !countb_cons. simpl. destruct (P x); simpl; lia.
Qed.

(** A duplicate-free sublist with as many elements is everything. *)
Lemma NoDup_count_incl {A} (a b : list A) :
  NoDup a -> incl a b -> length b <= length a -> forall x, In x b -> In x a.
Proof. intros Ha Hi Hl x Hx. exact (NoDup_length_incl Ha Hl Hi x Hx). Qed.

Lemma countb_in_sub {A} (P : A -> bool) (a l : list A) :
  NoDup a -> NoDup l -> incl a l -> (forall x, In x l -> P x = true <-> In x a) ->
  countb P l = length a.
Proof.
  intros Ha Hl Hi HP. unfold countb. apply Permutation_length, NoDup_Permutation; auto.
  - apply NoDup_filter; auto.
  - intros x. rewrite filter_In. split.
    + intros [Hx Hp]. apply HP; auto.
    + intros Hx. split; auto. apply HP; auto.
Qed.

Lemma forallb_ext_in {A} (f g : A -> bool) l : (forall x, In x l -> f x = g x) -> forallb f l = forallb g l.
Proof.
  induction l as [|x l IH]; intros H; simpl; auto. rewrite H by (left; auto). rewrite IH; auto.
  intros; apply H; right; auto.
Qed.

Lemma andb_true_r' a b : b = true -> a && b = a.
Proof. intros ->. apply andb_true_r. Qed.

Lemma nth_error_firstn_lt {A} (l : list A) n i : i < n -> nth_error (firstn n l) i = nth_error l i.
Proof.
  revert n i. induction l as [|x l IH]; intros [|n] [|i] H; simpl; auto; try lia. apply IH. lia.
Qed.
Lemma nth_error_skipn {A} (l : list A) n i : nth_error (skipn n l) i = nth_error l (n + i).
Proof. revert n. induction l as [|x l IH]; intros [|n]; simpl; auto. destruct i; auto. Qed.
Lemma skipn_skipn' {A} (l : list A) a b : skipn a (skipn b l) = skipn (b + a) l.
Proof. revert b. induction l as [|x l IH]; intros [|b]; simpl; auto; apply skipn_nil. Qed.
