(** Proofs for C104: rotated site functions and the change of basis matrix. *)
From Verif Require Import LibProofs SubspaceSpec OrbitProps.
From Verif Require Import LinProofs BasisProofs.
From Verif Require Export SiteRotation BasisProps SiteRotationSpec.
From Coq Require Import Permutation Lra Lia.
Import Basis.
Set Implicit Arguments.
Unset Strict Implicit.
Open Scope R_scope.

(** ** Sums *)
Lemma rs_ext {A} (f g : A -> R) l : (forall x, In x l -> f x = g x) -> rsum (map f l) = rsum (map g l).
Proof. intros H. f_equal. apply map_ext_in. auto. Qed.
Lemma rs_scale {A} (f : A -> R) k l : rsum (map (fun x => k * f x) l) = k * rsum (map f l).
Proof. induction l as [|x l IH]; simpl; [lra|]. rewrite IH. lra. Qed.
Lemma rs_plus {A} (f g : A -> R) l : rsum (map (fun x => f x + g x) l) = rsum (map f l) + rsum (map g l).
Proof. induction l as [|x l IH]; simpl; [lra|]. rewrite IH. lra. Qed.
Lemma rs_zero {A} (l : list A) : rsum (map (fun _ => 0) l) = 0.
Proof. induction l as [|x l IH]; simpl; [lra|]. rewrite IH. lra. Qed.
Lemma rs_swap {A B} (f : A -> B -> R) l m : rsum (map (fun x => rsum (map (f x) m)) l) = rsum (map (fun y => rsum (map (fun x => f x y) l)) m).
Proof. induction l as [|x l IH]; simpl; [rewrite rs_zero; auto|]. rewrite IH, <- rs_plus. auto. Qed.
Lemma rs_flat {A} (f : A -> list R) l : rsum (flat_map f l) = rsum (map (fun x => rsum (f x)) l).
Proof. induction l as [|x l IH]; simpl; auto. rewrite rsum_app, IH. auto. Qed.
Lemma rs_concat {A} (f : A -> R) ls : rsum (map f (concat ls)) = rsum (map (fun l => rsum (map f l)) ls).
Proof. induction ls as [|l ls IH]; simpl; auto. rewrite map_app, rsum_app, IH. auto. Qed.
Lemma rs_perm l m : Permutation l m -> rsum l = rsum m.
Proof. induction 1; simpl; try lra. Qed.
Lemma rs_const {A} k (l : list A) : rsum (map (fun _ => k) l) = INR (length l) * k.
Proof. induction l as [|x l IH]; [simpl; lra|]. cbn [map rsum length]. rewrite IH, S_INR. lra. Qed.
Lemma sum_rs n f : sum n f = rsum (map f (seq 0 n)).
Proof. reflexivity. Qed.

(** ** One site *)
(** [c] comes from [b] by the orthogonal matrix that it records. *)
Record turned (b c : basis) : Prop := {
  tu_space : b_space c = b_space b;
  tu_on : orthonormal_basis b;
  tu_on' : orthonormal_basis c;
  tu_acts : acts_by (length (b_space b)) (b_rot c) (b_f b) (b_f c);
  tu_rot : forall i j, (i < length (b_space b))%nat -> (j < length (b_space b))%nat ->
     sum (length (b_space b)) (fun k => entry (b_rot c) k i * entry (b_rot c) k j) = if Nat.eqb i j then 1 else 0
}.

Lemma fa_entry b i j : entry (function_array b) i j = entry (b_f b) (S i) j.
Proof. unfold entry, function_array. destruct (b_f b); simpl; auto. destruct i; auto. Qed.
Lemma orthonormal_entries b i j : orthonormal_basis b -> (i < length (b_space b))%nat -> (j < length (b_space b))%nat ->
  sum (length (b_space b)) (fun k => mu (b_space b) k * entry (b_f b) i k * entry (b_f b) j k) = if Nat.eqb i j then 1 else 0.
Proof.
  intros (Hr & _ & _ & H) Hi Hj. rewrite <- (H i j Hi Hj). symmetry. apply inner_sum; auto; apply Hr; apply nth_In; destruct Hr as (-> & _); auto.
Qed.
Section Site.
Variables b c : basis.
Hypothesis HT : turned b c.
Let n := length (b_space b).
Let F i j := entry (b_f b) i j.
Let G i j := entry (b_f c) i j.
Let w := mu (b_space b).

Lemma turn_back k s : (0 < k < n)%nat -> (s < n)%nat -> sum n (fun t => entry (b_rot c) t s * G k t) = F k s.
Proof using HT.
  intros Hk Hs. rewrite (sum_ext (g := fun t => sum n (fun l => F k l * (entry (b_rot c) t s * entry (b_rot c) t l)))).
  2:{ intros t Ht. unfold G. rewrite (tu_acts HT) by auto. fold n. rewrite <- sum_scal. apply sum_ext. intros. unfold F. lra. }
  rewrite sum_swap. rewrite (sum_ext (g := fun l => if Nat.eqb l s then F k l else 0)).
  2:{ intros l Hl. rewrite sum_scal, (tu_rot HT) by auto. rewrite Nat.eqb_sym. destruct (Nat.eqb l s); lra. }
  apply (sum_delta (F k)); auto.
Qed.
Lemma rot_factor_inner i j : (i < nfun b)%nat -> (j < nfun b)%nat -> rot_factor c i j = sum n (fun s => w s * F (S j) s * G (S i) s).
Proof using HT.
  intros Hi Hj. unfold nfun in *. unfold rot_factor. rewrite (tu_space HT). fold n. apply sum_ext. intros s Hs.
  rewrite (sum_ext (g := fun t => entry (b_rot c) t s * G (S j) t)) by (intros; rewrite fa_entry; auto). rewrite turn_back by (unfold n; lia). rewrite fa_entry. fold (G (S i) s) w. lra.
Qed.
Lemma span i : (i < n)%nat -> forall s, (s < n)%nat -> G i s = sum n (fun k => sum n (fun t => w t * F k t * G i t) * F k s).
Proof using HT.
  intros Hi. assert (HO : forall i j, (i < n)%nat -> (j < n)%nat -> sum n (fun k => w k * F i k * F j k) = if Nat.eqb i j then 1 else 0) by (intros; apply (orthonormal_entries (tu_on HT)); auto).
  assert (I : independent n F).
  { apply orthogonal_independent with (w := w).
    - intros a d Ha Hd Ne. rewrite HO by auto. destruct (Nat.eqb_spec a d); [congruence|auto].
    - intros a Ha. rewrite HO, Nat.eqb_refl by auto. lra. }
  destruct (independent_spans I (G i)) as (e & He). intros s Hs. rewrite He at 1 by auto. apply sum_ext. intros k Hk. f_equal.
  rewrite (sum_ext (g := fun t => sum n (fun l => e l * (w t * F k t * F l t)))).
  2:{ intros t Ht. rewrite (He t Ht), <- sum_scal. apply sum_ext. intros. lra. }
  rewrite sum_swap, (sum_ext (g := fun l => if Nat.eqb l k then e l else 0)); [symmetry; apply sum_delta; auto|].
  intros l Hl. rewrite sum_scal, HO by auto. rewrite Nat.eqb_sym. destruct (Nat.eqb l k); lra.
Qed.
Lemma first_row d s : orthonormal_basis d -> (s < length (b_space d))%nat -> entry (b_f d) 0 s = 1.
Proof. intros (_ & _ & E & _) Hs. unfold entry. rewrite E. rewrite (nth_indep _ 0 1) by (rewrite repeat_length; auto). apply nth_repeat. Qed.
Lemma no_constant i : (i < nfun b)%nat -> sum n (fun t => w t * F 0 t * G (S i) t) = 0.
Proof using HT.
  intros Hi. unfold nfun in Hi. fold n in Hi. rewrite (sum_ext (g := fun t => mu (b_space c) t * entry (b_f c) 0 t * entry (b_f c) (S i) t)).
  2:{ intros t Ht. unfold w, F, G. rewrite (tu_space HT). rewrite (first_row (tu_on HT)), (first_row (tu_on' HT)) by (rewrite ?(tu_space HT); auto). auto. }
  pose proof (@orthonormal_entries c 0 (S i) (tu_on' HT)) as H. rewrite (tu_space HT) in *. fold n in H. rewrite H by lia. auto.
Qed.
Lemma site_expand i s : (i < nfun b)%nat -> (s < n)%nat ->
  entry (function_array c) i s = rsum (map (fun k => rot_factor c i k * entry (function_array b) k s) (seq 0 (nfun b))).
Proof using HT.
  intros Hi Hs. rewrite fa_entry. fold (G (S i) s). rewrite span by (unfold nfun in Hi; fold n in Hi; lia || auto).
  assert (En : n = S (nfun b)) by (unfold nfun in Hi; fold n in Hi; unfold nfun; fold n; lia). rewrite En at 1. rewrite sum_S_left, no_constant by auto. rewrite <- sum_rs.
  rewrite (sum_ext (g := fun k => rot_factor c i k * entry (function_array b) k s)); [lra|]. intros k Hk. rewrite rot_factor_inner, fa_entry by auto. auto.
Qed.
Lemma site_unitary i i' : (i < nfun b)%nat -> (i' < nfun b)%nat ->
  rsum (map (fun k => rot_factor c i k * rot_factor c i' k) (seq 0 (nfun b))) = if Nat.eqb i i' then 1 else 0.
Proof using HT.
  intros Hi Hi'. assert (En : n = S (nfun b)) by (unfold nfun in Hi; fold n in Hi; unfold nfun; fold n; lia).
  pose proof (@orthonormal_entries c (S i) (S i') (tu_on' HT)) as H. rewrite (tu_space HT) in H. fold n w in H. cbn [Nat.eqb] in H. rewrite <- H by lia. fold G.
  rewrite (sum_ext (g := fun s => sum n (fun k => sum n (fun t => w t * F k t * G (S i) t) * (w s * F k s * G (S i') s)))).
  2:{ intros s Hs. fold (G (S i) s) (G (S i') s). rewrite (span (i := S i)) by lia. rewrite <- sum_scal, <- sum_scal_r. apply sum_ext. intros. lra. }
  rewrite sum_swap. rewrite (sum_ext (g := fun k => sum n (fun t => w t * F k t * G (S i) t) * sum n (fun t => w t * F k t * G (S i') t))) by (intros; apply sum_scal).
  rewrite En at 1. rewrite sum_S_left, no_constant by auto. rewrite <- sum_rs.
  rewrite Rmult_0_l, Rplus_0_l. apply sum_ext. intros k Hk. rewrite !rot_factor_inner by auto. auto.
Qed.
End Site.

(** ** Clusters *)
Definition all_bits (bs : list basis) : list (list nat) := cart (map (fun b => seq 0 (nfun b)) bs).
Lemma rs_cart_cons x l (f : list nat -> R) : rsum (map f (cart (x :: l))) = rsum (map (fun a => rsum (map (fun r => f (a :: r)) (cart l))) x).
Proof. cbn [cart]. rewrite flat_map_concat_map, rs_concat, map_map. apply rs_ext. intros a _. rewrite map_map. auto. Qed.
Definition bits_of (bs : list basis) (bits : list nat) : Prop := Forall2 (fun b i => (i < nfun b)%nat) bs bits.
Lemma all_bits_in bs bits : In bits (all_bits bs) <-> bits_of bs bits.
Proof.
  unfold all_bits. rewrite cart_in. unfold bits_of. revert bits. induction bs as [|b bs IH]; intros [|i bits]; cbn [map]; split; intros H; inversion H; subst; constructor.
  - apply in_seq in H3. lia.
  - apply IH. auto.
  - apply in_seq. lia.
  - apply IH. auto.
Qed.
Lemma cluster_expand bs cs : Forall2 turned bs cs -> forall bi codes, bits_of bs bi -> Forall2 (fun b s => (s < length (b_space b))%nat) bs codes ->
  product_value cs bi codes = rsum (map (fun bj => rot_product cs bi bj * product_value bs bj codes) (all_bits bs)).
Proof.
  induction 1 as [|b c bs cs HT H IH]; intros bi codes Hb Hc; inversion Hb as [|? i ? bi' Hi Hb']; subst; inversion Hc as [|? s ? codes' Hs Hc']; subst.
  - cbn. lra.
  - unfold all_bits. cbn [map]. rewrite rs_cart_cons. fold (all_bits bs). cbn [product_value rot_product]. rewrite (IH bi' codes') by auto. rewrite (site_expand HT) by auto.
    rewrite Rmult_comm, <- rs_scale. apply rs_ext. intros k _. rewrite Rmult_comm, <- rs_scale. apply rs_ext. intros bj _. lra.
Qed.
Lemma cluster_unitary bs cs : Forall2 turned bs cs -> forall bi bi', bits_of bs bi -> bits_of bs bi' ->
  rsum (map (fun bj => rot_product cs bi bj * rot_product cs bi' bj) (all_bits bs)) = if list_eq_dec Nat.eq_dec bi bi' then 1 else 0.
Proof.
  induction 1 as [|b c bs cs HT H IH]; intros bi bi' Hb Hb'; inversion Hb as [|? i ? r Hi Hr]; subst; inversion Hb' as [|? i' ? r' Hi' Hr']; subst.
  - cbn. lra.
  - unfold all_bits. cbn [map]. rewrite rs_cart_cons. fold (all_bits bs). cbn [rot_product].
    rewrite (rs_ext (g := fun a => rsum (map (fun bj => rot_product cs r bj * rot_product cs r' bj) (all_bits bs)) * (rot_factor c i a * rot_factor c i' a))).
    2:{ intros a _. rewrite Rmult_comm, <- rs_scale. apply rs_ext. intros. lra. }
    rewrite rs_scale, (site_unitary HT), IH by auto.
    destruct (Nat.eqb_spec i i') as [->|N]; destruct (list_eq_dec Nat.eq_dec r r') as [->|N']; destruct (list_eq_dec Nat.eq_dec (_ :: _) _) as [E|E]; try lra; congruence.
Qed.

(** Products over positions. *)
Lemma nth_map' {A B} (f : A -> B) d l k d' : (k < length l)%nat -> nth k (map f l) d' = f (nth k l d).
Proof. intros H. rewrite (nth_indep _ d' (f d)) by (rewrite map_length; auto). apply map_nth. Qed.
Definition bdef : basis := MkBasis [] Indicator [] RNone [].
Fixpoint rmul (l : list R) : R := match l with [] => 1 | x :: l' => x * rmul l' end.
Lemma rmul_perm l m : Permutation l m -> rmul l = rmul m.
Proof. induction 1; simpl; try lra. rewrite IHPermutation. lra. Qed.
Lemma rot_product_pos bs : forall bi bj, length bi = length bs -> length bj = length bs ->
  rot_product bs bi bj = rmul (map (fun k => rot_factor (nth k bs bdef) (nth k bi 0%nat) (nth k bj 0%nat)) (seq 0 (length bs))).
Proof.
  induction bs as [|b bs IH]; intros [|i bi] [|j bj] L1 L2; try discriminate; auto. cbn [length seq map rmul rot_product nth]. rewrite IH by (simpl in *; lia). f_equal.
  rewrite <- seq_shift, map_map. auto.
Qed.
Lemma perm_seq n p : is_perm n p -> Permutation p (seq 0 n).
Proof.
  intros (L & N & H). apply NoDup_Permutation_bis; auto; [rewrite seq_length; lia|]. intros i Hi. apply in_seq. specialize (H i Hi). lia.
Qed.
Lemma nth_act b p k : (k < length p)%nat -> nth k (act b p) 0%nat = nth (nth k p 0%nat) b 0%nat.
Proof. intros H. unfold act. rewrite (nth_indep _ 0%nat (nth 0 b 0%nat)) by (rewrite map_length; auto). rewrite (map_nth (fun i => nth i b 0%nat)). auto. Qed.
Lemma rot_product_act bs ps p bi bj : perm_group (length bs) ps -> sym_bases bs ps -> In p ps -> length bi = length bs -> length bj = length bs ->
  rot_product bs (act bi p) (act bj p) = rot_product bs bi bj.
Proof.
  intros HG HS Hp L1 L2. destruct (pg_perm HG p Hp) as (Lp & Np & Hlt). rewrite !rot_product_pos by (unfold act; rewrite ?map_length; auto).
  transitivity (rmul (map (fun k => rot_factor (nth k bs bdef) (nth k bi 0%nat) (nth k bj 0%nat)) p)).
  - f_equal. apply (nth_ext _ _ 0 0); [rewrite !map_length, seq_length; auto|]. intros k Hk. rewrite map_length, seq_length in Hk.
    assert (Hk' : (k < length p)%nat) by lia.
    rewrite (nth_map' _ 0%nat) by (rewrite seq_length; auto). rewrite (nth_map' _ 0%nat) by auto. rewrite seq_nth by auto.
    cbn [Nat.add]. rewrite !nth_act by auto. f_equal. pose proof (HS p k (nth k p 0%nat) Hp (nth_error_nth' p 0%nat Hk')) as E.
    rewrite (nth_error_nth' bs bdef Hk) in E. symmetry. apply (@nth_error_nth _ bs _ _ bdef). auto.
  - apply rmul_perm. apply Permutation_map. apply perm_seq. split; auto.
Qed.

(** ** Orbits *)
Lemma sym_bases_bits bs ps : sym_bases bs ps -> sym_bits (bits_lists bs) ps.
Proof. intros H p i j Hp E. unfold bits_lists. rewrite !nth_error_map, (H p i j); auto. Qed.

Section Orbit.
Variables (bs cs : list basis) (ps : list (list nat)) (combos : list (list (list nat))).
Hypothesis HT : Forall2 turned bs cs.
Hypothesis HG : perm_group (length bs) ps.
Hypothesis HS : sym_bases bs ps.
Hypothesis HS' : sym_bases cs ps.
Hypothesis HC : gen_combos (bits_lists bs) ps = Some combos.

Let LC : length cs = length bs.
Proof. symmetry. eapply Forall2_length; eauto. Qed.
Lemma combos_part : NoDup (concat combos) /\ (forall a, In a (concat combos) <-> bits_of bs a) /\ (forall g, In g combos -> g <> []) /\
  (forall g a b, In g combos -> In a g -> (In b g <-> exists p, In p ps /\ b = act a p)).
Proof using HG HS HC.
  destruct (C35_partition HG (sym_bases_bits HS)) as (x & E & H1 & H2 & H3 & H4); [apply map_length|]. rewrite HC in E. injection E as <-.
  assert (HL : forall g a, In g combos -> In a g -> length a = length bs).
  { intros g a Hg Ha. assert (Hi : In a (cart (bits_lists bs))) by (apply H2; apply in_concat; eauto). apply cart_len in Hi. rewrite Hi. apply map_length. }
  split; auto. split; [intros a; rewrite H2; apply all_bits_in|]. split; auto.
  intros g a b Hg Ha. rewrite (H4 g a b Hg Ha). split; intros (p & Hp & E); exists p; split; auto.
  - rewrite (permute_act (n := length bs)) in E; eauto; [congruence|]. apply (pg_perm HG p Hp).
  - subst b. apply (permute_act (n := length bs)); eauto. apply (pg_perm HG p Hp).
Qed.
Lemma combo_bits g a : In g combos -> In a g -> bits_of bs a.
Proof using HG HS HC. intros Hg Ha. apply (proj1 (proj2 combos_part)). apply in_concat. eauto. Qed.
Lemma bits_len a : bits_of bs a -> length a = length bs.
Proof using. intros H. symmetry. eapply Forall2_length; eauto. Qed.
Lemma combo_nodup g : In g combos -> NoDup g.
Proof using HG HS HC.
  intros Hg. apply in_split in Hg as (l1 & l2 & E). pose proof (proj1 combos_part) as H. rewrite E in H. rewrite concat_app in H. cbn [concat] in H.
  apply NoDup_app_remove_l in H. apply NoDup_app_remove_r in H. auto.
Qed.
Lemma act_inj p a b : In p ps -> length a = length bs -> length b = length bs -> act a p = act b p -> a = b.
Proof using HG.
  intros Hp La Lb E. destruct (pg_inv HG p Hp) as (q & Hq & Eq). destruct (pg_perm HG p Hp) as (Lp & _ & Pl). destruct (pg_perm HG q Hq) as (Lq & _ & Ql).
  rewrite (permute_act (n := length bs)) in Eq by auto. injection Eq as Eq.
  assert (X : forall x, length x = length bs -> act (act x p) q = x) by (intros x Lx; rewrite act_act by (rewrite Lp; auto); rewrite Eq; apply act_id; auto).
  rewrite <- (X a La), <- (X b Lb), E. auto.
Qed.
Lemma combo_act g p : In g combos -> In p ps -> Permutation (map (fun a => act a p) g) g.
Proof using HG HS HC.
  intros Hg Hp. apply NoDup_Permutation_bis; [|rewrite map_length; auto|].
  - assert (HL : forall a, In a g -> length a = length bs) by (intros a Ha; apply bits_len; eapply combo_bits; eauto).
    pose proof (combo_nodup Hg) as N. clear Hg. induction N as [|a l Na Nl IH]; cbn [map]; constructor.
    + intros Hi. apply in_map_iff in Hi as (b & E & Hb). apply act_inj in E; simpl in HL; auto. congruence.
    + apply IH. intros; apply HL; simpl; auto.
  - intros b Hb. apply in_map_iff in Hb as (a & <- & Ha). apply (proj2 (proj2 (proj2 combos_part)) g a); eauto.
Qed.
(** The sum over one class is the same for all members of another. *)
Definition class_sum (ci : list (list nat)) (bj : list nat) : R := rsum (map (fun bi => rot_product cs bi bj) ci).
Lemma class_sum_const ci cj b b' : In ci combos -> In cj combos -> In b cj -> In b' cj -> class_sum ci b' = class_sum ci b.
Proof using HT HG HS HS' HC.
  intros Hi Hj Hb Hb'. apply (proj2 (proj2 (proj2 combos_part)) cj b) in Hb' as (p & Hp & ->); auto. unfold class_sum.
  rewrite <- (rs_perm (Permutation_map (fun bi => rot_product cs bi (act b p)) (combo_act Hi Hp))), map_map.
  apply rs_ext. intros a Ha. apply (rot_product_act (ps := ps)); auto; rewrite ?LC; auto; apply bits_len; [apply (combo_bits Hi); auto|apply (combo_bits Hj); auto].
Qed.
Lemma combo_pos g : In g combos -> INR (length g) <> 0.
Proof using HG HS HC. intros Hg. apply not_0_INR. intros E. apply length_zero_iff_nil in E. revert E. apply (proj1 (proj2 (proj2 combos_part))). auto. Qed.
Lemma rot_element_class ci cj b : In ci combos -> In cj combos -> In b cj -> rot_element cs ci cj = INR (length cj) * class_sum ci b / INR (length ci).
Proof using HT HG HS HS' HC.
  intros Hi Hj Hb. unfold rot_element. f_equal. rewrite rs_flat, rs_swap. rewrite (rs_ext (g := fun _ => class_sum ci b)) by (intros b' Hb'; apply class_sum_const with cj; auto). apply rs_const.
Qed.
Lemma rs_all (f : list nat -> R) : rsum (map f (all_bits bs)) = rsum (map (fun g => rsum (map f g)) combos).
Proof using HG HS HC.
  rewrite <- rs_concat. apply rs_perm. apply Permutation_map. apply NoDup_Permutation.
  - apply cart_nodup. intros l Hl. apply in_map_iff in Hl as (b & <- & _). apply seq_NoDup.
  - apply combos_part.
  - intros a. rewrite all_bits_in. symmetry. apply combos_part.
Qed.
Lemma combo_expand ci codes : In ci combos -> Forall2 (fun b s => (s < length (b_space b))%nat) bs codes ->
  combo_value cs ci codes = rsum (map (fun cj => rot_element cs ci cj * combo_value bs cj codes) combos).
Proof using HT HG HS HS' HC.
  intros Hi Hc. unfold combo_value at 1.
  rewrite (rs_ext (g := fun bi => rsum (map (fun bj => rot_product cs bi bj * product_value bs bj codes) (all_bits bs)))) by (intros bi Hbi; apply cluster_expand; auto; eapply combo_bits; eauto).
  rewrite rs_swap, rs_all. unfold Rdiv. rewrite Rmult_comm, <- rs_scale. apply rs_ext. intros cj Hj.
  destruct cj as [|b0 cj'] eqn:Ec; [exfalso; eapply (proj1 (proj2 (proj2 combos_part))); eauto|]. rewrite <- Ec in *. assert (Hb0 : In b0 cj) by (rewrite Ec; simpl; auto). clear Ec.
  rewrite (rot_element_class (b := b0)) by auto. unfold combo_value.
  rewrite (rs_ext (g := fun bj => class_sum ci b0 * product_value bs bj codes)).
  2:{ intros bj Hbj. rewrite <- (class_sum_const (ci := ci) (cj := cj) (b := b0) (b' := bj)) by auto. unfold class_sum. rewrite Rmult_comm, <- rs_scale. apply rs_ext. intros; lra. }
  rewrite rs_scale. pose proof (combo_pos Hi). pose proof (combo_pos Hj). field. auto.
Qed.
Lemma corr_expand rows occu ci : In ci combos -> (forall row, In row rows -> Forall2 (fun b s => (nth s occu 0%nat < length (b_space b))%nat) bs row) ->
  corr_value cs rows occu ci = rsum (map (fun cj => rot_element cs ci cj * corr_value bs rows occu cj) combos).
Proof using HT HG HS HS' HC.
  intros Hi Hr. unfold corr_value at 1.
  rewrite (rs_ext (g := fun row => rsum (map (fun cj => rot_element cs ci cj * combo_value bs cj (map (fun s => nth s occu 0%nat) row)) combos))).
  2:{ intros row Hrow. apply combo_expand; auto. apply Hr in Hrow. clear - Hrow. induction Hrow; cbn [map]; constructor; auto. }
  rewrite rs_swap. unfold Rdiv. rewrite Rmult_comm, <- rs_scale. apply rs_ext. intros cj _. rewrite rs_scale. unfold corr_value, Rdiv. ring.
Qed.
Lemma element_unitary ci ck : In ci combos -> In ck combos ->
  rsum (map (fun cj => rot_element cs ci cj * rot_element cs ck cj * (INR (length ci) / INR (length cj))) combos) = if list_eq_dec (list_eq_dec Nat.eq_dec) ci ck then 1 else 0.
Proof using HT HG HS HS' HC.
  intros Hi Hk. pose proof (combo_pos Hi) as Pi. pose proof (combo_pos Hk) as Pk.
  rewrite (rs_ext (g := fun cj => / INR (length ck) * rsum (map (fun bj => class_sum ci bj * class_sum ck bj) cj))).
  2:{ intros cj Hj. destruct cj as [|b0 cj'] eqn:Ec; [exfalso; eapply (proj1 (proj2 (proj2 combos_part))); eauto|]. rewrite <- Ec in *. assert (Hb0 : In b0 cj) by (rewrite Ec; simpl; auto). clear Ec.
    rewrite !(rot_element_class (b := b0)) by auto. rewrite (rs_ext (g := fun _ => class_sum ci b0 * class_sum ck b0)).
    2:{ intros b Hb. rewrite !(class_sum_const (cj := cj) (b := b0) (b' := b)) by auto. auto. }
    rewrite rs_const. pose proof (combo_pos Hj). field. auto. }
  rewrite rs_scale, <- rs_all.
  rewrite (rs_ext (g := fun bj => rsum (map (fun bi => rsum (map (fun bk => rot_product cs bi bj * rot_product cs bk bj) ck)) ci))).
  2:{ intros bj _. unfold class_sum. rewrite Rmult_comm, <- rs_scale. apply rs_ext. intros bi _. rewrite Rmult_comm, <- rs_scale. auto. }
  rewrite rs_swap. rewrite (rs_ext (g := fun bi => rsum (map (fun bk => if list_eq_dec Nat.eq_dec bi bk then 1 else 0) ck))).
  2:{ intros bi Hbi. rewrite rs_swap. apply rs_ext. intros bk Hbk. apply cluster_unitary; auto; [apply (combo_bits Hi); auto|apply (combo_bits Hk); auto]. }
  destruct (list_eq_dec (list_eq_dec Nat.eq_dec) ci ck) as [->|N].
  - rewrite (rs_ext (g := fun _ => 1)); [rewrite rs_const; field; auto|]. intros bi Hbi. pose proof (combo_nodup Hk) as Nd. clear - Nd Hbi.
    induction Nd as [|b l Hb Nd IH]; [contradiction|]. cbn [map rsum]. destruct Hbi as [->|Hbi].
    + destruct (list_eq_dec Nat.eq_dec bi bi); [|congruence]. rewrite (rs_ext (g := fun _ => 0)); [rewrite rs_zero; lra|]. intros x Hx. destruct (list_eq_dec Nat.eq_dec bi x); congruence.
    + destruct (list_eq_dec Nat.eq_dec bi b); [congruence|]. rewrite IH by auto. lra.
  - rewrite (rs_ext (g := fun _ => 0)); [rewrite rs_zero; lra|]. intros bi Hbi. rewrite (rs_ext (g := fun _ => 0)); [apply rs_zero|]. intros bk Hbk.
    destruct (list_eq_dec Nat.eq_dec bi bk) as [->|]; auto. exfalso. apply N. clear N.
    pose proof (proj1 combos_part) as Nd. clear - Nd Hi Hk Hbi Hbk. induction combos as [|g l IH]; [contradiction|]. cbn [concat] in Nd.
    assert (D : forall x, In x g -> ~ In x (concat l)).
    { clear - Nd. induction g as [|y g IHg]; intros x Hx; [contradiction|]. inversion Nd; subst. destruct Hx as [->|Hx]; [intros Hl; apply H1; apply in_app_iff; auto|]. apply IHg; auto. }
    destruct Hi as [->|Hi], Hk as [->|Hk]; auto.
    + exfalso. apply (D bk); auto. apply in_concat; eauto.
    + exfalso. apply (D bk); auto. apply in_concat; eauto.
    + apply IH; auto. apply NoDup_app_remove_l in Nd. auto.
Qed.
End Orbit.
