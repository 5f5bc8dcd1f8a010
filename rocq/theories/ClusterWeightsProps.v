(** Property C103: effective cluster weights are the variances of the cluster interactions. *)
From Verif Require Import ClusterWeights ClusterWeightsProofs LibProofs EvaluatorProofs EvaluatorProps SubspaceSpec SubspaceProofs TensorProofs ExpansionProps ArrangeProofs.
From Coq Require Import Lia.
Set Implicit Arguments.
Unset Strict Implicit.
Open Scope nat_scope.

(** ** Specification *)
(** Coefficient of every product of site functions in the functions of an orbit. *)
Definition orbit_eci (coefs : list Qc) (o : sorbit) (k : nat) : Qc :=
  (nth (s_bit o + k) coefs 0 / (Qc_of_nat (s_mult o) * Qc_of_nat (length (nth k (s_combos o) []))))%Qc.
Definition orbit_weight (coefs : list Qc) (o : sorbit) : Qc :=
  qsum (map (fun k => Qc_of_nat (length (nth k (s_combos o) [])) * (orbit_eci coefs o k * orbit_eci coefs o k))%Qc (seq 0 (s_len o))).
(** Entry of a flattened tensor at the codes of the sites. *)
Definition tensor_at (dims : list nat) (t : list Qc) (codes : list nat) : Qc := nth (index_of_codes (strides_of dims) codes) t 0%Qc.
(** The property of a supercell from its cluster decomposition. *)
Definition supercell_property (P : proc) (st : subspace) (occu : list nat) : Qc :=
  match cd_features P occu with Some f => cd_property st f | None => 0%Qc end.

(** ** Blocks *)
Lemma combine_app' {A B} (a1 a2 : list A) (b1 b2 : list B) : length a1 = length b1 -> combine (a1 ++ a2) (b1 ++ b2) = combine a1 b1 ++ combine a2 b2.
Proof. revert b1. induction a1 as [|a a1 IH]; intros [|b b1] L; simpl in *; try discriminate; auto. rewrite IH; auto. Qed.
Lemma filter_rep {A} i j (l : list A) n : length l = n ->
  map snd (filter (fun p => fst p =? i) (combine (repeat j n) l)) = if j =? i then l else [].
Proof.
  revert n. induction l as [|x l IH]; intros [|n] L; try discriminate; cbn [repeat combine filter map]; [destruct (j =? i); auto|].
  cbn [fst]. specialize (IH n (f_equal pred L)). destruct (j =? i); cbn [map snd]; rewrite IH; auto.
Qed.
Definition blocks {A} (g : sorbit -> list A) i (os : list sorbit) : list A :=
  map snd (filter (fun p => fst p =? i) (combine (flat_map (fun o => repeat (s_id o) (s_len o)) os) (flat_map g os))).
Lemma blocks_none {A} (g : sorbit -> list A) i os : (forall o, In o os -> length (g o) = s_len o) -> (forall o, In o os -> s_id o <> i) -> blocks g i os = [].
Proof.
  unfold blocks. induction os as [|o os IH]; intros HL Hi; auto. cbn [flat_map].
  rewrite combine_app' by (rewrite repeat_length; symmetry; apply HL; simpl; auto). rewrite filter_app, map_app, IH by (intros; (apply HL || apply Hi); simpl; auto).
  rewrite filter_rep by (apply HL; simpl; auto). destruct (Nat.eqb_spec (s_id o) i) as [E|]; auto. exfalso. apply (Hi o); simpl; auto.
Qed.
Lemma blocks_one {A} (g : sorbit -> list A) os : forall b n o, map s_id os = seq b (length os) -> (forall o, In o os -> length (g o) = s_len o) ->
  nth_error os n = Some o -> blocks g (b + n) os = g o.
Proof.
  induction os as [|x os IH]; intros b n o Hid HL Hn; [destruct n; discriminate|]. cbn [map length seq] in Hid. injection Hid as H0 Hid.
  unfold blocks. cbn [flat_map]. rewrite combine_app' by (rewrite repeat_length; symmetry; apply HL; simpl; auto). rewrite filter_app, map_app.
  rewrite filter_rep by (apply HL; simpl; auto). fold (blocks g (b + n) os). destruct n as [|n]; simpl in Hn.
  - injection Hn as ->. rewrite Nat.add_0_r, H0, Nat.eqb_refl. rewrite blocks_none; [apply app_nil_r|intros; apply HL; simpl; auto|].
    intros y Hy E. assert (Hin : In (s_id y) (map s_id os)) by (apply in_map; auto). rewrite Hid in Hin. apply in_seq in Hin. lia.
  - rewrite <- (IH (S b) n o Hid) by (auto; intros; apply HL; simpl; auto). rewrite Nat.add_succ_comm.
    destruct (Nat.eqb_spec (s_id x) (b + S n)) as [E|]; [lia|]. auto.
Qed.
Lemma blocks_length {A} (g : sorbit -> list A) os : (forall o, In o os -> length (g o) = s_len o) ->
  length (flat_map (fun o => repeat (s_id o) (s_len o)) os) = length (flat_map g os).
Proof. induction os as [|o os IH]; intros H; auto. cbn [flat_map]. rewrite !app_length, repeat_length, IH, H by (intros; try apply H; simpl; auto). auto. Qed.
Lemma list_of_nth {A} (l : list A) d : l = map (fun j => nth j l d) (seq 0 (length l)).
Proof.
  induction l as [|x l IH]; auto. cbn [length seq map nth]. f_equal. rewrite <- seq_shift, map_map. exact IH.
Qed.

Lemma map_flat_map' {A B C} (g : B -> C) (f : A -> list B) l : map g (flat_map f l) = flat_map (fun x => map g (f x)) l.
Proof. induction l as [|x l IH]; auto. cbn [flat_map]. rewrite map_app, IH. auto. Qed.
Lemma seq_add_map b n : seq b n = map (Nat.add b) (seq 0 n).
Proof. revert b. induction n as [|n IH]; intros b; auto. cbn [seq map]. rewrite Nat.add_0_r. f_equal. rewrite (IH (S b)), <- seq_shift, map_map. apply map_ext. intros; lia. Qed.
Lemma combine_map {A B C} (f : A -> B) (g : A -> C) l : combine (map f l) (map g l) = map (fun x => (f x, g x)) l.
Proof. induction l as [|x l IH]; cbn; auto. rewrite IH. auto. Qed.
Lemma Qcmult_cancel_l k a b : k <> 0%Qc -> (k * a = k * b)%Qc -> a = b.
Proof. intros H E. transitivity ((/ k) * (k * a))%Qc; [field; auto|]. rewrite E. field. auto. Qed.

(** ** The weights *)
Section Weights.
Variables (st : subspace) (coefs : list Qc) (next : nat).
Hypothesis HC : consistent st.
Hypothesis HM : forall o, In o (sub_orbits st) -> 0 < s_mult o.
Hypothesis HL : length coefs = sub_ncorr st + next.

Lemma eci_blocks : exists e, eci (sub_orbits st) coefs next = Some e /\
  e = nth 0 coefs 0%Qc :: flat_map (fun o => map (orbit_eci coefs o) (seq 0 (s_len o))) (sub_orbits st).
Proof.
  destruct (eci_ok HC HM HL) as (e & Ee & Le & Ve). exists e. split; auto.
  assert (E0 : nth 0 e 0%Qc = nth 0 coefs 0%Qc).
  { unfold eci in Ee. rewrite (total_mults HC) in Ee. cbn [option_bind] in Ee. rewrite total_mults_len in Ee by auto.
    replace (length coefs - next) with (sub_ncorr st) in Ee by lia.
    assert (Lf : length (firstn (sub_ncorr st) coefs) = sub_ncorr st) by (rewrite firstn_length; lia). rewrite Lf, Nat.eqb_refl in Ee. injection Ee as <-.
    assert (Hn : 0 < sub_ncorr st) by (rewrite (c_ncorr HC); lia). destruct coefs as [|c cs]; [simpl in HL; lia|]. destruct (sub_ncorr st); [lia|].
    unfold qmap2. cbn [firstn map combine nth fst snd]. change (Qc_of_nat 1) with 1%Qc. field. discriminate. }
  rewrite (list_of_nth e 0%Qc) at 1. rewrite Le, (c_ncorr HC). cbn [Nat.add seq map]. f_equal; auto.
  rewrite <- (@bits_seq _ 1 (c_bits HC)). rewrite map_flat_map'. rewrite !flat_map_concat_map. f_equal. apply map_ext_in. intros o Ho.
  destruct (In_nth_error _ _ Ho) as (n & Hn). rewrite seq_add_map, map_map. apply map_ext_in. intros k Hk. apply in_seq in Hk.
  apply nth_error_nth. unfold orbit_eci. apply (Ve n); auto. unfold combo_mults. rewrite nth_error_map, (nth_error_nth' _ []) by (unfold s_len in Hk; lia). auto.
Qed.

Theorem C103_weights : exists ws, effective_weights (sub_orbits st) coefs next = Some ws /\ length ws = S (length (sub_orbits st)) /\
  nth_error ws 0 = Some (nth 0 coefs 0 * nth 0 coefs 0)%Qc /\
  forall o, In o (sub_orbits st) -> nth_error ws (s_id o) = Some (orbit_weight coefs o).
Proof.
  destruct eci_blocks as (e & Ee & E). unfold effective_weights. rewrite Ee. cbn [option_bind].
  set (os := sub_orbits st) in *. set (ge := fun o => map (orbit_eci coefs o) (seq 0 (s_len o))) in *.
  assert (L1 : forall o, In o os -> length (combo_mults o) = s_len o) by (intros; unfold combo_mults, s_len; apply map_length).
  assert (L2 : forall o, In o os -> length (ge o) = s_len o) by (intros; unfold ge; rewrite map_length, seq_length; auto).
  assert (Len1 : length (function_orbit_ids os) = length (ordering_multiplicities os)) by (unfold function_orbit_ids, ordering_multiplicities; cbn [length]; f_equal; apply blocks_length; auto).
  assert (Len2 : length (function_orbit_ids os) = length e) by (rewrite E; unfold function_orbit_ids; cbn [length]; f_equal; apply blocks_length; auto).
  set (ws := map (fun i => match i with 0 => (nth 0 coefs 0 * nth 0 coefs 0)%Qc | S n => orbit_weight coefs (nth n os (mkS 0 0 [] [] 0 0)) end) (seq 0 (length os + 1))).
  exists ws. split; [|split; [unfold ws; rewrite map_length, seq_length; lia|split]].
  - unfold ws. apply opt_map_map. intros i Hi. apply in_seq in Hi. unfold of_orbit. rewrite <- Len1, <- Len2, Nat.eqb_refl. cbn [option_bind]. f_equal. rewrite E.
    unfold function_orbit_ids, ordering_multiplicities. cbn [combine filter fst].
    fold (blocks combo_mults i os) (blocks ge i os).
    destruct i as [|n].
    + cbn [Nat.eqb map snd]. fold (blocks combo_mults 0 os) (blocks ge 0 os).
      assert (Hid : forall o, In o os -> s_id o <> 0).
      { intros o Ho E0. assert (Hin : In (s_id o) (map s_id os)) by (apply in_map; auto). unfold os in Hin. rewrite (c_ids HC) in Hin. apply in_seq in Hin. lia. }
      rewrite !blocks_none by auto. unfold qmap2, qsum. cbn [map combine fold_right fst snd]. change (Qc_of_nat 1) with 1%Qc. ring.
    + cbn [Nat.eqb]. fold (blocks combo_mults (S n) os) (blocks ge (S n) os).
      assert (Hn : n < length os) by lia. pose proof (nth_error_nth' os (mkS 0 0 [] [] 0 0) Hn) as Ho.
      pose proof (blocks_one (b := 1) (c_ids HC) L1 Ho) as B1. pose proof (blocks_one (b := 1) (c_ids HC) L2 Ho) as B2. cbn [Nat.add] in B1, B2. fold os in B1, B2.
      rewrite B1, B2. unfold orbit_weight. set (o := nth n os _). unfold ge. f_equal.
      rewrite (list_of_nth (combo_mults o) 0). unfold combo_mults at 2. rewrite map_length. fold (s_len o). rewrite map_map. unfold qmap2.
      rewrite combine_map, map_map. apply map_ext_in. intros k Hk. apply in_seq in Hk. cbn [fst snd]. f_equal. unfold combo_mults.
      rewrite (nth_indep _ 0 (length (@nil (list nat)))) by (rewrite map_length; unfold s_len in Hk; lia). rewrite map_nth. auto.
  - unfold ws. rewrite Nat.add_1_r. reflexivity.
  - intros o Ho. destruct (In_nth_error _ _ Ho) as (n & Hn).
    assert (Ei : s_id o = S n).
    { assert (E1 : nth_error (map s_id os) n = Some (s_id o)) by (rewrite nth_error_map, Hn; auto). unfold os in E1. rewrite (c_ids HC), nth_error_seq in E1.
      destruct (n <? length (sub_orbits st)); [|discriminate]. injection E1 as <-. auto. }
    assert (Hlt : n < length os) by (apply nth_error_Some; congruence).
    rewrite Ei. unfold ws. rewrite nth_error_map, nth_error_seq. destruct (Nat.ltb_spec (S n) (length os + 1)); [|lia]. cbn [option_map Nat.add].
    rewrite (nth_error_nth _ _ _ Hn). auto.
Qed.
End Weights.

(** ** Terms of an orbit *)
Definition terms (o : sorbit) : list (nat * list nat) := flat_map (fun k => map (pair k) (nth k (s_combos o) [])) (seq 0 (s_len o)).
Lemma in_terms o t : In t (terms o) -> exists combos, In combos (s_combos o) /\ In (snd t) combos.
Proof.
  intros H. apply in_flat_map in H as (k & Hk & H). apply in_seq in Hk. apply in_map_iff in H as (b & <- & Hb). exists (nth k (s_combos o) []). split; auto.
  apply nth_In. unfold s_len in Hk. lia.
Qed.
Lemma terms_snd o : map snd (terms o) = concat (s_combos o).
Proof.
  unfold terms. rewrite flat_map_concat_map, concat_map, map_map. rewrite (map_ext _ (fun k => nth k (s_combos o) [])) by (intros k; rewrite map_map; apply map_id).
  unfold s_len. rewrite <- list_of_nth. auto.
Qed.
Lemma qsum_flat_map {A} (f : A -> list Qc) l : qsum (flat_map f l) = qsum (map (fun x => qsum (f x)) l).
Proof. induction l as [|x l IH]; auto. cbn [flat_map map]. rewrite qsum_app, IH. auto. Qed.
Lemma terms_sum o (f : nat -> list nat -> Qc) : qsum (map (fun t => f (fst t) (snd t)) (terms o)) =
  qsum (map (fun k => qsum (map (f k) (nth k (s_combos o) []))) (seq 0 (s_len o))).
Proof.
  unfold terms. rewrite map_flat_map', qsum_flat_map. apply qsum_map_ext. intros k _. rewrite map_map. auto.
Qed.
Lemma terms_weight coefs o : qsum (map (fun t => orbit_eci coefs o (fst t) * orbit_eci coefs o (fst t))%Qc (terms o)) = orbit_weight coefs o.
Proof.
  rewrite (terms_sum o (fun k _ => orbit_eci coefs o k * orbit_eci coefs o k)%Qc). apply qsum_map_ext. intros k _. rewrite qsum_const. auto.
Qed.
Lemma terms_fop o : NoDup (concat (s_combos o)) -> ForallOrdPairs (fun t t' => snd t <> snd t') (terms o).
Proof.
  rewrite <- terms_snd. generalize (terms o) as l. induction l as [|t l IH]; intros H; constructor; cbn [map] in H; inversion H as [|? ? Hn Hd]; subst; auto.
  apply Forall_forall. intros t' Ht' E. apply Hn. rewrite E. apply in_map. auto.
Qed.

(** The entries of the interaction tensors. *)
Lemma tensor_terms st coefs next dims o e i : consistent st -> (forall o, In o (sub_orbits st) -> 0 < s_mult o) -> length coefs = sub_ncorr st + next ->
  In o (sub_orbits st) -> sorbit_ok dims o -> eci (sub_orbits st) coefs next = Some e -> interaction_tensor e o = Some i ->
  s_dims o = dims /\ length i = nprod dims /\
  forall codes, codes_below dims codes -> tensor_at dims i codes = qsum (map (fun t => orbit_eci coefs o (fst t) * bprod (s_basis o) (snd t) codes)%Qc (terms o)).
Proof.
  intros HC HM HL Ho HO Ee Ei. destruct (eci_ok HC HM HL) as (e' & Ee' & _ & Ve). rewrite Ee in Ee'. injection Ee' as <-.
  destruct (In_nth_error _ _ Ho) as (n & Hn). destruct (tensors_ok HO) as (ts & Et & Lt & Ed & Hl & Vt).
  destruct (@inter_ok dims o e (fun k => nth (s_bit o + k) coefs 0%Qc) ts HO) as (i' & Ei' & Li & Vi); auto.
  { apply (c_funs HC); auto. }
  { intros k m Hm. apply (Ve n); auto. }
  rewrite Ei in Ei'. injection Ei' as <-. split; auto. split; auto. intros codes Hc. unfold tensor_at.
  assert (Hm : s_mult o <> 0) by (specialize (HM o Ho); lia). pose proof (Qc_of_nat_nz Hm) as Hmq.
  apply (Qcmult_cancel_l Hmq). rewrite Vi.
  rewrite (terms_sum o (fun k bits => orbit_eci coefs o k * bprod (s_basis o) bits codes)%Qc), <- qsum_map_scale. apply qsum_map_ext. intros k Hk. apply in_seq in Hk.
  assert (Hk' : k < length (s_combos o)) by (unfold s_len in Hk; lia).
  assert (Hkt : k < length ts) by lia.
  rewrite (Vt k (nth k (s_combos o) []) (nth k ts []) codes) by (auto; apply nth_error_nth'; auto).
  rewrite qsum_map_scale. unfold orbit_eci. set (S0 := qsum _). set (m := Qc_of_nat (length (nth k (s_combos o) []))).
  assert (Hmk : m <> 0%Qc).
  { apply Qc_of_nat_nz. intros E0. apply length_zero_iff_nil in E0. apply (so_combos HO (combos := nth k (s_combos o) [])); auto. apply nth_In; auto. }
  field. auto.
Qed.

(** ** Variances of cluster interactions *)
Lemma shape_length basis dims : basis_shape basis dims -> length basis = length dims.
Proof. apply Forall2_length. Qed.
Lemma bits_labs basis bits : bits_in basis bits -> Forall2 lab_ok basis (map Some bits).
Proof. induction 1; cbn [map]; constructor; auto. Qed.

Theorem C103_variance st coefs next mus o e i ws : consistent st -> (forall o, In o (sub_orbits st) -> 0 < s_mult o) -> length coefs = sub_ncorr st + next ->
  In o (sub_orbits st) -> sorbit_ok (map (@length _) mus) o -> mus <> [] -> Forall2 orthonormal mus (s_basis o) -> NoDup (concat (s_combos o)) ->
  eci (sub_orbits st) coefs next = Some e -> interaction_tensor e o = Some i -> effective_weights (sub_orbits st) coefs next = Some ws ->
  expect mus (tensor_at (s_dims o) i) = 0%Qc /\
  nth_error ws (s_id o) = Some (expect mus (fun codes => tensor_at (s_dims o) i codes * tensor_at (s_dims o) i codes)%Qc).
Proof.
  intros HC HM HL Ho HO Hne HF Hnd Ee Ei Ew. destruct (tensor_terms HC HM HL Ho HO Ee Ei) as (Ed & _ & Hv). rewrite Ed.
  set (F := fun (t : nat * list nat) codes => prods (labs (s_basis o) (map Some (snd t))) codes).
  assert (Hb : forall t, In t (terms o) -> bits_in (s_basis o) (snd t)).
  { intros t Ht. apply in_terms in Ht as (combos & H1 & H2). eapply (so_bits HO); eauto. }
  assert (Hv' : forall codes, codes_below (map (@length _) mus) codes -> tensor_at (map (@length _) mus) i codes = qsum (map (fun t => orbit_eci coefs o (fst t) * F t codes)%Qc (terms o))).
  { intros codes Hc. rewrite Hv by auto. apply qsum_map_ext. intros t Ht. f_equal. apply bprod_labs; auto.
    apply Forall2_length in Hc. rewrite <- Hc. symmetry. apply shape_length. apply (so_shape HO). }
  split.
  - rewrite (expect_ext Hv'), (expect_qsum mus (fun t codes => orbit_eci coefs o (fst t) * F t codes)%Qc). apply qsum_map_0. intros t Ht. rewrite expect_scale.
    unfold F. rewrite labs_mean; [ring|auto|apply bits_labs; auto|]. specialize (Hb t Ht). destruct Hb as [|B b basis bits _ _]; [|exists b; simpl; auto].
    inversion HF; subst; congruence.
  - destruct (C103_weights HC HM HL) as (ws' & Ew' & _ & _ & Hw). rewrite Ew in Ew'. injection Ew' as <-. rewrite (Hw o Ho). f_equal.
    rewrite (@expect_ext mus _ (fun codes => qsum (map (fun t => orbit_eci coefs o (fst t) * F t codes) (terms o)) * qsum (map (fun t => orbit_eci coefs o (fst t) * F t codes) (terms o)))%Qc).
    2:{ intros codes Hc. rewrite Hv' by auto. auto. }
    rewrite (@orthonormal_sum _ mus F (fun t => orbit_eci coefs o (fst t))); [rewrite terms_weight; auto| |].
    + intros t Ht. unfold F. rewrite (labs_orth HF) by (apply bits_labs; auto). destruct (list_eq_dec _ _ _); [auto|congruence].
    + pose proof (terms_fop Hnd) as HT. revert HT Hb. generalize (terms o) as l. clear - HF. induction 1 as [|t l H1 H IH]; intros Hb; constructor; [|apply IH; intros; apply Hb; simpl; auto].
      rewrite Forall_forall in *. intros t' Ht'. unfold F. rewrite (labs_orth HF) by (apply bits_labs; apply Hb; simpl; auto).
      destruct (list_eq_dec _ _ _) as [E|]; auto. exfalso. apply (H1 t' Ht'). clear - E. revert E. generalize (snd t) (snd t'). induction l as [|x l IH]; intros [|y l'] E; try discriminate; auto. injection E as -> E. f_equal. auto.
Qed.
(** The weight of an orbit does not depend on the choice of the orthonormal site functions. *)
Theorem C103_basis st st' coefs coefs' next next' mus o o' e e' i i' ws ws' :
  consistent st -> (forall o, In o (sub_orbits st) -> 0 < s_mult o) -> length coefs = sub_ncorr st + next ->
  consistent st' -> (forall o, In o (sub_orbits st') -> 0 < s_mult o) -> length coefs' = sub_ncorr st' + next' ->
  In o (sub_orbits st) -> sorbit_ok (map (@length _) mus) o -> Forall2 orthonormal mus (s_basis o) -> NoDup (concat (s_combos o)) ->
  In o' (sub_orbits st') -> sorbit_ok (map (@length _) mus) o' -> Forall2 orthonormal mus (s_basis o') -> NoDup (concat (s_combos o')) -> mus <> [] ->
  eci (sub_orbits st) coefs next = Some e -> interaction_tensor e o = Some i -> effective_weights (sub_orbits st) coefs next = Some ws ->
  eci (sub_orbits st') coefs' next' = Some e' -> interaction_tensor e' o' = Some i' -> effective_weights (sub_orbits st') coefs' next' = Some ws' ->
  i = i' -> nth_error ws (s_id o) = nth_error ws' (s_id o').
Proof.
  intros HC HM HL HC' HM' HL' Ho HO HF Hnd Ho' HO' HF' Hnd' Hne Ee Ei Ew Ee' Ei' Ew' <-.
  destruct (C103_variance HC HM HL Ho HO Hne HF Hnd Ee Ei Ew) as [_ ->]. destruct (C103_variance HC' HM' HL' Ho' HO' Hne HF' Hnd' Ee' Ei' Ew') as [_ ->].
  destruct (tensors_ok HO) as (_ & _ & _ & -> & _). destruct (tensors_ok HO') as (_ & _ & _ & -> & _). auto.
Qed.

(** ** Variance of the property of a supercell *)
Lemma fop_map {A B} (R : B -> B -> Prop) (f : A -> B) l : ForallOrdPairs R (map f l) -> ForallOrdPairs (fun x y => R (f x) (f y)) l.
Proof.
  induction l as [|x l IH]; cbn [map]; intros H; constructor; inversion H as [|? ? H1 H2]; subst; auto.
  rewrite Forall_forall in *. intros y Hy. apply H1. apply in_map. auto.
Qed.
Lemma fop_impl {A} (R R' : A -> A -> Prop) l : (forall x y, In x l -> In y l -> R x y -> R' x y) -> ForallOrdPairs R l -> ForallOrdPairs R' l.
Proof.
  intros Hi H. induction H as [|x l H1 H IH]; constructor.
  - rewrite Forall_forall in *. intros y Hy. apply Hi; simpl; auto.
  - apply IH. intros; apply Hi; simpl; auto.
Qed.
Record random_supercell (sd : nat -> nat) (N : nat) (st : subspace) (tables : list ctable) (size : nat) (fs : nat -> list (list Qc)) (mus : list (list Qc)) : Prop := {
  rs_sites : map (@length _) mus = map sd (seq 0 N);
  rs_orth : Forall2 orthonormal mus (map fs (seq 0 N));
  rs_clusters : forall n o rows, nth_error (sub_orbits st) n = Some o -> nth_error tables n = Some rows ->
    length rows = s_mult o * size /\ forall row, In row rows -> NoDup row /\ s_basis o = map fs row;
  rs_distinct : ForallOrdPairs different_sites (concat tables);
  rs_combos : forall o, In o (sub_orbits st) -> NoDup (concat (s_combos o))
}.
Definition pairs (os : list sorbit) (tables : list ctable) : list (sorbit * list nat) :=
  flat_map (fun q => map (pair (fst q)) (snd q)) (combine os tables).
Lemma pairs_snd os : forall tables, length tables = length os -> map snd (pairs os tables) = concat tables.
Proof.
  unfold pairs. induction os as [|o os IH]; intros [|rows tables] L; try discriminate; auto. cbn [combine flat_map concat fst snd]. rewrite map_app, IH by (simpl in L; lia).
  rewrite map_map. cbn [snd]. rewrite map_id. auto.
Qed.
Lemma combine_nth_error {A B} (l : list A) (l' : list B) x y : In (x, y) (combine l l') -> exists n, nth_error l n = Some x /\ nth_error l' n = Some y.
Proof.
  revert l'. induction l as [|a l IH]; intros [|b l'] H; try destruct H as [[= -> ->]|H]; try contradiction; [exists 0; auto|].
  destruct (IH _ H) as (n & H1 & H2). exists (S n). auto.
Qed.
Lemma in_pairs os tables p : In p (pairs os tables) -> exists n rows, nth_error os n = Some (fst p) /\ nth_error tables n = Some rows /\ In (snd p) rows.
Proof.
  intros H. apply in_flat_map in H as ([o rows] & Hq & H). apply in_map_iff in H as (row & <- & Hr). apply combine_nth_error in Hq as (n & H1 & H2). eauto.
Qed.

Section Supercell.
Variables (sd : nat -> nat) (N : nat) (st : subspace) (tables : list ctable) (coefs : list Qc) (next size : nat) (fs : nat -> list (list Qc)) (mus : list (list Qc)).
Hypothesis HE : expansion_ok sd N st tables.
Hypothesis HL : length coefs = sub_ncorr st + next.
Hypothesis Hsize : 0 < size.
Hypothesis HR : random_supercell sd N st tables size fs mus.

Lemma mus_length : length mus = N.
Proof. pose proof (rs_sites HR) as E. apply (f_equal (@length _)) in E. rewrite !map_length, seq_length in E. auto. Qed.
Lemma codes_ok_below occu : codes_below (map (@length _) mus) occu -> codes_ok sd N occu.
Proof.
  rewrite (rs_sites HR). intros H. assert (L := Forall2_length H). rewrite map_length, seq_length in L. split; auto.
  assert (X : forall n a cs, Forall2 (fun d c => c < d) (map sd (seq a n)) cs -> forall s c, nth_error cs s = Some c -> c < sd (a + s)).
  { clear. induction n as [|n IH]; intros a cs H s c E; cbn [seq map] in H; inversion H as [|? c0 ? cs' H0 H1]; subst; [destruct s; discriminate|].
    destruct s as [|s]; simpl in E; [injection E as ->; rewrite Nat.add_0_r; auto|]. rewrite Nat.add_succ_r. apply (IH (S a) cs' H1). auto. }
  intros s c E. apply (X N 0 occu H s c E).
Qed.

Lemma property_sum P : expansion_proc size st tables coefs next = Some P -> forall occu, codes_ok sd N occu ->
  supercell_property P st occu = (Qc_of_nat size * nth 0 coefs 0 +
    qsum (map (fun p => qsum (map (fun t => orbit_eci coefs (fst p) (fst t) * bprod (s_basis (fst p)) (snd t) (map (fun s => nth s occu 0%nat) (snd p))) (terms (fst p)))) (pairs (sub_orbits st) tables)))%Qc.
Proof.
  intros EP occu HO. pose proof (ex_cons HE) as HC. destruct (exp_proc size HE HL) as (P' & e & EP' & Ee & EqP & Hn). rewrite EP in EP'. injection EP' as <-.
  pose proof (exp_proc_ok HE HL EP) as HP. destruct (interactions_total HP HO) as (w & Ew & Lw & Vw).
  assert (En2 : e_num_orbits (p_eval P) = sub_norb st) by (rewrite EqP; auto).
  unfold supercell_property, cd_features. rewrite Ew. cbn [option_bind]. unfold cd_property. rewrite qdot_scale.
  rewrite (qdot_seq (n := sub_norb st)) by (rewrite ?map_length; unfold orbit_multiplicities; simpl; rewrite ?map_length; rewrite ?(c_norb HC); try lia; rewrite Lw, En2, (c_norb HC); auto).
  rewrite (map_ext_in _ (fun j => nth j (map Qc_of_nat (orbit_multiplicities (sub_orbits st))) 0 * ((if j =? 0 then e_offset (p_eval P) else 0) + qsum (map (fun q => contrib (iw occu q) j) (odata P))))%Qc (seq 0 (sub_norb st))).
  2:{ intros j Hj. rewrite Vw. auto. }
  rewrite (@dot_total _ (fun j => nth j (map Qc_of_nat (orbit_multiplicities (sub_orbits st))) 0%Qc) (e_offset (p_eval P)) (iw occu) (odata P)).
  2:{ rewrite (c_norb HC). lia. }
  2:{ intros q x Hqi [<-|[]]. cbn [fst]. rewrite <- En2. apply (ok_ids_in HP). rewrite <- (odata_orbits HP). apply (in_map (fun q => fst (fst q))). auto. }
  rewrite Qcmult_plus_distr_l. f_equal.
  - rewrite EqP. cbn [p_eval e_offset p_size]. unfold orbit_multiplicities. cbn [map nth]. rewrite Qcmult_comm. f_equal. apply Qcmult_1_l.
  - unfold pairs. rewrite map_flat_map', qsum_flat_map. rewrite <- qsum_map_scale_r.
    assert (Eo : odata P = map (fun q => (odata_of (fst q), einter e (fst q), snd q)) (combine (sub_orbits st) tables)).
    { unfold odata. rewrite EqP. cbn [p_eval p_tables e_orbits e_inter]. clear. generalize (sub_orbits st) as os, tables as ts.
      induction os as [|o os IH]; intros [|t ts]; cbn [map combine]; auto. cbn [fst snd]. rewrite IH. auto. }
    rewrite Eo, map_map. apply qsum_map_ext. intros [o rows] Hq. cbn [fst snd]. apply combine_nth_error in Hq as (n & Ho & Hr).
    destruct (Hn n o rows Ho Hr) as (dims & ts & Hd & HOo & Hne & HRo & Ed & Et & Lt & Hl & Li & Vi).
    destruct (rs_clusters HR Ho Hr) as [Lr Hrow]. assert (Hin : In o (sub_orbits st)) by (eapply nth_error_In; eauto).
    assert (Ex : qsum (map (fun p => qsum (map (fun t => orbit_eci coefs (fst p) (fst t) * bprod (s_basis (fst p)) (snd t) (map (fun s => nth s occu 0%nat) (snd p))) (terms (fst p)))) (map (pair o) rows))%Qc =
      qsum (map (fun row => tensor_at dims (einter e o) (map (fun s => nth s occu 0) row)) rows)).
    2:{ transitivity (qsum (map (fun row => tensor_at dims (einter e o) (map (fun s => nth s occu 0) row)) rows)); [|symmetry; exact Ex].
      unfold iw. cbn [fst snd map odata_of o_id]. rewrite mult_nth by auto. unfold imean, csum. change (o_strides (odata_of o)) with (strides_of (s_dims o)).
      replace (map (fun row => nth (0 + fidx (strides_of (s_dims o)) occu row) (einter e o) 0%Qc) rows) with (map (fun row => tensor_at dims (einter e o) (map (fun s => nth s occu 0) row)) rows).
      2:{ apply map_ext. intros row. cbn [Nat.add]. rewrite fidx_codes, Ed. auto. }
      rewrite Lr, Qc_of_nat_mul. replace (p_size P) with size by (rewrite EqP; auto). set (X := qsum (map _ rows)).
      assert (H1 : Qc_of_nat (s_mult o) <> 0%Qc) by (apply Qc_of_nat_nz; pose proof (ex_mult HE Hin); lia). assert (H2 : Qc_of_nat size <> 0%Qc) by (apply Qc_of_nat_nz; lia).
      transitivity X; [|reflexivity]. clearbody X. unfold qsum. cbn [fold_right]. field. auto. }
    rewrite map_map. cbn [fst snd]. apply qsum_map_ext.
    { intros row Hrw. symmetry. destruct (interaction_tensor e o) as [i|] eqn:Ei.
      * unfold einter. rewrite Ei. apply (tensor_terms HC (ex_mult HE) HL Hin HOo Ee Ei).
        destruct (HRo row Hrw) as [E1 E2]. rewrite <- E1. clear - HO E2. induction row as [|s row IH]; cbn [map]; constructor; [|apply IH; intros; apply E2; simpl; auto].
        destruct HO as [LO CO]. apply CO. apply nth_error_nth'. rewrite LO. apply E2. simpl; auto.
      * exfalso. unfold einter in Li. rewrite Ei in Li. destruct row as [|s row].
        { destruct (HRo [] Hrw) as [E1 _]. simpl in E1. congruence. }
        destruct (tensors_ok HOo) as (ts' & Et' & Lt' & _). rewrite Et in Et'. injection Et' as <-.
        destruct (eci_ok HC (ex_mult HE) HL) as (e' & Ee' & _ & Ve). rewrite Ee in Ee'. injection Ee' as <-.
        destruct (@inter_ok dims o e (fun k => nth (s_bit o + k) coefs 0%Qc) ts HOo) as (i' & Ei' & _); auto.
        { apply (ex_mult HE); auto. } { apply (c_funs HC); auto. } { intros k m Hm. apply (Ve n); auto. } congruence. }
Qed.

Theorem C103_supercell : exists P, expansion_proc size st tables coefs next = Some P /\
  expect mus (supercell_property P st) = (Qc_of_nat size * nth 0 coefs 0)%Qc /\
  expect mus (fun occu => (supercell_property P st occu - Qc_of_nat size * nth 0 coefs 0) * (supercell_property P st occu - Qc_of_nat size * nth 0 coefs 0))%Qc =
  (Qc_of_nat size * qsum (map (fun o => Qc_of_nat (s_mult o) * orbit_weight coefs o) (sub_orbits st)))%Qc.
Proof.
  pose proof (ex_cons HE) as HC. destruct (exp_proc size HE HL) as (P & e & EP & _). exists P. split; auto.
  set (T := flat_map (fun p => map (pair p) (terms (fst p))) (pairs (sub_orbits st) tables)).
  set (F := fun (x : (sorbit * list nat) * (nat * list nat)) occu => prods (labs (map fs (seq 0 N)) (cluster_labels N (snd (fst x)) (snd (snd x)))) occu).
  set (k := fun x : (sorbit * list nat) * (nat * list nat) => orbit_eci coefs (fst (fst x)) (fst (snd x))).
  assert (Hp : forall p, In p (pairs (sub_orbits st) tables) -> In (fst p) (sub_orbits st) /\ NoDup (snd p) /\ (forall s, In s (snd p) -> s < N) /\ s_basis (fst p) = map fs (snd p) /\ snd p <> [] /\
      forall t, In t (terms (fst p)) -> bits_in (map fs (snd p)) (snd t)).
  { intros p Hp. apply in_pairs in Hp as (n & rows & Ho & Hr & Hrow). destruct (ex_orbit HE Ho Hr) as (dims & Hd & HOo & _ & HRo). destruct (rs_clusters HR Ho Hr) as [_ Hb]. destruct (Hb _ Hrow) as [Hnd Eb].
    destruct (HRo _ Hrow) as [E1 E2]. split; [eapply nth_error_In; eauto|]. do 3 (split; auto). split.
    - intros E0. rewrite E0 in E1. simpl in E1. congruence.
    - intros t Ht. rewrite <- Eb. apply in_terms in Ht as (combos & H1 & H2). eapply (so_bits HOo); eauto. }
  assert (HT : forall x, In x T -> In (fst x) (pairs (sub_orbits st) tables) /\ In (snd x) (terms (fst (fst x)))).
  { intros x Hx. apply in_flat_map in Hx as (p & H1 & H2). apply in_map_iff in H2 as (t & <- & Ht). auto. }
  assert (Hlen : forall p t, In p (pairs (sub_orbits st) tables) -> In t (terms (fst p)) -> length (snd t) = length (snd p)).
  { intros p t H1 H2. destruct (Hp p H1) as (_ & _ & _ & _ & _ & Hb). specialize (Hb t H2). apply Forall2_length in Hb. rewrite map_length in Hb. auto. }
  assert (Hlab : forall x, In x T -> Forall2 lab_ok (map fs (seq 0 N)) (cluster_labels N (snd (fst x)) (snd (snd x)))).
  { intros x Hx. destruct (HT x Hx) as [H1 H2]. destruct (Hp _ H1) as (_ & Hnd & HN & _ & _ & Hb). apply cluster_labels_ok; auto. }
  assert (Hv : forall occu, codes_below (map (@length _) mus) occu -> (supercell_property P st occu - Qc_of_nat size * nth 0 coefs 0 = qsum (map (fun x => k x * F x occu) T))%Qc).
  { intros occu Hc. pose proof (codes_ok_below Hc) as HO. rewrite (property_sum EP HO). unfold T. rewrite map_flat_map', qsum_flat_map.
    match goal with |- (?a + ?b - ?a = ?c)%Qc => cut (b = c); [intros ->; ring|] end.
    apply qsum_map_ext. intros p Hin. rewrite map_map. apply qsum_map_ext. intros t Ht. unfold k, F. cbn [fst snd]. f_equal.
    destruct (Hp p Hin) as (_ & Hnd & HN & -> & _ & Hb). apply cluster_bprod; auto. apply HO. }
  split.
  - rewrite (@expect_ext mus _ (fun occu => Qc_of_nat size * nth 0 coefs 0 * prods (labs (map fs (seq 0 N)) (repeat None (length (map fs (seq 0 N))))) occu + qsum (map (fun x => k x * F x occu) T))%Qc).
    2:{ intros occu Hc. rewrite <- Hv, prods_none by auto. ring. }
    rewrite expect_add, expect_scale, (expect_qsum mus (fun x occu => k x * F x occu)%Qc), qsum_map_0.
    2:{ intros x Hx. rewrite expect_scale. unfold F. rewrite labs_mean; [ring|apply (rs_orth HR)|auto|].
        destruct (HT x Hx) as [H1 H2]. destruct (Hp _ H1) as (_ & Hnd & HN & _ & Hne & Hb). pose proof (Hlen _ _ H1 H2) as Ln.
        destruct (snd (fst x)) as [|s row] eqn:Er; [congruence|]. destruct (snd (snd x)) as [|b bits] eqn:Eb; [discriminate|]. exists b.
        unfold cluster_labels. apply in_map_iff. exists s. split; [unfold lookup; cbn [combine find fst]; rewrite Nat.eqb_refl; auto|]. apply in_seq. specialize (HN s (or_introl eq_refl)). lia. }
    rewrite (@expect_ext mus _ (fun cs => prods (labs (map fs (seq 0 N)) (repeat None (length (map fs (seq 0 N))))) cs * prods (labs (map fs (seq 0 N)) (repeat None (length (map fs (seq 0 N))))) cs)%Qc).
    2:{ intros cs _. rewrite prods_none. ring. }
    assert (Hnone : Forall2 lab_ok (map fs (seq 0 N)) (repeat None (length (map fs (seq 0 N))))).
    { generalize (map fs (seq 0 N)) as l. clear. induction l; cbn; constructor; simpl; auto. }
    rewrite (labs_orth (rs_orth HR) Hnone Hnone). destruct (list_eq_dec _ _ _); [ring|congruence].
  - rewrite (@expect_ext mus _ (fun occu => qsum (map (fun x => k x * F x occu) T) * qsum (map (fun x => k x * F x occu) T))%Qc).
    2:{ intros occu Hc. rewrite Hv by auto. auto. }
    rewrite orthonormal_sum.
    + unfold T. rewrite map_flat_map', qsum_flat_map.
      rewrite (qsum_map_ext _ (fun p => orbit_weight coefs (fst p))).
      2:{ intros p _. rewrite map_map. unfold k. cbn [fst snd]. apply terms_weight. }
      unfold pairs. rewrite map_flat_map', qsum_flat_map, <- qsum_map_scale.
      rewrite (qsum_map_ext _ (fun q => Qc_of_nat size * (Qc_of_nat (s_mult (fst q)) * orbit_weight coefs (fst q)))%Qc).
      2:{ intros [o rows] Hq. cbn [fst snd]. rewrite map_map. cbn [fst]. rewrite qsum_const. apply combine_nth_error in Hq as (n & Ho & Hr). destruct (rs_clusters HR Ho Hr) as [-> _]. rewrite Qc_of_nat_mul. ring. }
      rewrite <- (map_map fst (fun o => Qc_of_nat size * (Qc_of_nat (s_mult o) * orbit_weight coefs o))%Qc). rewrite fst_combine by (symmetry; apply (ex_len HE)). auto.
    + intros x Hx. unfold F. rewrite (labs_orth (rs_orth HR)) by auto. destruct (list_eq_dec _ _ _); [auto|congruence].
    + unfold T. apply FOP_flat_map.
      * pose proof (rs_distinct HR) as HD. rewrite <- (pairs_snd (ex_len HE)) in HD. apply fop_map in HD. revert HD. apply fop_impl.
        intros p p' H1 H2 HD x y Hx Hy. apply in_map_iff in Hx as (t & <- & Ht). apply in_map_iff in Hy as (t' & <- & Ht'). unfold F. cbn [fst snd].
        destruct (Hp p H1) as (_ & Hnd & HN & _ & _ & Hb). destruct (Hp p' H2) as (_ & Hnd' & HN' & _ & _ & Hb').
        rewrite (labs_orth (rs_orth HR)) by (apply cluster_labels_ok; auto). destruct (list_eq_dec _ _ _) as [E|]; auto. exfalso. revert E.
        apply labels_sites; auto.
      * intros p H1. destruct (Hp p H1) as (Ho & Hnd & HN & _ & _ & Hb).
        assert (HF : ForallOrdPairs (fun t t' => snd t <> snd t') (map snd (map (pair p) (terms (fst p))))).
        { rewrite map_map. cbn [snd]. rewrite map_id. apply terms_fop. apply (rs_combos HR); auto. }
        apply fop_map in HF. revert HF. apply fop_impl. intros x y Hx Hy Hne. apply in_map_iff in Hx as (t & <- & Ht). apply in_map_iff in Hy as (t' & <- & Ht'). unfold F. cbn [fst snd] in *.
        rewrite (labs_orth (rs_orth HR)) by (apply cluster_labels_ok; auto). destruct (list_eq_dec _ _ _) as [E|]; auto. exfalso. revert E.
        apply labels_bits; auto.
Qed.
End Supercell.

(** ** A concrete case: a ring of three ternary sites with a point and a pair orbit *)
Definition wx_mu : list Qc := [Q2Qc (8 # 25); Q2Qc (9 # 25); Q2Qc (8 # 25)].
Definition wx_funs : list (list Qc) := [[Q2Qc (-5 # 4); Q2Qc 0; Q2Qc (5 # 4)]; [Q2Qc (3 # 4); Q2Qc (-4 # 3); Q2Qc (3 # 4)]].
Definition wx_items : list (nat * list sorbit) :=
  [(1, [mkS 0 1 [wx_funs] [[[0]]; [[1]]] 0 0]); (2, [mkS 1 1 [wx_funs; wx_funs] [[[0; 0]]; [[0; 1]; [1; 0]]; [[1; 1]]] 0 0])].
Definition wx_st : subspace := new_sub wx_items.
Definition wx_tables : list ctable := [[[0]; [1]; [2]]; [[0; 1]; [1; 2]; [2; 0]]].
Definition wx_coefs : list Qc := map Qc_of_Z [5; 2; -3; 4; 7; 1]%Z.
Example wx_orthonormal : orthonormal wx_mu wx_funs.
Proof.
  constructor.
  - apply Qc_is_canon. reflexivity.
  - intros [|[|b]] r E; simpl in E; try (destruct b; discriminate); injection E as <-; apply Qc_is_canon; vm_compute; reflexivity.
  - intros [|[|b]] [|[|b']] r r' E E'; simpl in E, E'; try (destruct b; discriminate); try (destruct b'; discriminate); injection E as <-; injection E' as <-; apply Qc_is_canon; vm_compute; reflexivity.
Qed.
Example wx_ok : expansion_ok (fun _ => 3) 3 wx_st wx_tables.
Proof.
  constructor; [|reflexivity| |].
  - apply (reset_consistent [] (items := wx_items)). intros kv o H1 H2. ex_in H1; ex_in H2; discriminate.
  - intros o H. ex_in H; simpl; lia.
  - intros [|[|[|n]]] o rows; simpl; try discriminate; intros [= <-] [= <-].
    + exists [3]. split; [discriminate|]. split; [|split; [discriminate|]].
      * constructor; simpl.
        { repeat constructor. intros r H; ex_in H; reflexivity. }
        { intros B H; ex_in H; discriminate. }
        { intros cs bits H1 H2; ex_in H1; ex_in H2; repeat constructor. }
        { intros cs H1; ex_in H1; discriminate. }
      * intros row H; ex_in H; (split; [reflexivity|]); intros s H'; ex_in H'; lia.
    + exists [3; 3]. split; [discriminate|]. split; [|split; [discriminate|]].
      * constructor; simpl.
        { repeat constructor; intros r H; ex_in H; reflexivity. }
        { intros B H; ex_in H; discriminate. }
        { intros cs bits H1 H2; ex_in H1; ex_in H2; repeat constructor. }
        { intros cs H1; ex_in H1; discriminate. }
      * intros row H; ex_in H; (split; [reflexivity|]); intros s H'; ex_in H'; lia.
Qed.
Ltac diff_in s := exists s; simpl; lia.
Ltac nodup_lists := repeat (constructor; [simpl; intros H; repeat (destruct H as [H|H]; [discriminate|]); exact H|]); constructor.
Example wx_random : random_supercell (fun _ => 3) 3 wx_st wx_tables 3 (fun _ => wx_funs) [wx_mu; wx_mu; wx_mu].
Proof.
  constructor.
  - reflexivity.
  - repeat constructor; apply wx_orthonormal.
  - intros [|[|[|n]]] o rows; simpl; try discriminate; intros [= <-] [= <-]; (split; [reflexivity|]); intros row H; ex_in H; (split; [nodup_lists|reflexivity]).
  - simpl. repeat constructor; first [diff_in 0|diff_in 1|diff_in 2].
  - intros o H. ex_in H; simpl; nodup_lists.
Qed.
Example C103_case : exists ws P i e o, effective_weights (sub_orbits wx_st) wx_coefs 0 = Some ws /\ map this ws = [25; 13; 83 # 2]%Q /\
  nth_error (sub_orbits wx_st) 1 = Some o /\ eci (sub_orbits wx_st) wx_coefs 0 = Some e /\ interaction_tensor e o = Some i /\
  this (expect [wx_mu; wx_mu] (fun cs => tensor_at (s_dims o) i cs * tensor_at (s_dims o) i cs)%Qc) = (83 # 2)%Q /\
  expansion_proc 3 wx_st wx_tables wx_coefs 0 = Some P /\ this (expect [wx_mu; wx_mu; wx_mu] (supercell_property P wx_st)) = 15%Q /\
  this (expect [wx_mu; wx_mu; wx_mu] (fun c => (supercell_property P wx_st c - Q2Qc 15) * (supercell_property P wx_st c - Q2Qc 15))%Qc) = (327 # 2)%Q.
Proof. eexists _, _, _, _, _. repeat (split; [vm_compute; reflexivity|]). vm_compute. reflexivity. Qed.
Example C103_weights_case : consistent wx_st /\ (forall o, In o (sub_orbits wx_st) -> 0 < s_mult o) /\ length wx_coefs = sub_ncorr wx_st + 0.
Proof. split; [apply (ex_cons wx_ok)|]. split; [apply (ex_mult wx_ok)|reflexivity]. Qed.
(** The same expansion with the site functions in another order. *)
Definition wy_funs : list (list Qc) := rev wx_funs.
Definition wy_items : list (nat * list sorbit) :=
  [(1, [mkS 0 1 [wy_funs] [[[0]]; [[1]]] 0 0]); (2, [mkS 1 1 [wy_funs; wy_funs] [[[0; 0]]; [[0; 1]; [1; 0]]; [[1; 1]]] 0 0])].
Definition wy_st : subspace := new_sub wy_items.
Definition wy_coefs : list Qc := map Qc_of_Z [5; -3; 2; 1; 7; 4]%Z.
Lemma this_inj (a b : list Qc) : map this a = map this b -> a = b.
Proof. revert b. induction a as [|x a IH]; intros [|y b] E; try discriminate; auto. injection E as E0 E. f_equal; auto. apply Qc_is_canon. rewrite E0. reflexivity. Qed.
Example wy_orthonormal : orthonormal wx_mu wy_funs.
Proof.
  constructor.
  - apply Qc_is_canon. reflexivity.
  - intros [|[|b]] r E; simpl in E; try (destruct b; discriminate); injection E as <-; apply Qc_is_canon; vm_compute; reflexivity.
  - intros [|[|b]] [|[|b']] r r' E E'; simpl in E, E'; try (destruct b; discriminate); try (destruct b'; discriminate); injection E as <-; injection E' as <-; apply Qc_is_canon; vm_compute; reflexivity.
Qed.
Example C103_basis_case : exists o o' e e' i i' ws ws', nth_error (sub_orbits wx_st) 1 = Some o /\ nth_error (sub_orbits wy_st) 1 = Some o' /\
  Forall2 orthonormal [wx_mu; wx_mu] (s_basis o) /\ Forall2 orthonormal [wx_mu; wx_mu] (s_basis o') /\ s_basis o <> s_basis o' /\ wx_coefs <> wy_coefs /\
  eci (sub_orbits wx_st) wx_coefs 0 = Some e /\ interaction_tensor e o = Some i /\ effective_weights (sub_orbits wx_st) wx_coefs 0 = Some ws /\
  eci (sub_orbits wy_st) wy_coefs 0 = Some e' /\ interaction_tensor e' o' = Some i' /\ effective_weights (sub_orbits wy_st) wy_coefs 0 = Some ws' /\
  i = i' /\ map this ws = map this ws'.
Proof.
  eexists _, _, _, _, _, _, _, _. split; [reflexivity|]. split; [reflexivity|].
  split; [repeat constructor; apply wx_orthonormal|]. split; [repeat constructor; apply wy_orthonormal|].
  split; [discriminate|]. split; [discriminate|].
  repeat (split; [vm_compute; reflexivity|]). split; [|vm_compute; reflexivity]. apply this_inj. vm_compute. reflexivity.
Qed.

Print Assumptions C103_weights.
Print Assumptions C103_variance.
Print Assumptions C103_basis.
Print Assumptions C103_supercell.
