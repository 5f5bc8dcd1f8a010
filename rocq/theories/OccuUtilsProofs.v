(** Proofs about [OccuUtils]. *)
From Verif Require Export LibProofs SublatticeProofs OccuUtilsSpec.
Set Implicit Arguments.
Open Scope nat_scope.

Lemma countb_upd {A} (f : A -> bool) (l : list A) i x y :
  nth_error l i = Some y ->
  countb f (upd l i x) + (if f y then 1 else 0) = countb f l + (if f x then 1 else 0).
Proof.
  intros H. destruct (upd_split l i x H) as (l1 & l2 & -> & _ & ->).
  rewrite !countb_app, !countb_cons. lia.
Qed.

Lemma apply_step_length s : forall occu, length (apply_step occu s) = length occu.
Proof.
  induction s as [|f s IH]; intros occu; simpl; auto. unfold apply_step in *. simpl.
  rewrite IH. apply length_upd.
Qed.

(** ** Dimensions of an occupancy *)
Lemma occu_dims_spec occu t dims :
  occu_dims occu t = Some dims <->
  length occu = length t /\ length dims = length t /\
  forall i, i < length t -> exists c,
    nth_error occu i = Some c /\ get_cell t i c = nth_error dims i.
Proof.
  unfold occu_dims, get_cell.
  destruct (Nat.eqb_spec (length occu) (length t)) as [Hl|Hl]; simpl;
    [|split; [discriminate|tauto]].
  revert t dims Hl; induction occu as [|c occu IH]; intros [|row t] dims Hl;
    simpl in *; try lia.
  - split.
    + intros H; inversion H; subst; repeat split; auto; simpl; intros; lia.
    + intros (_ & H & _). destruct dims; simpl in *; auto; lia.
  - assert (Hl' : length occu = length t) by lia. specialize (IH t).
    split.
    + intros H. destruct (nth_error row c) eqn:Er; [|discriminate].
      destruct (opt_map _ _) as [ds|] eqn:Eo; [|discriminate].
      inversion H; subst. destruct (proj1 (IH ds Hl') eq_refl) as (_ & Hd & Hi).
      repeat split; simpl; auto.
      intros [|i] Hlt; simpl; eauto. apply Hi; lia.
    + intros (_ & Hd & Hi).
      destruct dims as [|d dims]; simpl in *; [lia|].
      destruct (Hi 0) as (c' & Hc & Hr); [lia|]. simpl in *. inversion Hc; subst.
      rewrite Hr.
      assert (E : opt_map (fun p : nat * list Z => nth_error (snd p) (fst p)) (combine occu t)
                  = Some dims).
      { apply IH; auto. repeat split; auto.
        intros i Hlt. destruct (Hi (S i)) as (c'' & Hc' & Hr'); [lia|]. eauto. }
      rewrite E; auto.
Qed.

Lemma occu_dims_upd occu t dims site code d :
  occu_dims occu t = Some dims -> get_cell t site code = Some d ->
  occu_dims (upd occu site code) t = Some (upd dims site d).
Proof.
  intros H Hd. apply occu_dims_spec in H. destruct H as (Hl & Hd' & Hi).
  apply occu_dims_spec. rewrite !length_upd. repeat split; auto.
  intros i Hlt. rewrite !nth_error_upd.
  destruct (Nat.eqb_spec site i) as [->|Hne].
  - rewrite (proj2 (Nat.ltb_lt _ _)) by lia. rewrite (proj2 (Nat.ltb_lt _ _)) by lia. eauto.
  - apply Hi; auto.
Qed.

(** ** C01 *)
Lemma add_at_Some v d x v' :
  add_at v d x = Some v' -> d < length v /\ length v' = length v /\
  forall i, nth i v' 0%Z = (nth i v 0 + if (i =? d)%nat then x else 0)%Z.
Proof.
  unfold add_at. destruct (nth_error v d) eqn:E; simpl; [|discriminate].
  intros H; inversion H; subst. pose proof (nth_error_Some_lt _ _ E).
  rewrite length_upd. repeat split; auto. intros i.
  destruct (Nat.eqb_spec i d) as [->|Hne].
  - rewrite (nth_error_nth _ _ 0%Z E).
    erewrite nth_error_nth; [reflexivity|]. apply nth_error_upd_eq; auto.
  - rewrite Z.add_0_r. destruct (Nat.lt_ge_cases i (length v)) as [Hi|Hi].
    + destruct (nth_error_lt v Hi) as [w Hw].
      rewrite (nth_error_nth _ _ _ Hw).
      apply nth_error_nth. rewrite nth_error_upd_neq; auto.
    + rewrite !nth_overflow; auto. rewrite length_upd; auto.
Qed.

Definition zc (d : nat) (dims : list Z) : Z := Z.of_nat (countb (Z.eqb (Z.of_nat d)) dims).

Lemma zc_upd dims i x y d :
  nth_error dims i = Some y ->
  zc d (upd dims i x) =
  (zc d dims - (if Z.eqb (Z.of_nat d) y then 1 else 0)
             + (if Z.eqb (Z.of_nat d) x then 1 else 0))%Z.
Proof.
  intros H. unfold zc. pose proof (countb_upd (Z.eqb (Z.of_nat d)) _ _ x H) as E.
  destruct (Z.eqb _ y), (Z.eqb _ x); lia.
Qed.

Lemma delta_loop_counts s t : forall occu dims dn dn',
  occu_dims occu t = Some dims -> delta_loop occu s t dn = Some dn' ->
  exists dims', occu_dims (apply_step occu s) t = Some dims' /\
    length dn' = length dn /\
    (forall i, In i dims' -> In i dims \/ (i < Z.of_nat (length dn))%Z) /\
    forall d, (nth d dn' 0 - nth d dn 0 = zc d dims' - zc d dims)%Z.
Proof.
  induction s as [|[site code] s IH]; intros occu dims dn dn' Hd H; simpl in H.
  - inversion H; subst. exists dims. repeat split; auto. intros; lia.
  - destruct (nth_error occu site) as [c0|] eqn:Ec; simpl in H; [|discriminate].
    destruct (get_cell t site c0) as [d0|] eqn:E0; simpl in H; [|discriminate].
    destruct (get_cell t site code) as [d1|] eqn:E1; simpl in H; [|discriminate].
    destruct (Z.ltb_spec d0 0) as [|Hd0]; simpl in H; [discriminate|].
    destruct (Z.ltb_spec d1 0) as [|Hd1]; simpl in H; [discriminate|].
    destruct (add_at dn (Z.to_nat d0) (-1)) as [dn1|] eqn:A1; simpl in H; [|discriminate].
    destruct (add_at dn1 (Z.to_nat d1) 1) as [dn2|] eqn:A2; simpl in H; [|discriminate].
    apply add_at_Some in A1. destruct A1 as (L1 & Len1 & N1).
    apply add_at_Some in A2. destruct A2 as (L2 & Len2 & N2).
    pose proof (@occu_dims_upd _ _ _ _ _ _ Hd E1) as Hd'.
    destruct (IH _ _ _ _ Hd' H) as (dims' & Hdims' & Hlen & Hin & Hc).
    exists dims'. split; [exact Hdims'|]. split; [lia|].
    apply occu_dims_spec in Hd. destruct Hd as (Hl & Hld & Hi).
    assert (Hs : site < length t) by (apply nth_error_Some_lt in Ec; lia).
    destruct (Hi _ Hs) as (c' & Hc' & Hcell).
    assert (c' = c0) by congruence; subst c'.
    assert (Hnd : nth_error dims site = Some d0) by congruence.
    split.
    + intros i Hi'. apply Hin in Hi'. destruct Hi' as [Hi'|Hi'].
      * destruct (@upd_split _ _ _ d1 _ Hnd) as (l1 & l2 & El & _ & Eu).
        rewrite Eu in Hi'. apply in_app_iff in Hi'. subst dims.
        destruct Hi' as [Hi'|[Hi'|Hi']].
        -- left; apply in_app_iff; auto.
        -- right; lia.
        -- left; apply in_app_iff; simpl; auto.
      * right; lia.
    + intros d. specialize (Hc d). rewrite (@zc_upd _ _ d1 _ d Hnd) in Hc.
      rewrite N2, N1 in Hc.
      assert (B0 : Z.eqb (Z.of_nat d) d0 = Nat.eqb d (Z.to_nat d0))
        by (destruct (Z.eqb_spec (Z.of_nat d) d0), (Nat.eqb_spec d (Z.to_nat d0)); lia).
      assert (B1 : Z.eqb (Z.of_nat d) d1 = Nat.eqb d (Z.to_nat d1))
        by (destruct (Z.eqb_spec (Z.of_nat d) d1), (Nat.eqb_spec d (Z.to_nat d1)); lia).
      rewrite B0, B1 in Hc.
      destruct (Nat.eqb d (Z.to_nat d0)), (Nat.eqb d (Z.to_nat d1)); lia.
Qed.

Lemma counts_delta occu s n_dims t n dn :
  occu_to_counts occu n_dims t = Some n ->
  delta_counts_from_step occu s n_dims t = Some dn ->
  occu_to_counts (apply_step occu s) n_dims t = Some (vadd n dn).
Proof.
  unfold occu_to_counts, delta_counts_from_step. intros Hn Hd.
  destruct (occu_dims occu t) as [dims|] eqn:Ed; simpl in Hn; [|discriminate].
  destruct (forallb _ dims) eqn:Ef; [|discriminate].
  inversion Hn; subst; clear Hn.
  destruct (delta_loop_counts _ _ _ _ Ed Hd) as (dims' & Hd' & Hl & Hin & Hc).
  rewrite repeat_length in Hl, Hin. rewrite Hd'. simpl.
  assert (Ef' : forallb (fun d => (d <? Z.of_nat n_dims)%Z) dims' = true).
  { apply forallb_forall. intros d Hdin. apply Hin in Hdin.
    rewrite forallb_forall in Ef. destruct Hdin as [Hdin|Hdin]; auto.
    apply Z.ltb_lt; lia. }
  rewrite Ef'. f_equal.
  assert (Hr : forall d, nth d (repeat 0%Z n_dims) 0%Z = 0%Z).
  { intros d. destruct (Nat.lt_ge_cases d n_dims).
    - apply nth_repeat.
    - apply nth_overflow. rewrite repeat_length; auto. }
  apply list_ext_lt.
  - rewrite length_vadd, !map_length, seq_length. lia.
  - intros i Hi. rewrite map_length, seq_length in Hi.
    assert (Hlt : i < length dn) by lia.
    destruct (nth_error_lt dn Hlt) as [x Hx].
    rewrite nth_error_map, nth_error_seq, (proj2 (Nat.ltb_lt _ _) Hi). simpl.
    erewrite nth_error_vadd; [|rewrite nth_error_map, nth_error_seq, (proj2 (Nat.ltb_lt _ _) Hi); reflexivity|exact Hx].
    f_equal. specialize (Hc i). rewrite Hr in Hc. rewrite (nth_error_nth _ _ 0%Z Hx) in Hc.
    unfold zc in Hc. rewrite Nat.add_0_l. lia.
Qed.

(** ** C02: the dimension table *)
Definition shape (t : table) (n m : nat) : Prop :=
  length t = n /\ forall i row, nth_error t i = Some row -> length row = m.

Lemma shape_cell t n m s c : shape t n m -> s < n -> c < m -> exists v, get_cell t s c = Some v.
Proof.
  intros [Hl Hr] Hs Hc. unfold get_cell. subst n.
  destruct (nth_error_lt t Hs) as [row Hrow]. rewrite Hrow; simpl.
  apply nth_error_lt. rewrite (Hr _ _ Hrow); auto.
Qed.

Lemma set_cell_spec t n m s c v :
  shape t n m -> s < n -> c < m ->
  exists t', set_cell t s c v = Some t' /\ shape t' n m /\
    forall s' c', get_cell t' s' c' =
      if (s' =? s) && (c' =? c) then Some v else get_cell t s' c'.
Proof.
  intros Hsh Hs Hc. pose proof Hsh as [Hl Hr]. unfold set_cell.
  assert (Hs' : s < length t) by lia.
  destruct (nth_error_lt t Hs') as [row Hrow]. rewrite Hrow; simpl.
  rewrite (Hr _ _ Hrow), (proj2 (Nat.ltb_lt _ _) Hc).
  eexists; split; [reflexivity|]. split.
  - split; [rewrite length_upd; auto|]. intros i r. rewrite nth_error_upd.
    destruct (Nat.eqb_spec s i) as [->|Hne]; [|apply Hr].
    destruct (i <? length t); [|discriminate]. intros H; inversion H; subst.
    rewrite length_upd; eauto.
  - intros s' c'. unfold get_cell. rewrite nth_error_upd.
    destruct (Nat.eqb_spec s' s) as [->|Hne].
    + rewrite Nat.eqb_refl, (proj2 (Nat.ltb_lt _ _) Hs'). simpl.
      rewrite Hrow; simpl. rewrite nth_error_upd, Nat.eqb_sym.
      destruct (Nat.eqb_spec c' c) as [->|]; auto.
      rewrite (Hr _ _ Hrow), (proj2 (Nat.ltb_lt _ _) Hc). auto.
    + destruct (Nat.eqb_spec s s'); [lia|]. simpl. auto.
Qed.

Lemma set_cells_spec sites : forall t n m c v,
  shape t n m -> (forall s, In s sites -> s < n) -> c < m ->
  exists t', set_cells t sites c v = Some t' /\ shape t' n m /\
    forall s' c', get_cell t' s' c' =
      if memb s' sites && (c' =? c) then Some v else get_cell t s' c'.
Proof.
  induction sites as [|s sites IH]; intros t n m c v Hsh Hs Hc; simpl.
  - eexists; split; [reflexivity|]. split; auto.
  - destruct (@set_cell_spec t n m s c v) as (t1 & E1 & Sh1 & G1); auto.
    { apply Hs; left; auto. }
    rewrite E1; simpl.
    destruct (IH t1 n m c v) as (t2 & E2 & Sh2 & G2); auto.
    { intros; apply Hs; right; auto. }
    exists t2. split; auto. split; auto. intros s' c'. rewrite G2, G1.
    destruct (Nat.eqb_spec s' s) as [->|]; simpl; destruct (memb _ sites), (c' =? c); auto.
Qed.

Lemma fill_codes_spec codes : forall t n m d sites,
  shape t n m -> (forall s, In s sites -> s < n) -> (forall c, In c codes -> c < m) ->
  NoDup codes ->
  exists t', fill_codes t d sites codes = Some (t', d + length codes) /\ shape t' n m /\
    (forall s p c, In s sites -> nth_error codes p = Some c ->
        get_cell t' s c = Some (Z.of_nat (d + p))) /\
    (forall s c, ~ In s sites \/ ~ In c codes -> get_cell t' s c = get_cell t s c).
Proof.
  induction codes as [|c0 codes IH]; intros t n m d sites Hsh Hs Hc Hnd; simpl.
  - exists t. rewrite Nat.add_0_r. repeat split; auto; try apply Hsh.
    intros s [|p] c _ H; discriminate.
  - destruct (@set_cells_spec sites t n m c0 (Z.of_nat d)) as (t1 & E1 & Sh1 & G1); auto.
    { apply Hc; left; auto. }
    rewrite E1; simpl. inversion Hnd; subst.
    destruct (IH t1 n m (S d) sites) as (t2 & E2 & Sh2 & G2 & G3); auto.
    { intros; apply Hc; right; auto. }
    exists t2. rewrite E2. split; [f_equal; f_equal; lia|]. split; auto. split.
    + intros s [|p] c Hin Hp; simpl in Hp.
      * inversion Hp; subst. rewrite G3 by (right; auto). rewrite G1.
        rewrite (proj2 (memb_In s sites) Hin), Nat.eqb_refl. simpl. f_equal; lia.
      * rewrite (G2 _ _ _ Hin Hp). f_equal; lia.
    + intros s c Hn. rewrite G3 by (destruct Hn as [Hn|Hn]; [left; auto| right; intros H; apply Hn; right; auto]).
      rewrite G1. destruct (memb_reflect s sites) as [Hin|]; auto.
      destruct (Nat.eqb_spec c c0) as [->|]; auto.
      destruct Hn as [Hn|Hn]; [tauto|]. exfalso; apply Hn; left; auto.
Qed.

(** Sites of different sublattices in the list do not meet. *)
Fixpoint disjoint_sites (f : sublattice -> list nat) (sls : list sublattice) : Prop :=
  match sls with
  | [] => True
  | sl :: sls' => (forall s sl', In s (f sl) -> In sl' sls' -> ~ In s (f sl')) /\
                  disjoint_sites f sls'
  end.

Lemma fill_sublattices_spec act sls : forall t n m d,
  shape t n m ->
  (forall sl s, In sl sls -> In s (counted act sl) -> s < n) ->
  (forall sl c, In sl sls -> In c (sl_encoding sl) -> c < m) ->
  (forall sl, In sl sls -> NoDup (sl_encoding sl)) ->
  disjoint_sites (counted act) sls ->
  exists t', fill_sublattices t d act sls = Some (t', d + n_dims_of sls) /\ shape t' n m /\
    (forall k sl s p c, nth_error sls k = Some sl -> In s (counted act sl) ->
        nth_error (sl_encoding sl) p = Some c ->
        get_cell t' s c = Some (Z.of_nat (d + n_dims_of (firstn k sls) + p))) /\
    (forall s c, (forall sl, In sl sls -> ~ In s (counted act sl) \/ ~ In c (sl_encoding sl)) ->
        get_cell t' s c = get_cell t s c).
Proof.
  induction sls as [|sl sls IH]; intros t n m d Hsh Hs Hc Hnd Hdis; simpl.
  - exists t. unfold n_dims_of; simpl. rewrite Nat.add_0_r. repeat split; auto; try apply Hsh.
    intros [|k] ? ? ? ? H; discriminate.
  - destruct Hdis as [Hd1 Hd2].
    destruct (@fill_codes_spec (sl_encoding sl) t n m d (counted act sl))
      as (t1 & E1 & Sh1 & G1 & G2); auto.
    { intros s Hin. apply (Hs sl); simpl; auto. }
    { intros c Hin. apply (Hc sl); simpl; auto. }
    { apply Hnd; simpl; auto. }
    unfold counted in E1. rewrite E1; simpl.
    destruct (IH t1 n m (d + length (sl_encoding sl))) as (t2 & E2 & Sh2 & G3 & G4); auto.
    { intros sl' s Hin. apply Hs; simpl; auto. }
    { intros sl' s Hin. apply Hc; simpl; auto. }
    { intros sl' Hin. apply Hnd; simpl; auto. }
    exists t2. rewrite E2. unfold n_dims_of in *. simpl. split; [f_equal; f_equal; lia|].
    split; auto. split.
    + intros [|k] sl' s p c Hk Hin Hp; simpl in Hk.
      * inversion Hk; subst sl'. rewrite G4.
        -- rewrite (G1 _ _ _ Hin Hp). f_equal. simpl. lia.
        -- intros sl' Hin'. left. apply Hd1; auto.
      * rewrite (G3 _ _ _ _ _ Hk Hin Hp). f_equal. simpl. lia.
    + intros s c Hno. rewrite G4 by (intros; apply Hno; auto).
      apply G2. apply Hno; auto.
Qed.

Lemma list_sum_length {A} (f : A -> list nat) l :
  list_sum (map (fun x => length (f x)) l) = length (concat (map f l)).
Proof. induction l as [|x l IH]; simpl; auto. rewrite app_length, IH; auto. Qed.

Lemma NoDup_concat_disjoint sls : NoDup (concat (map sl_sites sls)) -> disjoint_sites sl_sites sls.
Proof.
  induction sls as [|sl sls IH]; simpl; auto. intros H. split.
  - intros s sl' Hin Hin' Hs.
    assert (Hc : In s (concat (map sl_sites sls))).
    { apply in_concat. exists (sl_sites sl'). split; auto. apply in_map; auto. }
    revert H. apply in_split in Hin. destruct Hin as (a & b & ->). intros H.
    rewrite <- app_assoc in H. simpl in H. apply NoDup_remove_2 in H.
    apply H. rewrite !in_app_iff; auto.
  - apply IH. eapply NoDup_app_remove_l; eauto.
Qed.

Lemma disjoint_sub act sls :
  (forall sl s, In sl sls -> In s (sl_active sl) -> In s (sl_sites sl)) ->
  disjoint_sites sl_sites sls -> disjoint_sites (counted act) sls.
Proof.
  intros Hsub. induction sls as [|sl sls IH]; simpl; auto. intros [H1 H2]. split.
  - intros s sl' Hin Hin' Hs. apply (H1 s sl'); auto.
    + destruct act; simpl in *; auto. 
    + destruct act; simpl in *; auto. 
  - apply IH; auto. intros; apply Hsub; simpl; auto.
Qed.

Lemma max_list_ge l x : In x l -> x <= max_list l.
Proof. unfold max_list. induction l as [|y l IH]; simpl; [tauto|]. intros [->|H]; [lia|]. specialize (IH H). lia. Qed.

Lemma shape_repeat n m : shape (repeat (repeat (-1)%Z m) n) n m.
Proof.
  split; [apply repeat_length|]. intros i row H. apply nth_error_In, repeat_spec in H. subst.
  apply repeat_length.
Qed.

Lemma get_cell_repeat n m s c v : get_cell (repeat (repeat v m) n) s c =
  if (s <? n) && (c <? m) then Some v else None.
Proof.
  unfold get_cell.
  assert (R : forall A (x : A) n i, nth_error (repeat x n) i = if i <? n then Some x else None).
  { clear. intros A x n. induction n as [|n IH]; intros [|i]; simpl; auto. rewrite IH. reflexivity. }
  rewrite R. destruct (s <? n); simpl; auto.
Qed.

Definition n_cols (sls : list sublattice) : nat :=
  max_list (map (fun sl => max_list (sl_encoding sl)) sls) + 1.

Lemma layout_site_lt sls N sl s : layout sls N -> In sl sls -> In s (sl_sites sl) -> s < N.
Proof.
  intros L Hin Hs. assert (In s (seq 0 N)).
  { eapply Permutation_in; [apply (lay_sites L)|]. apply in_concat.
    exists (sl_sites sl); split; auto. apply in_map; auto. }
  apply in_seq in H; lia.
Qed.

Lemma counted_sites sls N act sl s : layout sls N -> In sl sls -> In s (counted act sl) -> In s (sl_sites sl).
Proof. intros L Hin Hs. destruct act; simpl in *; auto. eapply lay_active; eauto. Qed.

Theorem dim_table sls N act :
  layout sls N ->
  exists t, get_dim_ids_table sls act = Some t /\ shape t N (n_cols sls) /\
    (forall k sl s p c, nth_error sls k = Some sl -> In s (counted act sl) ->
        nth_error (sl_encoding sl) p = Some c ->
        get_cell t s c = Some (Z.of_nat (n_dims_of (firstn k sls) + p))) /\
    (forall s c, s < N -> c < n_cols sls ->
        (forall sl, In sl sls -> ~ In s (counted act sl) \/ ~ In c (sl_encoding sl)) ->
        get_cell t s c = Some (-1)%Z).
Proof.
  intros L. unfold get_dim_ids_table.
  destruct (Nat.eqb_spec (length sls) 0) as [H0|H0].
  { exfalso. apply (lay_nonempty L). destruct sls; simpl in *; auto; lia. }
  assert (He : existsb (fun sl => length (sl_encoding sl) =? 0) sls = false).
  { apply not_true_is_false. intros H. apply existsb_exists in H.
    destruct H as (sl & Hin & E). apply Nat.eqb_eq in E.
    destruct (lay_codes L _ Hin) as [_ H]. apply H. destruct (sl_encoding sl); simpl in *; auto; lia. }
  rewrite He; simpl.
  assert (HN : list_sum (map (fun sl => length (sl_sites sl)) sls) = N).
  { rewrite list_sum_length, (Permutation_length (lay_sites L)). apply seq_length. }
  rewrite HN. fold (n_cols sls).
  destruct (@fill_sublattices_spec act sls (repeat (repeat (-1)%Z (n_cols sls)) N) N (n_cols sls) 0)
    as (t & E & Sh & G1 & G2).
  - apply shape_repeat.
  - intros sl s Hin Hs. eapply layout_site_lt; eauto. eapply counted_sites; eauto.
  - intros sl c Hin Hc. unfold n_cols.
    assert (c <= max_list (sl_encoding sl)) by (apply max_list_ge; auto).
    assert (max_list (sl_encoding sl) <= max_list (map (fun sl => max_list (sl_encoding sl)) sls)).
    { apply max_list_ge. apply in_map_iff; eauto. }
    lia.
  - intros sl Hin. apply (lay_codes L); auto.
  - eapply disjoint_sub; [apply (lay_active L)|]. apply NoDup_concat_disjoint.
    eapply Permutation_NoDup; [apply Permutation_sym, (lay_sites L)|]. apply seq_NoDup.
  - rewrite E; simpl. exists t. split; auto. split; auto. split.
    + intros. rewrite (G1 k sl s p c) by auto. reflexivity.
    + intros s c Hs Hc Hno. rewrite G2 by auto. rewrite get_cell_repeat.
      rewrite (proj2 (Nat.ltb_lt _ _) Hs), (proj2 (Nat.ltb_lt _ _) Hc). auto.
Qed.

(** ** Species lists and counts *)
Lemma positions_filter d dims : forall s,
  map fst (filter (fun p => Z.eqb (snd p) d) (combine (seq s (length dims)) dims)) =
  filter (fun i => match nth_error dims (i - s) with Some x => Z.eqb x d | None => false end)
         (seq s (length dims)).
Proof.
  induction dims as [|x dims IH]; intros s; simpl; auto.
  rewrite Nat.sub_diag. simpl.
  assert (E : filter (fun i => match nth_error (x :: dims) (i - s) with Some x0 => Z.eqb x0 d | None => false end)
           (seq (S s) (length dims)) =
         filter (fun i => match nth_error dims (i - S s) with Some x0 => Z.eqb x0 d | None => false end)
           (seq (S s) (length dims))).
  { apply filter_ext_in. intros i Hi. apply in_seq in Hi.
    replace (i - s) with (S (i - S s)) by lia. reflexivity. }
  destruct (Z.eqb x d); simpl; rewrite E, IH; auto.
Qed.

Lemma positions_eq d dims :
  positions d dims =
  filter (fun i => match nth_error dims i with Some x => Z.eqb x d | None => false end)
         (seq 0 (length dims)).
Proof.
  unfold positions. rewrite positions_filter. apply filter_ext. intros i.
  rewrite Nat.sub_0_r; auto.
Qed.

Lemma positions_count d dims : length (positions d dims) = countb (Z.eqb d) dims.
Proof.
  unfold positions, countb. rewrite map_length.
  generalize 0. induction dims as [|x dims IH]; intros s; simpl; auto.
  rewrite Z.eqb_sym. destruct (Z.eqb d x); simpl; rewrite IH; auto.
Qed.

Lemma species_list_counts occu n_dims t L n :
  occu_to_species_list occu n_dims t = Some L -> occu_to_counts occu n_dims t = Some n ->
  map (fun l => Z.of_nat (length l)) L = n.
Proof.
  unfold occu_to_species_list, occu_to_counts.
  destruct (occu_dims occu t) as [dims|]; simpl; [|discriminate].
  destruct (forallb _ dims); [|discriminate]. intros H1 H2.
  inversion H1; inversion H2; subst. rewrite map_map. apply map_ext.
  intros i. rewrite positions_count; auto.
Qed.

Lemma layout_covers sls N s : layout sls N -> s < N -> exists sl, In sl sls /\ In s (sl_sites sl).
Proof.
  intros L Hs. assert (H : In s (concat (map sl_sites sls))).
  { eapply Permutation_in; [apply Permutation_sym, (lay_sites L)|]. apply in_seq; lia. }
  apply in_concat in H. destruct H as (l & Hl & Hin). apply in_map_iff in Hl.
  destruct Hl as (sl & <- & Hsl). eauto.
Qed.

Lemma layout_unique sls N k k' sl sl' s : layout sls N ->
  nth_error sls k = Some sl -> nth_error sls k' = Some sl' ->
  In s (sl_sites sl) -> In s (sl_sites sl') -> k = k'.
Proof.
  intros L. assert (H : disjoint_sites sl_sites sls).
  { apply NoDup_concat_disjoint. eapply Permutation_NoDup;
      [apply Permutation_sym, (lay_sites L)|]. apply seq_NoDup. }
  clear L. revert k k'. induction sls as [|a sls IH]; intros [|k] [|k'] E E' Hs Hs'; simpl in *;
    try discriminate; auto.
  - exfalso. inversion E; subst. apply nth_error_In in E'. destruct H as [H _].
    eapply H; eauto.
  - exfalso. inversion E'; subst. apply nth_error_In in E. destruct H as [H _].
    eapply H; eauto.
  - f_equal. apply IH; auto. apply H.
Qed.

Lemma valid_dims sls N act t occu :
  layout sls N -> get_dim_ids_table sls act = Some t -> valid_occu sls N occu ->
  exists dims, occu_dims occu t = Some dims /\ length dims = N /\
    (forall k sl s p c, nth_error sls k = Some sl -> In s (counted act sl) ->
       nth_error occu s = Some c -> nth_error (sl_encoding sl) p = Some c ->
       nth_error dims s = Some (Z.of_nat (n_dims_of (firstn k sls) + p))) /\
    (forall s, s < N -> (forall sl, In sl sls -> ~ In s (counted act sl)) ->
       nth_error dims s = Some (-1)%Z).
Proof.
  intros L Et [Hlo Hv].
  destruct (@dim_table sls N act L) as (t' & E' & Sh & G1 & G2).
  assert (t' = t) by congruence; subst t'.
  assert (Hall : forall s, s < N -> exists c, nth_error occu s = Some c /\ c < n_cols sls).
  { intros s Hs. destruct (layout_covers L Hs) as (sl & Hin & Hsin).
    destruct (Hv _ _ Hin Hsin) as (c & Hc & Hcin). exists c; split; auto.
    unfold n_cols.
    assert (c <= max_list (sl_encoding sl)) by (apply max_list_ge; auto).
    assert (max_list (sl_encoding sl) <= max_list (map (fun sl => max_list (sl_encoding sl)) sls)).
    { apply max_list_ge. apply in_map_iff; eauto. } lia. }
  set (f := fun s => match nth_error occu s with
                     | Some c => match get_cell t s c with Some d => d | None => 0%Z end
                     | None => 0%Z end).
  exists (map f (seq 0 N)).
  assert (Hnth : forall s c d, s < N -> nth_error occu s = Some c -> get_cell t s c = Some d ->
            nth_error (map f (seq 0 N)) s = Some d).
  { intros s c d Hs Hc Hd. rewrite nth_error_map, nth_error_seq, (proj2 (Nat.ltb_lt _ _) Hs).
    simpl. unfold f. rewrite Hc, Hd; auto. }
  destruct Sh as [Hlt Hrows].
  split; [|split; [|split]].
  - apply occu_dims_spec. rewrite map_length, seq_length. repeat split; try lia.
    intros i Hi. destruct (Hall i) as (c & Hc & Hcm); [lia|]. exists c. split; auto.
    destruct (@shape_cell t N (n_cols sls) i c) as (v & Hv'); auto; [split; auto|lia|].
    rewrite Hv'. symmetry. eapply Hnth; eauto; lia.
  - rewrite map_length, seq_length; auto.
  - intros k sl s p c Hk Hin Hc Hp.
    assert (Hs : s < N).
    { eapply layout_site_lt; eauto; [eapply nth_error_In; eauto|].
      eapply counted_sites; eauto. eapply nth_error_In; eauto. }
    eapply Hnth; eauto.
  - intros s Hs Hno. destruct (Hall s Hs) as (c & Hc & Hcm).
    eapply Hnth; eauto.
Qed.

Lemma n_dims_firstn_lt sls k sl p :
  nth_error sls k = Some sl -> p < length (sl_encoding sl) ->
  n_dims_of (firstn k sls) + p < n_dims_of sls.
Proof.
  revert k; induction sls as [|a sls IH]; intros [|k] E Hp; simpl in E; try discriminate.
  - inversion E; subst. unfold n_dims_of; simpl. lia.
  - specialize (IH _ E Hp). unfold n_dims_of in *. simpl. lia.
Qed.

Lemma n_dims_firstn_inj sls k sl k' sl' p p' :
  nth_error sls k = Some sl -> p < length (sl_encoding sl) ->
  nth_error sls k' = Some sl' -> p' < length (sl_encoding sl') ->
  n_dims_of (firstn k sls) + p = n_dims_of (firstn k' sls) + p' -> k = k' /\ p = p'.
Proof.
  revert k k'; induction sls as [|a sls IH]; intros [|k] [|k'] E Hp E' Hp' H; simpl in E, E';
    try discriminate.
  - unfold n_dims_of in H; simpl in H. auto.
  - exfalso. inversion E; subst. unfold n_dims_of in H; simpl in H. lia.
  - exfalso. inversion E'; subst. unfold n_dims_of in H; simpl in H. lia.
  - destruct (IH k k') as [-> ->]; auto. unfold n_dims_of in *; simpl in H. lia.
Qed.

(** The dimension ids of [get_dim_ids_by_sublattice] are those of the table. *)
Lemma dim_ids_from_nth lens : forall d k p ids,
  nth_error (dim_ids_from d lens) k = Some ids -> p < length ids ->
  nth_error ids p = Some (d + list_sum (firstn k lens) + p).
Proof.
  induction lens as [|l lens IH]; intros d [|k] p ids H Hp; simpl in *; try discriminate.
  - inversion H; subst. rewrite seq_length in Hp. rewrite nth_error_seq.
    rewrite (proj2 (Nat.ltb_lt _ _) Hp). f_equal; lia.
  - rewrite (IH _ _ _ _ H Hp). f_equal; lia.
Qed.

Lemma dim_ids_from_len lens : forall d k ids,
  nth_error (dim_ids_from d lens) k = Some ids -> nth_error lens k = Some (length ids).
Proof.
  induction lens as [|l lens IH]; intros d [|k] ids H; simpl in *; try discriminate; eauto.
  inversion H; subst. rewrite seq_length; auto.
Qed.

Lemma map_firstn_comm {A B} (f : A -> B) k l : map f (firstn k l) = firstn k (map f l).
Proof. revert k; induction l as [|x l IH]; intros [|k]; simpl; auto. rewrite IH; auto. Qed.

(** Where the species list of dimension (k, p) is. *)
Lemma species_list_spec sls N act t occu L k sl p code :
  layout sls N -> get_dim_ids_table sls act = Some t -> valid_occu sls N occu ->
  occu_to_species_list occu (n_dims_of sls) t = Some L ->
  nth_error sls k = Some sl -> nth_error (sl_encoding sl) p = Some code ->
  nth_error L (n_dims_of (firstn k sls) + p) =
    Some (filter (fun s => memb s (counted act sl) &&
            match nth_error occu s with Some c => c =? code | None => false end) (seq 0 N)).
Proof.
  intros Lay Et Hv HL Hk Hp.
  destruct (valid_dims act Lay Et Hv) as (dims & Ed & Hlen & G1 & G2).
  unfold occu_to_species_list in HL. rewrite Ed in HL; simpl in HL. inversion HL; subst L.
  rewrite nth_error_map, nth_error_seq.
  rewrite (proj2 (Nat.ltb_lt _ _)) by (eapply n_dims_firstn_lt; eauto; eapply nth_error_Some_lt; eauto).
  simpl. f_equal. rewrite positions_eq, Hlen. apply filter_ext_in. intros s Hs.
  apply in_seq in Hs. destruct Hv as [Hlo Hv].
  destruct (layout_covers Lay (s := s)) as (sl' & Hin' & Hs'); [lia|].
  apply In_nth_error in Hin' as Hk'. destruct Hk' as [k' Hk'].
  destruct (Hv _ _ Hin' Hs') as (c & Hc & Hcin). rewrite Hc.
  apply In_nth_error in Hcin. destruct Hcin as [p' Hp'].
  destruct (memb_reflect s (counted act sl')) as [Hm|Hm].
  - rewrite (G1 _ _ _ _ _ Hk' Hm Hc Hp').
    destruct (memb_reflect s (counted act sl)) as [Hm2|Hm2]; simpl.
    + assert (k = k').
      { eapply layout_unique; eauto; eapply counted_sites; eauto; eapply nth_error_In; eauto. }
      subst k'. assert (sl' = sl) by congruence; subst sl'.
      destruct (Nat.eqb_spec c code) as [->|Hne].
      * assert (p = p').
        { eapply NoDup_nth_error; [apply (lay_codes Lay sl); auto| |congruence].
          eapply nth_error_Some_lt; eauto. }
        subst. apply Z.eqb_refl.
      * apply Z.eqb_neq. intros H. apply Nat2Z.inj in H.
        assert (p = p') by lia. subst p'. congruence.
    + apply Z.eqb_neq. intros H. apply Nat2Z.inj in H.
      destruct (@n_dims_firstn_inj sls k' sl' k sl p' p) as [-> ->]; auto;
        try (eapply nth_error_Some_lt; eauto; fail).
      assert (sl' = sl) by congruence; subst. auto.
  - destruct (memb_reflect s (counted act sl)) as [Hm2|Hm2]; simpl.
    + exfalso. assert (k = k').
      { eapply layout_unique; eauto. eapply counted_sites; eauto. eapply nth_error_In; eauto. }
      subst k'. assert (sl' = sl) by congruence; subst. auto.
    + rewrite G2; [|lia|].
      * apply Z.eqb_neq. lia.
      * intros sl2 Hin2 Hc2. apply In_nth_error in Hin2 as Hk2. destruct Hk2 as [k2 Hk2].
        assert (k2 = k').
        { eapply layout_unique; eauto. eapply counted_sites; eauto. }
        subst. assert (sl2 = sl') by congruence; subst. auto.
Qed.

Lemma counts_defined sls N act t occu :
  layout sls N -> get_dim_ids_table sls act = Some t -> valid_occu sls N occu ->
  (exists L, occu_to_species_list occu (n_dims_of sls) t = Some L) /\
  exists n, occu_to_counts occu (n_dims_of sls) t = Some n.
Proof.
  intros Lay Et Hv. destruct (valid_dims act Lay Et Hv) as (dims & Ed & Hlen & G1 & G2).
  unfold occu_to_species_list, occu_to_counts. rewrite Ed; simpl. split; eauto.
  assert (E : forallb (fun d => (d <? Z.of_nat (n_dims_of sls))%Z) dims = true).
  { apply forallb_forall. intros d Hd. apply In_nth_error in Hd. destruct Hd as [s Hs].
    assert (Hlt : s < N) by (apply nth_error_Some_lt in Hs; lia).
    destruct (layout_covers Lay Hlt) as (sl & Hin & Hsin).
    apply In_nth_error in Hin as Hk. destruct Hk as [k Hk].
    destruct Hv as [_ Hv]. destruct (Hv _ _ Hin Hsin) as (c & Hc & Hcin).
    apply In_nth_error in Hcin. destruct Hcin as [p Hp].
    apply Z.ltb_lt.
    destruct (memb_reflect s (counted act sl)) as [Hm|Hm].
    - rewrite (G1 _ _ _ _ _ Hk Hm Hc Hp) in Hs. inversion Hs.
      apply Nat2Z.inj_lt. eapply n_dims_firstn_lt; eauto. eapply nth_error_Some_lt; eauto.
    - rewrite G2 in Hs; [inversion Hs; lia|auto|].
      intros sl2 Hin2 Hc2. apply In_nth_error in Hin2 as Hk2. destruct Hk2 as [k2 Hk2].
      assert (k2 = k) by (eapply layout_unique; eauto; eapply counted_sites; eauto).
      subst. assert (sl2 = sl) by congruence; subst. auto. }
  rewrite E; eauto.
Qed.

(** Sum over the codes of a sublattice of the number of sites carrying the code. *)
Lemma sum_count_codes (g : nat -> option nat) codes sites :
  NoDup codes -> (forall s, In s sites -> exists c, g s = Some c /\ In c codes) ->
  list_sum (map (fun c => countb (fun s => match g s with Some c' => c' =? c | None => false end) sites) codes)
  = length sites.
Proof.
  intros Hnd. induction sites as [|s sites IH]; intros Hs; simpl.
  - clear Hnd Hs. induction codes; simpl; auto.
  - transitivity (list_sum (map (fun c => (match g s with Some c' => if c' =? c then 1 else 0 | None => 0 end)) codes)
       + list_sum (map (fun c => countb (fun s => match g s with Some c' => c' =? c | None => false end) sites) codes)).
    { clear. induction codes as [|c codes IHc]; simpl; auto. rewrite countb_cons.
      destruct (g s) as [c'|]; [destruct (c' =? c)|]; lia. }
    rewrite IH by (intros; apply Hs; right; auto).
    destruct (Hs s (or_introl eq_refl)) as (c0 & -> & Hin).
    assert (E : list_sum (map (fun c => if c0 =? c then 1 else 0) codes) = 1); [|lia].
    clear - Hnd Hin. induction codes as [|c codes IH]; simpl in *; [tauto|].
    inversion Hnd; subst. destruct (Nat.eqb_spec c0 c) as [->|Hne].
    + assert (Z0 : list_sum (map (fun c1 => if c =? c1 then 1 else 0) codes) = 0); [|lia].
      clear - H1. induction codes as [|x codes IH]; simpl in *; auto.
      destruct (Nat.eqb_spec c x); [subst; tauto|]. apply IH; tauto.
    + destruct Hin as [->|Hin]; [lia|]. rewrite IH; auto.
Qed.

Lemma filter_and {A} (f g : A -> bool) l : filter (fun x => f x && g x) l = filter g (filter f l).
Proof.
  induction l as [|x l IH]; simpl; auto. destruct (f x); simpl; auto.
  destruct (g x); simpl; rewrite IH; auto.
Qed.

Lemma filter_memb_seq N l : NoDup l -> (forall s, In s l -> s < N) ->
  Permutation (filter (fun s => memb s l) (seq 0 N)) l.
Proof.
  intros Hnd Hlt. apply NoDup_Permutation; auto.
  - apply NoDup_filter, seq_NoDup.
  - intros x. rewrite filter_In, memb_In, in_seq. split; [tauto|]. intros H; split; auto.
    specialize (Hlt _ H); lia.
Qed.

Lemma counts_sum sls N act t occu n k sl :
  layout sls N -> get_dim_ids_table sls act = Some t -> valid_occu sls N occu ->
  occu_to_counts occu (n_dims_of sls) t = Some n ->
  nth_error sls k = Some sl ->
  zsum (firstn (length (sl_encoding sl)) (skipn (n_dims_of (firstn k sls)) n)) =
  Z.of_nat (length (counted act sl)).
Proof.
  intros Lay Et Hv Hn Hk.
  destruct (counts_defined act Lay Et Hv) as [[L HL] _].
  pose proof (species_list_counts _ _ _ HL Hn) as Hmap.
  assert (Hin : In sl sls) by (eapply nth_error_In; eauto).
  assert (Hseg : firstn (length (sl_encoding sl)) (skipn (n_dims_of (firstn k sls)) n) =
    map (fun c => Z.of_nat (countb (fun s => match nth_error occu s with Some c' => c' =? c | None => false end)
         (filter (fun s => memb s (counted act sl)) (seq 0 N)))) (sl_encoding sl)).
  { assert (Hlen : length n = n_dims_of sls).
    { rewrite <- Hmap, map_length. unfold occu_to_species_list in HL.
      destruct (occu_dims occu t); simpl in HL; [|discriminate]. inversion HL.
      rewrite map_length, seq_length; auto. }
    apply list_ext_lt.
    - rewrite firstn_length, skipn_length, map_length.
      destruct (length (sl_encoding sl)) as [|q] eqn:Eq; auto.
      pose proof (@n_dims_firstn_lt sls k sl q Hk). lia.
    - intros i Hi. rewrite firstn_length in Hi.
      assert (Hi' : i < length (sl_encoding sl)) by lia.
      destruct (nth_error_lt _ Hi') as [c Hc].
      rewrite nth_error_map, Hc. simpl.
      assert (Hf : forall (A : Type) (l : list A) m j, j < m -> nth_error (firstn m l) j = nth_error l j).
      { clear. intros A l m j. revert m l; induction j as [|j IH]; intros [|m] [|x l] H; simpl; auto; try lia.
        apply IH; lia. }
      rewrite Hf by auto.
      assert (Hs : forall (A : Type) (l : list A) m j, nth_error (skipn m l) j = nth_error l (m + j)).
      { clear. intros A l m j. revert l; induction m as [|m IH]; intros [|x l]; simpl; auto.
        destruct j; auto. }
      rewrite Hs, <- Hmap, nth_error_map.
      rewrite (@species_list_spec sls N act t occu L k sl i c) by auto.
      simpl. rewrite filter_and. reflexivity. }
  rewrite Hseg.
  rewrite <- (@sum_count_codes (nth_error occu) (sl_encoding sl) (counted act sl)).
  - assert (Z2 : forall (f : nat -> nat) l, zsum (map (fun c => Z.of_nat (f c)) l) = Z.of_nat (list_sum (map f l))).
    { intros f l. induction l as [|x l IH]; simpl; auto. rewrite IH. lia. }
    rewrite Z2. do 2 f_equal. apply map_ext. intros c.
    apply countb_perm. apply filter_memb_seq.
    + destruct act; simpl; [apply (lay_active_nodup Lay); auto|].
      assert (Hc : NoDup (concat (map sl_sites sls))).
      { eapply Permutation_NoDup; [apply Permutation_sym, (lay_sites Lay)|]. apply seq_NoDup. }
      clear - Hc Hin. induction sls as [|a l IH]; simpl in *; [tauto|].
      destruct Hin as [->|Hin].
      * eapply NoDup_app_remove_r; eauto.
      * apply IH; auto. eapply NoDup_app_remove_l; eauto.
    + intros s Hs. eapply layout_site_lt; eauto. eapply counted_sites; eauto.
  - apply (lay_codes Lay); auto.
  - intros s Hs. destruct Hv as [_ Hv]. eapply Hv; eauto. eapply counted_sites; eauto.
Qed.

(** ** Statements used in OccuUtilsProps *)
Lemma upd_valid sls N occu sl site code :
  layout sls N -> valid_occu sls N occu -> In sl sls -> In site (sl_sites sl) ->
  In code (sl_encoding sl) -> valid_occu sls N (upd occu site code).
Proof.
  intros Lay [Hl Hv] Hin Hs Hc. split; [rewrite length_upd; auto|].
  intros sl' s Hin' Hs'. rewrite nth_error_upd.
  destruct (Nat.eqb_spec site s) as [->|Hne]; [|apply Hv; auto].
  assert (Hlt : s < length occu) by (rewrite Hl; eapply layout_site_lt; eauto).
  rewrite (proj2 (Nat.ltb_lt _ _) Hlt). exists code; split; auto.
  apply In_nth_error in Hin. apply In_nth_error in Hin'.
  destruct Hin as [k Hk], Hin' as [k' Hk'].
  assert (k = k') by (eapply layout_unique; eauto). subst. congruence.
Qed.

Lemma add_at_def v d x : d < length v -> exists v', add_at v d x = Some v' /\ length v' = length v.
Proof.
  intros H. unfold add_at. destruct (nth_error_lt v H) as [y ->]. simpl.
  eexists; split; [reflexivity|apply length_upd].
Qed.

Lemma delta_defined sls N act t occu s :
  layout sls N -> get_dim_ids_table sls act = Some t -> valid_occu sls N occu ->
  (forall site code, In (site, code) s ->
     exists sl, In sl sls /\ In site (counted act sl) /\ In code (sl_encoding sl)) ->
  exists dn, delta_counts_from_step occu s (n_dims_of sls) t = Some dn.
Proof.
  intros Lay Et Hv Hs. unfold delta_counts_from_step.
  assert (Hlen : length (repeat 0%Z (n_dims_of sls)) = n_dims_of sls) by apply repeat_length.
  revert Hlen. generalize (repeat 0%Z (n_dims_of sls)) as v.
  destruct (@dim_table sls N act Lay) as (t' & E' & Sh & G1 & G2).
  assert (t' = t) by congruence; subst t'.
  revert occu Hv. induction s as [|[site code] s IH]; intros occu Hv v Hlen; simpl; eauto.
  destruct (Hs site code) as (sl & Hin & Hsite & Hcode); [left; auto|].
  assert (Hsite' : In site (sl_sites sl)) by (eapply counted_sites; eauto).
  destruct (proj2 Hv _ _ Hin Hsite') as (c0 & Hc0 & Hc0in). rewrite Hc0; simpl.
  apply In_nth_error in Hin as Hk. destruct Hk as [k Hk].
  apply In_nth_error in Hcode as Hp. destruct Hp as [p Hp].
  apply In_nth_error in Hc0in as Hp0. destruct Hp0 as [p0 Hp0].
  rewrite (G1 _ _ _ _ _ Hk Hsite Hp0), (G1 _ _ _ _ _ Hk Hsite Hp). simpl.
  assert (Hneg : forall a : nat, (Z.of_nat a <? 0)%Z = false) by (intros; apply Z.ltb_ge; lia).
  rewrite !Hneg, !Nat2Z.id. simpl.
  assert (D0 : n_dims_of (firstn k sls) + p0 < n_dims_of sls)
    by (eapply n_dims_firstn_lt; eauto; eapply nth_error_Some_lt; eauto).
  assert (D1 : n_dims_of (firstn k sls) + p < n_dims_of sls)
    by (eapply n_dims_firstn_lt; eauto; eapply nth_error_Some_lt; eauto).
  rewrite <- Hlen in D0, D1. destruct (@add_at_def v _ (-1)%Z D0) as (v1 & E1 & L1).
  rewrite E1; simpl.
  rewrite <- L1 in D1. destruct (@add_at_def v1 _ 1%Z D1) as (v2 & E2 & L2).
  rewrite E2; simpl. apply IH.
  - intros; apply Hs; right; auto.
  - eapply upd_valid; eauto.
  - lia.
Qed.

Lemma species_lists sls N act occu :
  layout sls N -> valid_occu sls N occu ->
  exists t L n,
    get_dim_ids_table sls act = Some t /\
    occu_to_species_list occu (n_dims_of sls) t = Some L /\
    occu_to_counts occu (n_dims_of sls) t = Some n /\
    length L = n_dims_of sls /\
    map (fun l => Z.of_nat (length l)) L = n /\
    (forall k sl p code,
       nth_error sls k = Some sl -> nth_error (sl_encoding sl) p = Some code ->
       nth_error L (dim_offset sls k + p) =
         Some (sites_carrying N (counted act sl) occu code)) /\
    (forall k sl, nth_error sls k = Some sl ->
       zsum (firstn (length (sl_encoding sl)) (skipn (dim_offset sls k) n)) =
       Z.of_nat (length (counted act sl))).
Proof.
  intros Lay Hv. destruct (@dim_table sls N act Lay) as (t & Et & _).
  destruct (counts_defined act Lay Et Hv) as [[L HL] [n Hn]].
  exists t, L, n. repeat split; auto.
  - unfold occu_to_species_list in HL. destruct (occu_dims occu t); simpl in HL; [|discriminate].
    inversion HL. rewrite map_length, seq_length; auto.
  - eapply species_list_counts; eauto.
  - intros. unfold dim_offset. eapply species_list_spec; eauto.
  - intros. unfold dim_offset. eapply counts_sum; eauto.
Qed.

Lemma dims_cover sls : forall d, d < n_dims_of sls -> exists k sl p,
  nth_error sls k = Some sl /\ p < length (sl_encoding sl) /\ d = n_dims_of (firstn k sls) + p.
Proof.
  induction sls as [|sl sls IH]; intros d Hd; unfold n_dims_of in *; simpl in *; [lia|].
  destruct (Nat.lt_ge_cases d (length (sl_encoding sl))) as [H|H].
  - exists 0, sl, d. simpl. auto.
  - destruct (IH (d - length (sl_encoding sl))) as (k & sl' & p & Hk & Hp & E); [lia|].
    exists (S k), sl', p. simpl. repeat split; auto. lia.
Qed.

Lemma dimensions sls :
  (forall k sl p, nth_error sls k = Some sl -> p < length (sl_encoding sl) ->
     dim_offset sls k + p < n_dims_of sls /\
     exists ids, nth_error (get_dim_ids_by_sublattice (map (fun sl => length (sl_encoding sl)) sls)) k
                   = Some ids /\ nth_error ids p = Some (dim_offset sls k + p)) /\
  (forall k sl p k' sl' p',
     nth_error sls k = Some sl -> p < length (sl_encoding sl) ->
     nth_error sls k' = Some sl' -> p' < length (sl_encoding sl') ->
     dim_offset sls k + p = dim_offset sls k' + p' -> k = k' /\ p = p') /\
  (forall d, d < n_dims_of sls -> exists k sl p,
     nth_error sls k = Some sl /\ p < length (sl_encoding sl) /\ d = dim_offset sls k + p).
Proof.
  unfold dim_offset. split; [|split].
  - intros k sl p Hk Hp. split; [eapply n_dims_firstn_lt; eauto|].
    unfold get_dim_ids_by_sublattice.
    assert (Hlen : forall d lens, length (dim_ids_from d lens) = length lens).
    { intros d lens; revert d; induction lens; simpl; auto. }
    assert (Hk' : k < length (dim_ids_from 0 (map (fun sl => length (sl_encoding sl)) sls))).
    { rewrite Hlen, map_length. eapply nth_error_Some_lt; eauto. }
    destruct (nth_error_lt _ Hk') as [ids Hids]. exists ids. split; auto.
    assert (Hl : length ids = length (sl_encoding sl)).
    { apply dim_ids_from_len in Hids. rewrite nth_error_map, Hk in Hids. simpl in Hids. congruence. }
    rewrite (@dim_ids_from_nth _ _ _ p _ Hids) by lia.
    rewrite <- map_firstn_comm. reflexivity.
  - intros. eapply n_dims_firstn_inj; eauto.
  - apply dims_cover.
Qed.

Lemma filter_seq_sorted f : forall n s, StronglySorted lt (filter f (seq s n)).
Proof.
  induction n as [|n IH]; intros s; simpl; [constructor|].
  destruct (f s); auto. constructor; auto. apply Forall_forall. intros x Hx.
  apply filter_In in Hx. destruct Hx as [Hx _]. apply in_seq in Hx. lia.
Qed.

Lemma dim_of_site sls N k sl p code act occu t L s :
  layout sls N -> get_dim_ids_table sls act = Some t -> valid_occu sls N occu ->
  occu_to_species_list occu (n_dims_of sls) t = Some L ->
  nth_error sls k = Some sl -> nth_error (sl_encoding sl) p = Some code ->
  In s (counted act sl) -> nth_error occu s = Some code ->
  exists l, In l L /\ In s l.
Proof.
  intros Lay Et Hv HL Hk Hp Hs Hc.
  pose proof (@species_list_spec sls N act t occu L k sl p code Lay Et Hv HL Hk Hp) as E.
  apply nth_error_In in E. eexists; split; [exact E|].
  apply filter_In. split.
  - apply in_seq. split; [lia|]. simpl. eapply layout_site_lt; eauto; [eapply nth_error_In; eauto|].
    eapply counted_sites; eauto. eapply nth_error_In; eauto.
  - rewrite Hc, Nat.eqb_refl, (proj2 (memb_In _ _) Hs). auto.
Qed.

Lemma NoDup_concat_intro {A} (L : list (list A)) :
  (forall l, In l L -> NoDup l) ->
  (forall i j l l' x, nth_error L i = Some l -> nth_error L j = Some l' ->
     In x l -> In x l' -> i = j) -> NoDup (concat L).
Proof.
  induction L as [|l L IH]; simpl; intros H1 H2; [constructor|].
  apply NoDup_app_intro.
  - apply H1; auto.
  - apply IH; auto. intros i j a b x Ha Hb Hx Hy.
    specialize (H2 (S i) (S j) a b x Ha Hb Hx Hy). lia.
  - intros x Hx Hin. apply in_concat in Hin. destruct Hin as (l' & Hl' & Hx').
    apply In_nth_error in Hl'. destruct Hl' as [j Hj].
    specialize (H2 0 (S j) l l' x eq_refl Hj Hx Hx'). lia.
Qed.

Lemma NoDup_concat_counted sls N act : layout sls N -> NoDup (concat (map (counted act) sls)).
Proof.
  intros Lay. apply NoDup_concat_intro.
  - intros l Hl. apply in_map_iff in Hl. destruct Hl as (sl & <- & Hin).
    destruct act; simpl; [apply (lay_active_nodup Lay); auto|].
    assert (Hc : NoDup (concat (map sl_sites sls))).
    { eapply Permutation_NoDup; [apply Permutation_sym, (lay_sites Lay)|]. apply seq_NoDup. }
    clear - Hc Hin. induction sls as [|a l IH]; simpl in *; [tauto|].
    destruct Hin as [->|Hin].
    + eapply NoDup_app_remove_r; eauto.
    + apply IH; auto. eapply NoDup_app_remove_l; eauto.
  - intros i j l l' x Hi Hj Hx Hy. rewrite nth_error_map in Hi, Hj.
    destruct (nth_error sls i) as [a|] eqn:Ea; simpl in Hi; [|discriminate].
    destruct (nth_error sls j) as [b|] eqn:Eb; simpl in Hj; [|discriminate].
    inversion Hi; inversion Hj; subst.
    eapply layout_unique; eauto; eapply counted_sites; eauto; eapply nth_error_In; eauto.
Qed.

Lemma positions_In d dims s : In s (positions d dims) <-> nth_error dims s = Some d.
Proof.
  rewrite positions_eq, filter_In, in_seq. split.
  - intros [_ H]. destruct (nth_error dims s) as [x|]; [|discriminate].
    apply Z.eqb_eq in H; congruence.
  - intros H. pose proof (nth_error_Some_lt _ _ H). rewrite H, Z.eqb_refl. split; auto; lia.
Qed.

Lemma species_partition sls N act occu t L :
  layout sls N -> valid_occu sls N occu ->
  get_dim_ids_table sls act = Some t ->
  occu_to_species_list occu (n_dims_of sls) t = Some L ->
  Permutation (concat L) (concat (map (counted act) sls)) /\
  Forall (fun l => StronglySorted lt l) L.
Proof.
  intros Lay Hv Et HL.
  destruct (valid_dims act Lay Et Hv) as (dims & Ed & Hlen & G1 & G2).
  pose proof HL as HL0. unfold occu_to_species_list in HL0. rewrite Ed in HL0; simpl in HL0.
  injection HL0 as HLe. symmetry in HLe.
  split.
  - apply NoDup_Permutation.
    + apply NoDup_concat_intro.
      * intros l Hl. rewrite HLe in Hl. apply in_map_iff in Hl. destruct Hl as (d & <- & _).
        rewrite positions_eq. apply NoDup_filter, seq_NoDup.
      * intros i j l l' x Hi Hj Hx Hy. rewrite HLe in Hi, Hj. rewrite nth_error_map in Hi, Hj.
        destruct (nth_error (seq 0 (n_dims_of sls)) i) as [a|] eqn:Ea; simpl in Hi; [|discriminate].
        destruct (nth_error (seq 0 (n_dims_of sls)) j) as [b|] eqn:Eb; simpl in Hj; [|discriminate].
        inversion Hi; inversion Hj; subst l l'. apply positions_In in Hx, Hy.
        rewrite nth_error_seq in Ea, Eb.
        destruct (i <? n_dims_of sls); [|discriminate]. destruct (j <? n_dims_of sls); [|discriminate].
        inversion Ea; inversion Eb. rewrite Hx in Hy. inversion Hy. lia.
    + eapply NoDup_concat_counted; eauto.
    + intros s. split; intros Hs.
      * apply in_concat in Hs. destruct Hs as (l & Hl & Hin). rewrite HLe in Hl.
        apply in_map_iff in Hl. destruct Hl as (d & <- & _). apply positions_In in Hin.
        assert (Hlt : s < N) by (apply nth_error_Some_lt in Hin; lia).
        destruct (layout_covers Lay Hlt) as (sl & Hsl & Hsin).
        destruct (memb_reflect s (counted act sl)) as [Hm|Hm].
        -- apply in_concat. exists (counted act sl). split; auto. apply in_map; auto.
        -- exfalso. rewrite G2 in Hin; [inversion Hin; lia|auto|].
           intros sl2 Hin2 Hc2. apply In_nth_error in Hsl, Hin2 as Hk2.
           destruct Hsl as [k Hk], Hk2 as [k2 Hk2].
           assert (k2 = k) by (eapply layout_unique; eauto; eapply counted_sites; eauto).
           subst. assert (sl2 = sl) by congruence; subst. auto.
      * apply in_concat in Hs. destruct Hs as (l & Hl & Hin).
        apply in_map_iff in Hl. destruct Hl as (sl & <- & Hsl).
        assert (Hss : In s (sl_sites sl)) by (eapply counted_sites; eauto).
        destruct (proj2 Hv _ _ Hsl Hss) as (c & Hc & Hcin).
        apply In_nth_error in Hsl. destruct Hsl as [k Hk].
        apply In_nth_error in Hcin. destruct Hcin as [p Hp].
        edestruct (@dim_of_site sls N k sl p c act occu t L s) as (l & Hl & Hsl'); eauto.
        apply in_concat; eauto.
  - apply Forall_forall. intros l Hl. rewrite HLe in Hl. apply in_map_iff in Hl.
    destruct Hl as (d & <- & _). rewrite positions_eq. apply filter_seq_sorted.
Qed.
