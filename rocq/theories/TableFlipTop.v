(** Proposal of a table flip as a whole. *)
From Verif Require Export TableFlipAll.
Set Implicit Arguments.
Unset Strict Implicit.
Open Scope nat_scope.

(** A flip proposer as the constructor builds it (mcusher.py:489-542) over a layout, with
    a flip table of nonzero directions without repetition that conserve sites and
    the constraints, and positive weights. *)
Record tf_ok (N : nat) (tf : tableflip) : Prop := {
  tk_layout : layout (tf_sls tf) N;
  tk_coded : coded (tf_sls tf);
  tk_swapper : usher_ok (tf_sls tf) (tf_swapper tf);
  tk_table : tf_table tf <> [];
  tk_rows : forall u, In u (tf_table tf) -> conserves_sites (tf_sls tf) u;
  tk_distinct : NoDup (flip_directions (tf_table tf));
  tk_len : length (tf_weights tf) = 2 * length (tf_table tf);
  tk_pos : forall w, In w (tf_weights tf) -> (0 < w)%Qc;
  tk_kernel : forall u a, In u (tf_table tf) -> In a (tf_A tf) ->
                length a = n_dims_of (tf_sls tf) /\ dot a u = 0%Z
}.

(** ** Vector facts *)
Lemma vopp_invol u : vopp (vopp u) = u.
Proof. unfold vopp. rewrite map_map. rewrite <- (map_id u) at 2. apply map_ext. intros; lia. Qed.
Lemma length_vopp u : length (vopp u) = length u.
Proof. apply map_length. Qed.
Lemma nth_vopp u i : nth i (vopp u) 0%Z = (- nth i u 0)%Z.
Proof. unfold vopp. change 0%Z with (- 0)%Z at 1. apply map_nth. Qed.
Lemma zsum_vopp u : zsum (vopp u) = (- zsum u)%Z.
Proof. unfold vopp. induction u as [|x u IH]; simpl; auto. rewrite IH. lia. Qed.
Lemma dot_vopp a u : dot a (vopp u) = (- dot a u)%Z.
Proof. unfold vopp. revert u. induction a as [|x a IH]; intros [|y u]; simpl; auto. rewrite IH. lia. Qed.
Lemma dot_vadd a u v : length u = length v -> dot a (vadd u v) = (dot a u + dot a v)%Z.
Proof.
  revert u v. induction a as [|x a IH]; intros [|y u] [|z v] H; simpl in *; try lia.
  rewrite IH by lia. lia.
Qed.
Lemma vadd_opp n u : length n = length u -> vadd (vadd n u) (vopp u) = n.
Proof.
  unfold vopp. revert u. induction n as [|x n IH]; intros [|y u] H; simpl in *; try lia; auto.
  rewrite IH by lia. f_equal. lia.
Qed.
Lemma vadd_comm u v : vadd u v = vadd v u.
Proof. revert v. induction u as [|x u IH]; intros [|y v]; simpl; auto. rewrite IH. f_equal. lia. Qed.
Lemma part_vopp sls k sl u : part_of sls k sl (vopp u) = vopp (part_of sls k sl u).
Proof. unfold part_of, vopp. rewrite skipn_map, firstn_map. auto. Qed.
Lemma us_at_vopp u dims : us_at (vopp u) dims = vopp (us_at u dims).
Proof. unfold us_at, vopp. rewrite map_map. apply map_ext. intros d. apply nth_vopp. Qed.

Lemma us_at_seq u d k : d + k <= length u -> us_at u (seq d k) = firstn k (skipn d u).
Proof.
  revert u. induction d as [|d IH]; intros u H.
  - simpl. unfold us_at. revert u H. induction k as [|k IHk]; intros u H; simpl; auto.
    destruct u as [|x u]; simpl in *; [lia|]. f_equal. rewrite <- seq_shift, map_map. apply IHk. lia.
  - destruct u as [|x u]; simpl in *; [lia|]. rewrite <- IH by lia. unfold us_at.
    rewrite <- seq_shift, map_map. auto.
Qed.

Lemma conserves_vopp sls u : conserves_sites sls u -> conserves_sites sls (vopp u).
Proof.
  intros [H1 H2]. split; [rewrite length_vopp; auto|]. intros k sl Hk.
  rewrite part_vopp, zsum_vopp, (H2 k sl Hk). auto.
Qed.

(** ** Directions *)
Lemma directions_In table u : In u (flip_directions table) <-> exists v, In v table /\ (u = v \/ u = vopp v).
Proof.
  unfold flip_directions. rewrite in_flat_map. split; intros (v & Hv & H); exists v; split; auto;
  simpl in *; intuition congruence.
Qed.

Lemma directions_nth table i : nth_error (flip_directions table) i =
  match nth_error table (i / 2) with
  | Some v => Some (if i mod 2 =? 1 then vopp v else v) | None => None end.
Proof.
  revert i. induction table as [|v table IH]; intros i.
  - simpl. rewrite !(proj2 (nth_error_None _ _)) by (simpl; lia). auto.
  - destruct i as [|[|i]]; auto. simpl nth_error at 1.
    change (v :: vopp v :: flip_directions table) with (flip_directions (v :: table)).
    replace (S (S i) / 2) with (S (i / 2)).
    2: { replace (S (S i)) with (i + 1 * 2) by lia. rewrite Nat.div_add by lia. lia. }
    replace (S (S i) mod 2) with (i mod 2).
    2: { replace (S (S i)) with (i + 1 * 2) by lia. rewrite Nat.mod_add by lia. auto. }
    simpl. apply IH.
Qed.

Lemma directions_length table : length (flip_directions table) = 2 * length table.
Proof. induction table as [|v t IH]; auto. simpl in *. rewrite IH. lia. Qed.

(** Index of the opposite direction. *)
Definition opposite (i : nat) : nat := if i mod 2 =? 1 then i - 1 else i + 1.
Lemma opposite_nth table i u : nth_error (flip_directions table) i = Some u ->
  nth_error (flip_directions table) (opposite i) = Some (vopp u).
Proof.
  rewrite !directions_nth. unfold opposite. pose proof (Nat.div_mod i 2) as E.
  pose proof (Nat.mod_upper_bound i 2) as B.
  destruct (Nat.eqb_spec (i mod 2) 1) as [Hm|Hm].
  - assert (Ei : i = i / 2 * 2 + 1) by lia.
    assert (E1 : (i - 1) / 2 = i / 2) by (rewrite Ei at 1; rewrite Nat.add_sub, Nat.div_mul; lia).
    assert (E2 : (i - 1) mod 2 = 0) by (rewrite Ei at 1; rewrite Nat.add_sub, Nat.mod_mul; lia).
    rewrite E1, E2. destruct (nth_error table (i / 2)); [|discriminate]. simpl.
    intros H; injection H as <-. rewrite vopp_invol. auto.
  - assert (Ei : i = i / 2 * 2) by lia.
    assert (E1 : (i + 1) / 2 = i / 2).
    { rewrite Ei at 1. rewrite Nat.div_add_l by lia. simpl. lia. }
    assert (E2 : (i + 1) mod 2 = 1).
    { rewrite Ei at 1. rewrite Nat.add_comm, Nat.mod_add by lia. auto. }
    rewrite E1, E2. destruct (nth_error table (i / 2)); [|discriminate]. simpl.
    intros H; injection H as <-. auto.
Qed.

(** ** Feasibility (C44) *)
Lemma feasible_within n max_n u : length u = length n -> length max_n = length n ->
  feasible_dir n max_n u = true <-> within n max_n u.
Proof.
  intros Hu Hm. unfold feasible_dir, within. rewrite negb_true_iff, orb_false_iff.
  rewrite <- !not_true_iff_false, !existsb_exists.
  assert (Hl : length (vadd u n) = length n) by (rewrite length_vadd; lia).
  split.
  - intros [H1 H2]. split; auto. intros d x m Hx Hmx.
    assert (Hc : In (x, m) (combine (vadd u n) max_n)).
    { clear - Hx Hmx. revert d max_n Hx Hmx. induction (vadd u n) as [|a l IH]; intros [|d] [|b m'] Hx Hmx;
        simpl in *; try discriminate.
      - left; congruence.
      - right; eapply IH; eauto. }
    split.
    + destruct (Z.ltb_spec x 0) as [L|L]; auto. exfalso. apply H1. exists x. split; [eapply nth_error_In; eauto|].
      apply Z.ltb_lt; auto.
    + destruct (Z.ltb_spec m x) as [L|L]; auto. exfalso. apply H2. exists (x, m). split; auto.
      apply Z.ltb_lt; auto.
  - intros [_ H]. split.
    + intros (x & Hx & Hlt). apply In_nth_error in Hx as [d Hd].
      assert (Hdl : d < length max_n) by (rewrite Hm, <- Hl; eapply nth_error_Some_lt; eauto).
      destruct (nth_error_lt max_n Hdl) as [m Hm']. apply Z.ltb_lt in Hlt. specialize (H _ _ _ Hd Hm'). lia.
    + intros ([x m] & Hx & Hlt). simpl in Hlt. apply Z.ltb_lt in Hlt. apply In_nth_error in Hx as [d Hd].
      assert (Hd1 : nth_error (vadd u n) d = Some x /\ nth_error max_n d = Some m).
      { clear - Hd. revert d max_n Hd. induction (vadd u n) as [|a l IH]; intros [|d] [|b m'] Hd;
          simpl in *; try discriminate; try (injection Hd as -> ->; auto); auto. }
      destruct Hd1 as [Hd1 Hd2]. specialize (H _ _ _ Hd1 Hd2). lia.
Qed.

Lemma mask_spec table n max_n mask :
  flip_weights_mask table n max_n = Some mask ->
  length mask = 2 * length table /\
  (forall i u b, nth_error (flip_directions table) i = Some u -> nth_error mask i = Some b ->
     b = true <-> within n max_n u).
Proof.
  unfold flip_weights_mask. destruct (_ || _) eqn:E; [discriminate|]. intros H; injection H as <-.
  apply orb_false_iff in E as [E E3]. apply orb_false_iff in E as [_ E2].
  apply negb_false_iff, Nat.eqb_eq in E3. apply negb_false_iff in E2. rewrite forallb_forall in E2.
  split; [rewrite map_length; apply directions_length|].
  intros i u b Hu Hb. rewrite (map_nth_error _ _ _ Hu) in Hb. injection Hb as <-.
  apply feasible_within; auto.
  apply nth_error_In, directions_In in Hu as (v & Hv & Hu). apply E2, Nat.eqb_eq in Hv.
  destruct Hu as [->| ->]; rewrite ?length_vopp; auto.
Qed.

(** The maxima. *)
Definition max_of (l : list sublattice) : list Z :=
  flat_map (fun sl => map (fun _ => Z.of_nat (length (sl_active sl))) (sl_species sl)) l.

Lemma max_of_nth l : forall k sl p, coded l -> nth_error l k = Some sl -> p < length (sl_encoding sl) ->
  nth_error (max_of l) (n_dims_of (firstn k l) + p) = Some (Z.of_nat (length (sl_active sl))).
Proof.
  induction l as [|a l IH]; intros [|k] sl p Hc Hk Hp; simpl in *; try discriminate.
  - injection Hk as ->. assert (Hl : length (sl_species sl) = length (sl_encoding sl)) by (apply Hc; left; auto).
    rewrite nth_error_app1.
    + assert (Hp' : p < length (sl_species sl)) by lia.
      destruct (nth_error_lt (sl_species sl) Hp') as [x Hx]. rewrite (map_nth_error _ _ _ Hx). auto.
    + rewrite map_length; lia.
  - assert (Hl : length (sl_species a) = length (sl_encoding a)) by (apply Hc; left; auto).
    unfold n_dims_of; simpl. fold (n_dims_of (firstn k l)).
    rewrite nth_error_app2; rewrite map_length, Hl; [|lia].
    rewrite <- (IH k sl p); auto.
    + f_equal. lia.
    + intros x Hx. apply Hc. right; auto.
Qed.

Lemma max_of_length l : coded l -> length (max_of l) = n_dims_of l.
Proof.
  unfold n_dims_of. induction l as [|a l IH]; intros Hc; simpl; auto.
  rewrite app_length, map_length, IH.
  - rewrite Hc; auto. left; auto.
  - intros sl Hsl. apply Hc. right; auto.
Qed.

Section Top.
Variables (N : nat) (tf : tableflip).
Hypothesis Ok : tf_ok N tf.
Let sls := tf_sls tf.
Let Lay : layout sls N := tk_layout Ok.

Lemma lens_eq : map (fun sl => length (sl_species sl)) sls = map (fun sl => length (sl_encoding sl)) sls.
Proof. apply map_ext_in. intros sl Hin. apply (tk_coded Ok); auto. Qed.

Lemma tf_d_eq : tf_d tf = n_dims_of sls.
Proof. unfold tf_d, n_dims_of. fold sls. rewrite lens_eq. auto. Qed.

Definition pairs : list (sublattice * list nat) :=
  combine sls (get_dim_ids_by_sublattice (map (fun sl => length (sl_species sl)) sls)).

Lemma dim_ids_from_seq lens : forall d k len, nth_error lens k = Some len ->
  nth_error (dim_ids_from d lens) k = Some (seq (d + list_sum (firstn k lens)) len).
Proof.
  induction lens as [|l lens IH]; intros d [|k] len H; simpl in *; try discriminate.
  - injection H as ->. rewrite Nat.add_0_r. auto.
  - rewrite (IH _ _ _ H). f_equal. f_equal. lia.
Qed.

Lemma dim_ids_from_length lens : forall d, length (dim_ids_from d lens) = length lens.
Proof. induction lens as [|l lens IH]; intros d; simpl; auto. Qed.

Lemma nth_error_combine {A B} (l : list A) (l' : list B) k :
  nth_error (combine l l') k = match nth_error l k, nth_error l' k with
                               | Some a, Some b => Some (a, b) | _, _ => None end.
Proof.
  revert l' k. induction l as [|a l IH]; intros [|b l'] [|k]; simpl; auto.
  destruct (nth_error l k); auto.
Qed.

Lemma pairs_nth k sl : nth_error sls k = Some sl ->
  nth_error pairs k = Some (sl, seq (dim_offset sls k) (length (sl_encoding sl))).
Proof.
  intros Hk. unfold pairs. rewrite nth_error_combine, Hk. unfold get_dim_ids_by_sublattice.
  rewrite lens_eq. rewrite (@dim_ids_from_seq _ 0 k (length (sl_encoding sl))).
  - f_equal. f_equal. f_equal. unfold dim_offset, n_dims_of. rewrite map_firstn_comm. auto.
  - apply map_nth_error with (f := fun sl => length (sl_encoding sl)) in Hk. auto.
Qed.

Lemma pairs_In q : In q pairs -> exists k, nth_error sls k = Some (fst q) /\
  snd q = seq (dim_offset sls k) (length (sl_encoding (fst q))).
Proof.
  intros H. apply In_nth_error in H as [k Hk]. exists k.
  assert (Hs : nth_error sls k = Some (fst q)).
  { unfold pairs in Hk. rewrite nth_error_combine in Hk.
    destruct (nth_error sls k); [|discriminate]. destruct (nth_error _ k); [|discriminate].
    injection Hk as <-. auto. }
  split; auto. rewrite (pairs_nth Hs) in Hk. injection Hk as <-. auto.
Qed.

Lemma acts_pairs : acts pairs = concat (map (counted true) sls).
Proof.
  unfold pairs, acts.
  assert (Hl : length sls = length (get_dim_ids_by_sublattice (map (fun sl => length (sl_species sl)) sls))).
  { unfold get_dim_ids_by_sublattice. rewrite dim_ids_from_length, map_length. auto. }
  revert Hl. generalize (get_dim_ids_by_sublattice (map (fun sl => length (sl_species sl)) sls)).
  generalize sls as l. clear. induction l as [|sl l IH]; intros [|d ds] H; simpl in *; try lia; auto.
  rewrite IH by lia. auto.
Qed.

Lemma acts_NoDup : NoDup (acts pairs).
Proof. rewrite acts_pairs. eapply NoDup_concat_counted; eauto. Qed.

Lemma acts_In s : In s (acts pairs) <-> exists sl, In sl sls /\ In s (sl_active sl).
Proof.
  rewrite acts_pairs, in_concat. split.
  - intros (l & Hl & Hs). apply in_map_iff in Hl as (sl & <- & Hin). eauto.
  - intros (sl & Hin & Hs). exists (sl_active sl). split; auto. apply in_map_iff. exists sl. auto.
Qed.

Lemma acts_lt o s : valid_occu sls N o -> In s (acts pairs) -> s < length o.
Proof.
  intros [Hl _] Hs. apply acts_In in Hs as (sl & Hin & Hs). rewrite Hl.
  eapply layout_site_lt; eauto. eapply lay_active; eauto.
Qed.

Lemma valid_allowed o sl : valid_occu sls N o -> In sl sls -> allowed (sl_active sl) (sl_encoding sl) o.
Proof. intros [_ Hv] Hin s Hs. apply (Hv sl s Hin). eapply lay_active; eauto. Qed.

(** ** The state the proposal computes *)
Definition has_lists (act : bool) (o : list nat) (L : list (list nat)) : Prop :=
  exists t, get_dim_ids_table sls act = Some t /\ occu_to_species_list o (tf_d tf) t = Some L /\
            occu_to_counts o (tf_d tf) t = Some (count_list L).

Lemma has_lists_ex act o : valid_occu sls N o -> exists L, has_lists act o L.
Proof.
  intros Hv. destruct (@species_lists sls N act o Lay Hv) as (t & L & n & Ht & HL & Hn & _ & E & _).
  exists L, t. rewrite tf_d_eq. unfold count_list. rewrite E. auto.
Qed.

Lemma has_lists_fun act o L L' : has_lists act o L -> has_lists act o L' -> L = L'.
Proof. intros (t & H1 & H2 & _) (t' & H3 & H4 & _). congruence. Qed.

Lemma lists_length act o L : valid_occu sls N o -> has_lists act o L -> length L = n_dims_of sls.
Proof.
  intros Hv HL. destruct (@species_lists sls N act o Lay Hv) as (t & L' & n & Ht & HL' & Hn & E & _).
  destruct HL as (t' & H1 & H2 & _). rewrite tf_d_eq in H2. congruence.
Qed.

Lemma lists_nth act o L k sl p c : valid_occu sls N o -> has_lists act o L ->
  nth_error sls k = Some sl -> nth_error (sl_encoding sl) p = Some c ->
  exists l, nth_error L (dim_offset sls k + p) = Some l /\ Permutation l (filter (carries o c) (counted act sl)).
Proof.
  intros Hv (t & Ht & HL & _) Hk Hp. rewrite tf_d_eq in HL.
  eexists. split; [unfold dim_offset; eapply species_list_spec; eauto|].
  assert (Hin : In sl sls) by (eapply nth_error_In; eauto).
  apply NoDup_Permutation.
  - apply NoDup_filter, seq_NoDup.
  - apply NoDup_filter. pose proof (@NoDup_concat_counted sls N act Lay) as H.
    apply in_split in Hin as (l1 & l2 & E). rewrite E, map_app, concat_app in H. simpl in H.
    eapply NoDup_app_remove_r, NoDup_app_remove_l; eauto.
  - intros s. rewrite !filter_In, andb_true_iff, memb_In, in_seq. unfold carries. split; [tauto|].
    intros [H1 H2]. split; [|tauto]. split; [lia|]. simpl. eapply layout_site_lt; eauto.
    eapply counted_sites; eauto.
Qed.

Lemma flip_items_ok o u L k sl : valid_occu sls N o -> has_lists true o L -> length u = n_dims_of sls ->
  nth_error sls k = Some sl ->
  exists items, flip_items u L (seq (dim_offset sls k) (length (sl_encoding sl))) (sl_encoding sl) = Some items /\
    items_ok (sl_active sl) (sl_encoding sl) (us_at u (seq (dim_offset sls k) (length (sl_encoding sl)))) o items.
Proof.
  intros Hv HL Hu Hk. unfold flip_items. rewrite seq_length, Nat.eqb_refl. simpl.
  assert (HLn : forall p c, nth_error (sl_encoding sl) p = Some c ->
     exists z l, nth_error u (dim_offset sls k + p) = Some z /\ nth_error L (dim_offset sls k + p) = Some l
        /\ Permutation l (filter (carries o c) (sl_active sl))).
  { intros p c Hp. destruct (lists_nth Hv HL Hk Hp) as (l & Hl & P). simpl in P.
    assert (Hlt : dim_offset sls k + p < length u).
    { rewrite Hu, <- (lists_length Hv HL). eapply nth_error_Some_lt; eauto. }
    destruct (nth_error_lt u Hlt) as [z Hz]. exists z, l. auto. }
  revert HLn. generalize (dim_offset sls k) as d. generalize (sl_encoding sl) as codes. clear.
  induction codes as [|c codes IH]; intros d H; simpl.
  - exists []. split; auto. constructor; auto. intros i [].
  - destruct (IH (S d)) as (items & E & Io).
    { intros p c' Hp. replace (S d + p) with (d + S p) by lia. apply H. auto. }
    destruct (H 0 c eq_refl) as (z & l & Hz & Hl & P). rewrite Nat.add_0_r in Hz, Hl.
    rewrite Hz, Hl. simpl. rewrite E. exists ((z, c, l) :: items). split; auto.
    constructor; simpl.
    + unfold it_c at 1. simpl. f_equal. apply (io_c Io).
    + unfold us_at. simpl. f_equal; [symmetry; apply nth_error_nth; auto|apply (io_z Io)].
    + intros i [<-|Hi]; [exact P|apply (io_l Io Hi)].
Qed.

Lemma tf_max_nth k sl p : nth_error sls k = Some sl -> p < length (sl_encoding sl) ->
  nth_error (tf_max tf) (dim_offset sls k + p) = Some (Z.of_nat (length (sl_active sl))).
Proof. intros Hk Hp. unfold tf_max, dim_offset. apply max_of_nth; auto. apply (tk_coded Ok). Qed.

Lemma tf_max_length : length (tf_max tf) = n_dims_of sls.
Proof. apply max_of_length. apply (tk_coded Ok). Qed.

Lemma count_nth act o L k sl p c : valid_occu sls N o -> has_lists act o L ->
  nth_error sls k = Some sl -> nth_error (sl_encoding sl) p = Some c ->
  nth_error (count_list L) (dim_offset sls k + p) = Some (Z.of_nat (countb (carries o c) (counted act sl))).
Proof.
  intros Hv HL Hk Hp. destruct (lists_nth Hv HL Hk Hp) as (l & Hl & P).
  unfold count_list. rewrite (map_nth_error _ _ _ Hl). f_equal. f_equal. apply Permutation_length; auto.
Qed.

(** A direction of the table that is feasible at [o]. *)
Definition good_dir (o : list nat) (u : list Z) : Prop :=
  conserves_sites sls u /\ forall L, has_lists true o L -> within (count_list L) (tf_max tf) u.

Lemma good_pair_ok o u L q : valid_occu sls N o -> has_lists true o L -> good_dir o u ->
  In q pairs -> pair_ok u o L q.
Proof.
  intros Hv HL [[Hlen Hsum] Hw] Hq. destruct (pairs_In Hq) as (k & Hk & Hd).
  assert (Hin : In (fst q) sls) by (eapply nth_error_In; eauto).
  assert (Hoff : dim_offset sls k + length (sl_encoding (fst q)) <= length u).
  { rewrite Hlen. destruct (sl_encoding (fst q)) as [|c cs] eqn:E.
    - exfalso. apply (proj2 (lay_codes Lay _ Hin)); auto.
    - pose proof (@n_dims_firstn_lt sls k (fst q) (length cs) Hk) as H. rewrite E in H. simpl in H.
      unfold dim_offset. simpl. lia. }
  constructor.
  - apply (lay_active_nodup Lay); auto.
  - apply (lay_codes Lay _ Hin).
  - apply valid_allowed; auto.
  - rewrite Hd, seq_length. auto.
  - rewrite Hd, us_at_seq by auto. apply (Hsum k _ Hk).
  - intros E d Hdin. rewrite Hd in Hdin. apply in_seq in Hdin.
    set (p := d - dim_offset sls k). assert (Hp : p < length (sl_encoding (fst q))) by lia.
    assert (Ed : d = dim_offset sls k + p) by lia.
    destruct (nth_error_lt (sl_encoding (fst q)) Hp) as [c Hc].
    specialize (Hw L HL). destruct Hw as [Hwl Hw].
    pose proof (count_nth Hv HL Hk Hc) as Hn. simpl in Hn. rewrite E in Hn. simpl in Hn.
    pose proof (tf_max_nth Hk Hp) as Hmx. rewrite E in Hmx. simpl in Hmx.
    rewrite <- Ed in *.
    assert (Hdl : d < length u) by lia. destruct (nth_error_lt u Hdl) as [z Hz].
    specialize (Hw d _ _ (nth_error_vadd _ _ _ Hz Hn) Hmx). rewrite (nth_error_nth _ _ _ Hz).
    unfold countb in Hw. simpl in Hw. lia.
  - rewrite Hd. apply flip_items_ok; auto.
Qed.

Lemma good_moves_as o o' u : conserves_sites sls u ->
  (forall q, In q pairs -> pair_moves u o o' q) <->
  (forall k sl, nth_error sls k = Some sl ->
     site_moves (sl_active sl) (sl_encoding sl) (part_of sls k sl u) o o').
Proof.
  intros [Hlen _].
  assert (Hus : forall k sl, nth_error sls k = Some sl ->
    us_at u (seq (dim_offset sls k) (length (sl_encoding sl))) = part_of sls k sl u).
  { intros k sl Hk. apply us_at_seq. rewrite Hlen.
    assert (Hin : In sl sls) by (eapply nth_error_In; eauto).
    destruct (sl_encoding sl) as [|c cs] eqn:E.
    - exfalso. apply (proj2 (lay_codes Lay _ Hin)); auto.
    - pose proof (@n_dims_firstn_lt sls k sl (length cs) Hk) as H. rewrite E in H. simpl in H.
      unfold dim_offset. simpl. lia. }
  split.
  - intros H k sl Hk. specialize (H _ (nth_error_In _ _ (pairs_nth Hk))). unfold pair_moves in H.
    simpl in H. rewrite Hus in H; auto.
  - intros H q Hq. destruct (pairs_In Hq) as (k & Hk & Hd). unfold pair_moves. rewrite Hd, Hus; auto.
Qed.

(** Outcome of a flip along [u]. *)
Lemma flip_along_outcome o u L st : valid_occu sls N o -> has_lists true o L -> good_dir o u ->
  outcome (flip_sublattices u L pairs) st ->
  NoDup (map fst st) /\ (forall s c, In (s, c) st -> legal_flip sls o s c) /\
  valid_occu sls N (apply_step o st) /\ moves_as sls u o (apply_step o st).
Proof.
  intros Hv HL Hg H.
  destruct (flip_sublattices_outcome (fun q => good_pair_ok Hv HL Hg (q := q)) acts_NoDup H)
    as (Hn & Hi & Hc & Hm).
  assert (Hpin : forall q, In q pairs -> In (fst q) sls).
  { intros q Hq. destruct (pairs_In Hq) as (k & Hk & _). eapply nth_error_In; eauto. }
  assert (Hset : forall s c, In (s, c) st -> nth_error (apply_step o st) s = Some c).
  { intros s c Hsc. apply apply_step_at; auto. apply acts_lt; auto. apply Hi.
    apply (in_map fst) in Hsc. auto. }
  split; auto. split; [|split].
  - intros s c Hsc. destruct (Hc _ _ Hsc) as (Hne & q & Hq & Hs & Hcq). exists (fst q).
    split; [split; auto|]. auto.
  - destruct Hv as [Hl Hv]. split; [rewrite apply_step_length; auto|].
    intros sl s Hin Hs. destruct (in_dec Nat.eq_dec s (map fst st)) as [Hs'|Hs'].
    + apply in_map_iff in Hs' as ([s' c] & <- & Hsc). simpl in *. exists c. split; auto.
      destruct (Hc _ _ Hsc) as (_ & q & Hq & Hsq & Hcq).
      assert (fst q = sl); [|subst; auto].
      eapply site_sublattice_unique; eauto. eapply lay_active; eauto.
    + rewrite apply_step_other; auto.
  - split; [apply apply_step_length|]. split.
    + intros s Hs. apply apply_step_other. intros Hs'. apply Hi, acts_In in Hs' as (sl & Hin & Hs').
      eapply Hs; eauto.
    + apply (good_moves_as o (apply_step o st) (proj1 Hg)). apply Hm; auto.
      intros s _ Hs. apply apply_step_other; auto.
Qed.

Lemma flip_along_prob o o' u L : valid_occu sls N o -> valid_occu sls N o' ->
  has_lists true o L -> good_dir o u -> moves_as sls u o o' ->
  prob (flip_sublattices u L pairs) (fun st => occu_eqb (apply_step o st) o') = pairs_prob u L pairs.
Proof.
  intros Hv Hv' HL Hg (Hl & Hoff & Hm).
  assert (Hok : forall q, In q pairs -> pair_ok u o L q) by (intros; apply good_pair_ok; auto).
  rewrite <- (@flip_sublattices_prob u o L pairs o' Hok acts_NoDup).
  - apply prob_ext. intros st Hst. destruct (flip_sublattices_outcome Hok acts_NoDup Hst) as (Hn & Hi & _).
    apply realises_iff; auto.
    + intros s Hs. apply acts_lt; auto.
    + intros s Hs. apply Hoff. intros sl Hin Hs'. apply Hs, acts_In. eauto.
  - intros q Hq. destruct (pairs_In Hq) as (k & Hk & _). apply valid_allowed; auto. eapply nth_error_In; eauto.
  - apply (good_moves_as o o' (proj1 Hg)). auto.
Qed.

Lemma moves_counts o o' u L L' : valid_occu sls N o -> valid_occu sls N o' ->
  has_lists true o L -> has_lists true o' L' -> length u = n_dims_of sls -> moves_as sls u o o' ->
  count_list L' = vadd (count_list L) u.
Proof.
  intros Hv Hv' HL HL' Hu (Hl & Hoff & Hm).
  pose proof (lists_length Hv HL) as EL. pose proof (lists_length Hv' HL') as EL'.
  apply list_ext_lt; unfold count_list; rewrite ?length_vadd, ?map_length; [lia|].
  intros d Hd. rewrite EL' in Hd. destruct (@dims_cover sls d Hd) as (k & sl & p & Hk & Hp & ->).
  destruct (nth_error_lt (sl_encoding sl) Hp) as [c Hc].
  pose proof (count_nth Hv HL Hk Hc) as E1. pose proof (count_nth Hv' HL' Hk Hc) as E2.
  unfold dim_offset, count_list in E1, E2. simpl in E1, E2. rewrite E2.
  assert (Hdl : n_dims_of (firstn k sls) + p < length u) by lia.
  destruct (nth_error_lt u Hdl) as [z Hz].
  rewrite (nth_error_vadd _ _ _ E1 Hz). f_equal.
  apply (site_moves_count (Hm k sl Hk) (p := p)); auto.
  unfold part_of. rewrite nth_error_firstn_lt by auto. rewrite nth_error_skipn. auto.
Qed.

Lemma moves_full_counts o o' u L L' : valid_occu sls N o -> valid_occu sls N o' ->
  has_lists false o L -> has_lists false o' L' -> length u = n_dims_of sls -> moves_as sls u o o' ->
  count_list L' = vadd (count_list L) u.
Proof.
  intros Hv Hv' HL HL' Hu (Hl & Hoff & Hm).
  pose proof (lists_length Hv HL) as EL. pose proof (lists_length Hv' HL') as EL'.
  apply list_ext_lt; unfold count_list; rewrite ?length_vadd, ?map_length; [lia|].
  intros d Hd. rewrite EL' in Hd. destruct (@dims_cover sls d Hd) as (k & sl & p & Hk & Hp & ->).
  destruct (nth_error_lt (sl_encoding sl) Hp) as [c Hc].
  pose proof (count_nth Hv HL Hk Hc) as E1. pose proof (count_nth Hv' HL' Hk Hc) as E2.
  unfold dim_offset, count_list in E1, E2. simpl in E1, E2. rewrite E2.
  assert (Hdl : n_dims_of (firstn k sls) + p < length u) by lia.
  destruct (nth_error_lt u Hdl) as [z Hz].
  rewrite (nth_error_vadd _ _ _ E1 Hz). f_equal.
  assert (Hin : In sl sls) by (eapply nth_error_In; eauto).
  assert (Hact : (Z.of_nat (countb (carries o' c) (sl_active sl)) = Z.of_nat (countb (carries o c) (sl_active sl)) + z)%Z).
  { apply (site_moves_count (Hm k sl Hk) (p := p)); auto.
    unfold part_of. rewrite nth_error_firstn_lt by auto. rewrite nth_error_skipn. auto. }
  assert (NS : NoDup (sl_sites sl)).
  { pose proof (@NoDup_concat_counted sls N false Lay) as H. simpl in H.
    apply in_split in Hin as (l1 & l2 & E). rewrite E, map_app, concat_app in H. simpl in H.
    eapply NoDup_app_remove_r, NoDup_app_remove_l; eauto. }
  assert (P : Permutation (sl_active sl ++ filter (fun s => negb (memb s (sl_active sl))) (sl_sites sl)) (sl_sites sl)).
  { apply NoDup_Permutation; auto.
    - apply NoDup_app_intro; [apply (lay_active_nodup Lay); auto|apply NoDup_filter; auto|].
      intros s Hs Hs'. apply filter_In in Hs' as [_ Hs']. apply memb_In in Hs. rewrite Hs in Hs'. discriminate.
    - intros s. rewrite in_app_iff, filter_In. split.
      + intros [Hs|[Hs _]]; auto. eapply lay_active; eauto.
      + intros Hs. destruct (memb_reflect s (sl_active sl)); auto. }
  rewrite <- !(countb_perm _ P), !countb_app.
  rewrite (@countb_ext _ (carries o' c) (carries o c) (filter _ _)); [lia|].
  intros s Hs. apply filter_In in Hs as [Hs Hs']. unfold carries. rewrite Hoff; auto.
  intros sl' Hin' Hsa. assert (sl' = sl).
  { eapply site_sublattice_unique; eauto. eapply lay_active; eauto. }
  subst. apply memb_In in Hsa. rewrite Hsa in Hs'. discriminate.
Qed.

(** ** Reversal over all sublattices *)
Fixpoint pfact (L : list (list nat)) : Qc :=
  match L with [] => 1%Qc | l :: r => (qfact (length l) * pfact r)%Qc end.
Definition pair_sf (u : list Z) (L : list (list nat)) (q : sublattice * list nat) : Qc :=
  match flip_items u L (snd q) (sl_encoding (fst q)) with Some items => sfact items | None => 1%Qc end.
Fixpoint pairs_sf u L (l : list (sublattice * list nat)) : Qc :=
  match l with [] => 1%Qc | q :: l' => (pair_sf u L q * pairs_sf u L l')%Qc end.

Lemma pfact_app a b : pfact (a ++ b) = (pfact a * pfact b)%Qc.
Proof. induction a as [|x a IH]; simpl; [ring|]. rewrite IH. ring. Qed.

Lemma skipn_cons_nth {A} (l : list A) d x : nth_error l d = Some x -> skipn d l = x :: skipn (S d) l.
Proof.
  revert d. induction l as [|y l IH]; intros [|d] H; simpl in *; try discriminate; [congruence|].
  apply (IH d H).
Qed.

Lemma sfact_pfact u L codes : forall d items,
  flip_items u L (seq d (length codes)) codes = Some items ->
  sfact items = pfact (firstn (length codes) (skipn d L)).
Proof.
  unfold flip_items. intros d items. rewrite seq_length, Nat.eqb_refl. simpl. revert d items.
  induction codes as [|c codes IH]; intros d items H; simpl in H.
  - injection H as <-. auto.
  - destruct (nth_error u d) as [z|] eqn:Ez; simpl in H; [|discriminate].
    destruct (nth_error L d) as [l|] eqn:El; simpl in H; [|discriminate].
    destruct (opt_map _ (combine (seq (S d) (length codes)) codes)) as [rest|] eqn:E; [|discriminate].
    injection H as <-. rewrite (skipn_cons_nth El). simpl. rewrite (IH _ _ E). unfold it_l. auto.
Qed.

Lemma pairs_sf_pfact u L l : forall d,
  (forall q, In q (combine l (dim_ids_from d (map (fun sl => length (sl_encoding sl)) l))) ->
     exists items, flip_items u L (snd q) (sl_encoding (fst q)) = Some items) ->
  pairs_sf u L (combine l (dim_ids_from d (map (fun sl => length (sl_encoding sl)) l))) =
  pfact (firstn (n_dims_of l) (skipn d L)).
Proof.
  induction l as [|sl l IH]; intros d H; simpl; auto.
  unfold n_dims_of. simpl. fold (n_dims_of l). rewrite IH.
  - destruct (H (sl, seq d (length (sl_encoding sl)))) as (items & Hi); [left; auto|]. simpl in Hi.
    unfold pair_sf. simpl. rewrite Hi, (sfact_pfact Hi), <- pfact_app. f_equal.
    rewrite <- (firstn_skipn (length (sl_encoding sl)) (firstn (length (sl_encoding sl) + n_dims_of l) (skipn d L))).
    f_equal.
    + rewrite firstn_firstn. f_equal. lia.
    + rewrite skipn_firstn_comm, skipn_skipn'. f_equal. lia.
  - intros q Hq. apply H. right; auto.
Qed.

Lemma pair_items o u L q : valid_occu sls N o -> has_lists true o L -> length u = n_dims_of sls ->
  In q pairs -> exists items, flip_items u L (snd q) (sl_encoding (fst q)) = Some items /\
    items_ok (sl_active (fst q)) (sl_encoding (fst q)) (us_at u (snd q)) o items.
Proof.
  intros Hv HL Hu Hq. destruct (pairs_In Hq) as (k & Hk & Hd). rewrite Hd. apply flip_items_ok; auto.
Qed.

Lemma pairs_sf_eq o u L : valid_occu sls N o -> has_lists true o L -> length u = n_dims_of sls ->
  pairs_sf u L pairs = pfact L.
Proof.
  intros Hv HL Hu. unfold pairs, get_dim_ids_by_sublattice. rewrite lens_eq, pairs_sf_pfact.
  - simpl. rewrite firstn_all2; auto. rewrite (lists_length Hv HL). auto.
  - intros q Hq. destruct (@pair_items o u L q Hv HL Hu) as (items & Hi & _); [|eauto].
    unfold pairs, get_dim_ids_by_sublattice. rewrite lens_eq. auto.
Qed.

Lemma flip_reverse o o' u L L' : valid_occu sls N o -> valid_occu sls N o' ->
  has_lists true o L -> has_lists true o' L' -> conserves_sites sls u -> moves_as sls u o o' ->
  (pairs_prob (vopp u) L' pairs * pfact L' = pairs_prob u L pairs * pfact L)%Qc.
Proof.
  intros Hv Hv' HL HL' Hc (Hl & Hoff & Hm).
  assert (Hu : length u = n_dims_of sls) by apply Hc.
  rewrite <- (pairs_sf_eq Hv HL Hu).
  rewrite <- (@pairs_sf_eq o' (vopp u) L' Hv' HL') by (rewrite length_vopp; auto).
  assert (Hpm : forall q, In q pairs -> pair_moves u o o' q) by (apply good_moves_as; auto).
  assert (Hq : forall q, In q pairs ->
    (pair_prob (vopp u) L' q * pair_sf (vopp u) L' q = pair_prob u L q * pair_sf u L q)%Qc).
  { intros q Hq. destruct (@pair_items o u L q Hv HL Hu Hq) as (items & Hi & Io).
    destruct (@pair_items o' (vopp u) L' q Hv' HL') as (items' & Hi' & Io'); auto; [rewrite length_vopp; auto|].
    unfold pair_prob, pair_sf. rewrite Hi, Hi'. rewrite us_at_vopp in Io'.
    apply (@local_reverse (sl_active (fst q)) (sl_encoding (fst q)) (us_at u (snd q)) o o'); auto; [| |apply Hpm; auto].
    - destruct (pairs_In Hq) as (k & Hk & _). apply (lay_codes Lay). eapply nth_error_In; eauto.
    - destruct (pairs_In Hq) as (k & Hk & Hd). rewrite Hd, us_at_seq.
      + apply (proj2 Hc k _ Hk).
      + rewrite Hu. assert (Hin : In (fst q) sls) by (eapply nth_error_In; eauto).
        destruct (sl_encoding (fst q)) as [|c cs] eqn:E; [exfalso; apply (proj2 (lay_codes Lay _ Hin)); auto|].
        pose proof (@n_dims_firstn_lt sls k (fst q) (length cs) Hk) as H. rewrite E in H. simpl in H.
        unfold dim_offset. simpl. lia. }
  clear - Hq. induction pairs as [|q l IH]; simpl; [ring|].
  assert (E1 := Hq q (or_introl eq_refl)).
  assert (E2 : (pairs_prob (vopp u) L' l * pairs_sf (vopp u) L' l = pairs_prob u L l * pairs_sf u L l)%Qc)
    by (apply IH; intros; apply Hq; right; auto).
  transitivity (pair_prob (vopp u) L' q * pair_sf (vopp u) L' q * (pairs_prob (vopp u) L' l * pairs_sf (vopp u) L' l))%Qc; [ring|].
  rewrite E1, E2. ring.
Qed.
End Top.
