From Verif Require Export DomainProofs OccuUtilsProofs Encoding.
Set Implicit Arguments.
Unset Strict Implicit.
Open Scope nat_scope.

Lemma species_index_In sp l : In sp l -> exists i, species_index sp l = Some i /\ i < length l.
Proof.
  induction l as [|x l IH]; simpl; [tauto|]. intros H.
  destruct (sp_eqb_spec x sp) as [->|Hne]; [exists 0; split; auto; lia|].
  destruct H as [H|H]; [congruence|]. destruct (IH H) as (i & -> & Hi). exists (S i); split; auto; lia.
Qed.

Lemma species_index_nth l i sp : NoDup l -> nth_error l i = Some sp -> species_index sp l = Some i.
Proof.
  intros Hn; revert i; induction Hn as [|x l Hx Hn IH]; intros [|i] H; simpl in *; try discriminate.
  - inversion H; subst. destruct (sp_eqb_spec sp sp); congruence.
  - destruct (sp_eqb_spec x sp) as [->|]; [apply nth_error_In in H; tauto|].
    rewrite (IH _ H); auto.
Qed.

Lemma encode_decode allowed occu :
  Forall2 (fun sps sp => In sp sps) allowed occu ->
  exists enc, encode_occupancy allowed occu = Some enc /\
    Forall2 (fun sps i => i < length sps) allowed enc /\
    decode_occupancy allowed enc = Some occu.
Proof.
  induction 1 as [|sps sp allowed occu H F IH]; simpl.
  - exists []; auto.
  - destruct (species_index_In H) as (i & E & Hi). rewrite E; simpl.
    destruct IH as (enc & -> & F' & D). simpl. exists (i :: enc).
    split; auto. split; [constructor; auto|]. simpl.
    rewrite (species_index_spec _ _ E); simpl. rewrite D; auto.
Qed.

Lemma decode_encode allowed enc :
  Forall (fun sps => NoDup sps) allowed -> Forall2 (fun sps i => i < length sps) allowed enc ->
  exists occu, decode_occupancy allowed enc = Some occu /\
    Forall2 (fun sps sp => In sp sps) allowed occu /\
    encode_occupancy allowed occu = Some enc.
Proof.
  intros Hn F. induction F as [|sps i allowed enc H F IH]; simpl.
  - exists []; auto.
  - inversion Hn; subst. destruct (nth_error_lt sps H) as [sp Hsp]. rewrite Hsp; simpl.
    destruct (IH H3) as (occu & -> & F' & E). simpl. exists (sp :: occu).
    split; auto. split; [constructor; auto; eapply nth_error_In; eauto|]. simpl.
    rewrite (species_index_nth H2 Hsp); simpl. rewrite E; auto.
Qed.

Lemma encode_rejects allowed occu i sps sp :
  nth_error allowed i = Some sps -> nth_error occu i = Some sp -> ~ In sp sps ->
  encode_occupancy allowed occu = None.
Proof.
  revert i occu; induction allowed as [|a allowed IH]; intros [|i] [|o occu] Ha Ho Hn; simpl in *; try discriminate.
  - inversion Ha; inversion Ho; subst.
    destruct (species_index sp sps) as [j|] eqn:E; auto.
    apply species_index_spec in E. apply nth_error_In in E. tauto.
  - destruct (species_index o a); simpl; auto. rewrite (IH _ _ Ha Ho Hn). auto.
Qed.

Lemma encode_injective allowed o1 o2 e :
  length o1 = length allowed -> length o2 = length allowed ->
  encode_occupancy allowed o1 = Some e -> encode_occupancy allowed o2 = Some e -> o1 = o2.
Proof.
  revert o1 o2 e; induction allowed as [|a allowed IH]; intros [|x o1] [|y o2] e L1 L2 E1 E2; simpl in *; try lia; auto.
  destruct (species_index x a) as [i|] eqn:Ex; simpl in E1; [|discriminate].
  destruct (species_index y a) as [j|] eqn:Ey; simpl in E2; [|discriminate].
  destruct (encode_occupancy allowed o1) eqn:F1; simpl in E1; [|discriminate].
  destruct (encode_occupancy allowed o2) eqn:F2; simpl in E2; [|discriminate].
  injection E1 as E1a; injection E2 as E2a. subst e. injection E2a as -> ->.
  apply species_index_spec in Ex, Ey. rewrite Ex in Ey. inversion Ey; subst.
  f_equal. eapply IH; eauto.
Qed.

(** ** Default sublattices *)
Lemma sps_eqb_spec a b : reflect (a = b) (sps_eqb a b).
Proof.
  revert b; induction a as [|x a IH]; intros [|y b]; simpl; try (constructor; congruence).
  destruct (sp_eqb_spec x y); simpl; [|constructor; congruence].
  destruct (IH b); constructor; congruence.
Qed.

Lemma combine_seq_In {A} (l : list A) : forall s i x,
  In (i, x) (combine (seq s (length l)) l) <-> s <= i /\ nth_error l (i - s) = Some x.
Proof.
  induction l as [|y l IH]; intros s i x; simpl.
  - split; [tauto|]. intros [_ H]. destruct (i - s); discriminate.
  - rewrite IH. split.
    + intros [E|[H1 H2]].
      * inversion E; subst. rewrite Nat.sub_diag. auto.
      * split; [lia|]. replace (i - s) with (S (i - S s)) by lia. auto.
    + intros [H1 H2]. destruct (Nat.eq_dec i s) as [->|Hne].
      * rewrite Nat.sub_diag in H2. simpl in H2. left; congruence.
      * right. split; [lia|]. replace (i - s) with (S (i - S s)) in H2 by lia. auto.
Qed.

Lemma sites_of_space_In allowed space s :
  In s (sites_of_space allowed space) <-> nth_error allowed s = Some (map fst space).
Proof.
  unfold sites_of_space. rewrite in_map_iff. split.
  - intros ([i sps] & E & H). simpl in E; subst. apply filter_In in H. destruct H as [H E].
    apply combine_seq_In in H. rewrite Nat.sub_0_r in H. simpl in E.
    destruct (sps_eqb_spec sps (map fst space)); [|discriminate]. subst. tauto.
  - intros H. exists (s, map fst space). split; auto. apply filter_In. split.
    + apply combine_seq_In. rewrite Nat.sub_0_r. split; auto; lia.
    + simpl. destruct (sps_eqb_spec (map fst space) (map fst space)); auto.
Qed.

(** Every site in exactly one default sublattice, when the unique site spaces have
    pairwise different species lists. *)
Lemma default_layout allowed spaces :
  allowed <> [] ->
  NoDup (map (map fst) spaces) ->
  (forall sps, In sps allowed -> In sps (map (map fst) spaces)) ->
  (forall sp, In sp spaces -> sp <> []) ->
  layout (get_sublattices allowed spaces) (length allowed) /\
  (forall sl s, In sl (get_sublattices allowed spaces) -> In s (sl_sites sl) ->
     nth_error allowed s = Some (sl_species sl)).
Proof.
  intros Hne Hnd Hcov Hsp.
  assert (Hs : forall sp sites, sl_sites (mk_sublattice sp sites) = np_unique sites).
  { intros. unfold mk_sublattice. destruct (_ <=? _); auto. }
  assert (Hspace : forall sp sites, sl_space (mk_sublattice sp sites) = sp).
  { intros. unfold mk_sublattice. destruct (_ <=? _); auto. }
  split.
  - constructor.
    + destruct allowed as [|a allowed]; [congruence|].
      destruct spaces; [exfalso; apply (Hcov a); left; auto|unfold get_sublattices; simpl; congruence].
    + apply NoDup_Permutation.
      * unfold get_sublattices. rewrite map_map. apply NoDup_concat_intro.
        -- intros l Hl. apply in_map_iff in Hl. destruct Hl as (sp & <- & _). rewrite Hs.
           apply sorted_NoDup, np_unique_sorted.
        -- intros i j l l' x Hi Hj Hx Hy.
           apply nth_error_map_inv in Hi, Hj. destruct Hi as (a & Ea & ->), Hj as (b & Eb & ->).
           rewrite Hs, np_unique_In, sites_of_space_In in Hx, Hy.
           eapply NoDup_nth_error; [exact Hnd| |].
           ++ rewrite map_length. eapply nth_error_Some_lt; eauto.
           ++ transitivity (Some (map fst a)); [apply map_nth_error; exact Ea|].
              symmetry. transitivity (Some (map fst b)); [apply map_nth_error; exact Eb|].
              congruence.
      * apply seq_NoDup.
      * intros s. rewrite in_concat. split.
        -- intros (l & Hl & Hin). unfold get_sublattices in Hl. rewrite map_map in Hl.
           apply in_map_iff in Hl. destruct Hl as (sp & <- & _).
           rewrite Hs, np_unique_In, sites_of_space_In in Hin.
           apply in_seq. split; [lia|]. simpl. eapply nth_error_Some_lt; eauto.
        -- intros Hin. apply in_seq in Hin. simpl in Hin.
           destruct (@nth_error_lt _ allowed s) as [sps Hsps]; [lia|].
           pose proof (Hcov _ (nth_error_In _ _ Hsps)) as Hc. apply in_map_iff in Hc.
           destruct Hc as (sp & E & Hin'). exists (sl_sites (mk_sublattice sp (sites_of_space allowed sp))).
           split.
           ++ unfold get_sublattices. rewrite map_map. apply in_map_iff. eauto.
           ++ rewrite Hs, np_unique_In, sites_of_space_In. congruence.
    + intros sl s Hin Ha. unfold get_sublattices in Hin. apply in_map_iff in Hin.
      destruct Hin as (sp & <- & _). rewrite Hs. unfold mk_sublattice in Ha.
      destruct (_ <=? _); simpl in Ha; auto. apply filter_In in Ha. tauto.
    + intros sl Hin. unfold get_sublattices in Hin. apply in_map_iff in Hin.
      destruct Hin as (sp & <- & _). unfold mk_sublattice.
      destruct (_ <=? _); simpl; [apply NoDup_filter|]; apply sorted_NoDup, np_unique_sorted.
    + intros sl Hin. unfold get_sublattices in Hin. apply in_map_iff in Hin.
      destruct Hin as (sp & <- & Hsp'). specialize (Hsp _ Hsp').
      assert (E : sl_encoding (mk_sublattice sp (sites_of_space allowed sp)) = seq 0 (length sp))
        by (unfold mk_sublattice; destruct (_ <=? _); auto).
      rewrite E. split; [apply seq_NoDup|]. destruct sp; [congruence|discriminate].
  - intros sl s Hin Hss. unfold get_sublattices in Hin. apply in_map_iff in Hin.
    destruct Hin as (sp & <- & _). rewrite Hs, np_unique_In, sites_of_space_In in Hss.
    unfold sl_species. rewrite Hspace. auto.
Qed.

(** Encoded occupancies are valid for the default layout. *)
Lemma default_valid allowed spaces enc :
  allowed <> [] ->
  NoDup (map (map fst) spaces) ->
  (forall sps, In sps allowed -> In sps (map (map fst) spaces)) ->
  (forall sp, In sp spaces -> sp <> []) ->
  Forall2 (fun sps i => i < length sps) allowed enc ->
  valid_occu (get_sublattices allowed spaces) (length allowed) enc.
Proof.
  intros Hne Hnd Hcov Hsp F. split; [symmetry; eapply Forall2_length; eauto|].
  intros sl s Hin Hs. destruct (default_layout Hne Hnd Hcov Hsp) as [_ K].
  specialize (K _ _ Hin Hs).
  assert (L : s < length enc) by (rewrite <- (Forall2_length F); eapply nth_error_Some_lt; eauto).
  destruct (nth_error_lt _ L) as [c Hc]. exists c; split; auto.
  pose proof (Forall2_nth _ F K Hc) as Hlt. simpl in Hlt.
  unfold get_sublattices in Hin. apply in_map_iff in Hin. destruct Hin as (sp & <- & _).
  assert (E : sl_encoding (mk_sublattice sp (sites_of_space allowed sp)) = seq 0 (length sp) /\
              sl_species (mk_sublattice sp (sites_of_space allowed sp)) = map fst sp)
    by (unfold mk_sublattice, sl_species; destruct (_ <=? _); auto).
  destruct E as [-> E2]. rewrite E2, map_length in Hlt. apply in_seq. lia.
Qed.

Lemma combine_seq_fst {A} (l : list A) : forall s, map fst (combine (seq s (length l)) l) = seq s (length l).
Proof. induction l as [|x l IH]; intros s; simpl; auto. rewrite IH; auto. Qed.

Lemma structure_spec allowed enc str :
  Forall2 (fun sps i => i < length sps) allowed enc ->
  structure_from_occupancy allowed enc = Some str ->
  exists occu, decode_occupancy allowed enc = Some occu /\
    forall i sp, In (i, sp) str <-> nth_error occu i = Some sp /\ sp <> Vac.
Proof.
  unfold structure_from_occupancy. intros F H.
  destruct (decode_occupancy allowed enc) as [occu|] eqn:D; simpl in H; [|discriminate].
  exists occu. split; auto. inversion H; subst; clear H.
  assert (L : length occu = length allowed).
  { clear - F D. revert occu D. induction F; intros occu D; simpl in *.
    - inversion D; auto.
    - destruct (nth_error x y); simpl in D; [|discriminate].
      destruct (decode_occupancy l l'); simpl in D; [|discriminate].
      inversion D; subst. simpl. f_equal; auto. }
  intros i sp. rewrite filter_In, <- L, combine_seq_In, Nat.sub_0_r. simpl.
  split.
  - intros [[_ H] H2]. split; auto. intros ->. discriminate.
  - intros [H H2]. repeat split; auto; [lia|]. destruct sp; auto.
Qed.
