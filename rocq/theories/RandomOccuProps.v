(** Properties C85 (unconstrained random occupancies), C86 (charge neutral ones) and C87
    (ones of given compositions). *)
From Verif Require Import RandomOccuProofs ClusterProps RLib.
From Coq Require Import Reals Lra.
Set Implicit Arguments.
Unset Strict Implicit.
Local Open Scope nat_scope.

(** ** C85 *)
Lemma prob_some {A} (m : prog A) P : prob m P <> 0%Qc -> exists x, outcome m x /\ P x = true.
Proof.
  unfold prob. induction m as [|[w [x|]] m IH]; cbn [map qsum fst snd]; intros H.
  - exfalso; apply H; reflexivity.
  - destruct (P x) eqn:E; [exists x; split; auto; exists w; left; auto|].
    destruct IH as (y & (w' & Hy) & Ey); [intros Z; apply H; rewrite Z; ring|]. exists y. split; auto. exists w'. right; auto.
  - destruct IH as (y & (w' & Hy) & Ey); [intros Z; apply H; rewrite Z; ring|]. exists y. split; auto. exists w'. right; auto.
Qed.

Lemma inv_nat_nz n : 0 < n -> (1 / Qc_of_nat n)%Qc <> 0%Qc.
Proof.
  intros H Z. pose proof (Qc_of_nat_pos H) as Hp. assert (Qc_of_nat n <> 0%Qc) by (intros X; rewrite X in Hp; discriminate).
  assert (X : (1 / Qc_of_nat n * Qc_of_nat n)%Qc = 1%Qc) by (field; auto). rewrite Z in X. discriminate.
Qed.

Lemma ways_pos sls : (forall sl, In sl sls -> sl_encoding sl <> []) -> 0 < ways sls.
Proof.
  intros H. unfold ways. induction sls as [|sl sls IH]; simpl; [lia|].
  assert (length (sl_encoding sl) ^ length (sl_sites sl) <> 0).
  { apply Nat.pow_nonzero. specialize (H sl (or_introl eq_refl)). destruct (sl_encoding sl); simpl; congruence. }
  assert (0 < fold_right Nat.mul 1 (map (fun sl => length (sl_encoding sl) ^ length (sl_sites sl)) sls)) by (apply IH; intros; apply H; right; auto).
  nia.
Qed.

(** The number of occupancies: a product over sublattices of (number of codes) to the
    (number of sites). *)
Definition number_of_occupancies (sls : list sublattice) : nat :=
  fold_right Nat.mul 1 (map (fun sl => length (sl_encoding sl) ^ length (sl_sites sl)) sls).

(** C85.  The unconstrained generator never fails, its results are exactly the occupancies
    with an allowed code on every site, and all of them are equally likely. *)
Theorem C85_uniform :
  forall sls N, layout sls N ->
    never_raises (gen_unconstrained sls) /\
    (forall o, outcome (gen_unconstrained sls) o <-> valid_occu sls N o) /\
    (forall o, valid_occu sls N o ->
       prob (gen_unconstrained sls) (fun o' => occu_eqb o' o) = (1 / Qc_of_nat (number_of_occupancies sls))%Qc).
Proof.
  intros sls N L. unfold gen_unconstrained.
  assert (Nd : NoDup (all_sites sls)) by (eapply layout_nodup; eauto).
  assert (R : forall s, In s (all_sites sls) -> s < length (zeros sls)) by (intros s Hs; rewrite (zeros_length L); apply (layout_range s L); auto).
  assert (P : forall o, valid_occu sls N o -> prob (fill sls (zeros sls)) (fun o' => occu_eqb o' o) = (1 / Qc_of_nat (ways sls))%Qc).
  { intros o V. apply fill_prob; auto; [|apply (filled_valid o L); auto]. intros sl Hsl. apply (lay_codes L _ Hsl). }
  split; [apply fill_total; auto; intros sl Hsl; apply (lay_codes L _ Hsl)|]. split; [|exact P].
  intros o. split; intros H.
  - apply (filled_valid o L), fill_sound; auto.
  - destruct (@prob_some _ (fill sls (zeros sls)) (fun o' => occu_eqb o' o)) as (x & Hx & E).
    + rewrite P by auto. apply inv_nat_nz, ways_pos. intros sl Hsl. apply (lay_codes L _ Hsl).
    + apply occu_eqb_iff in E. subst x. auto.
Qed.
Print Assumptions C85_uniform.

(** The result decodes to allowed species, for the default sublattices of a processor. *)
Lemma encoding_default allowed spaces sl : In sl (get_sublattices allowed spaces) ->
  exists space, In space spaces /\ sl_space sl = space /\ sl_encoding sl = seq 0 (length space) /\
    (2 <= length space -> sl_active sl = sl_sites sl).
Proof.
  unfold get_sublattices. intros H. apply in_map_iff in H as (space & <- & Hs). exists space. split; auto.
  unfold mk_sublattice. destruct (Nat.leb_spec (length space) 1); cbn; split; auto; split; auto. lia.
Qed.

Lemma Forall2_nth_intro {A B} (R : A -> B -> Prop) : forall l m, length m = length l ->
  (forall i a b, nth_error l i = Some a -> nth_error m i = Some b -> R a b) -> Forall2 R l m.
Proof.
  induction l as [|x l IH]; intros [|y m] L H; try discriminate; constructor; auto.
  - apply (H 0); auto.
  - apply IH; [simpl in L; lia|]. intros i. apply (H (S i)).
Qed.

Lemma default_decodes allowed spaces o : allowed <> [] -> NoDup (map (map fst) spaces) ->
  (forall sps, In sps allowed -> In sps (map (map fst) spaces)) -> (forall sp : site_space, In sp spaces -> sp <> []) ->
  valid_occu (get_sublattices allowed spaces) (length allowed) o ->
  exists sps, decode_occupancy allowed o = Some sps /\ Forall2 (fun a sp => In sp a) allowed sps /\
    forall s a c, nth_error allowed s = Some a -> nth_error o s = Some c -> nth_error sps s = nth_error a c.
Proof.
  intros Ha Hn Hc Hs [Lo V].
  assert (K : forall s a, nth_error allowed s = Some a -> exists c, nth_error o s = Some c /\ c < length a).
  { intros s a E.
    destruct (default_layout Ha Hn Hc Hs) as [L KL].
    assert (Hin : In s (all_sites (get_sublattices allowed spaces))).
    { apply (layout_range s L). apply nth_error_Some. rewrite E. discriminate. }
    apply in_all_sites in Hin as (sl & Hsl & Hss). pose proof (KL _ _ Hsl Hss) as E'. rewrite E in E'. injection E' as ->.
    destruct (V _ _ Hsl Hss) as (c & Ec & Hcc). exists c. split; auto.
    destruct (encoding_default Hsl) as (space & _ & Es & Ee & _). rewrite Ee in Hcc. apply in_seq in Hcc.
    unfold sl_species. rewrite map_length, Es. lia. }
  destruct (decode_all Lo K) as (r & E & Lr & Hr). exists r. split; auto. split; auto.
  apply Forall2_nth_intro; [auto|]. intros i a sp Ea Esp. destruct (K _ _ Ea) as (c & Ec & _).
  rewrite (Hr _ _ _ Ea Ec) in Esp. apply nth_error_In in Esp. auto.
Qed.

(** The results decode to one allowed species per site, for default sublattices. *)
Theorem C85_decodes :
  forall allowed spaces, allowed <> [] -> NoDup (map (map fst) spaces) ->
    (forall sps, In sps allowed -> In sps (map (map fst) spaces)) -> (forall sp : site_space, In sp spaces -> sp <> []) ->
    forall o, outcome (gen_unconstrained (get_sublattices allowed spaces)) o ->
      exists sps, decode_occupancy allowed o = Some sps /\ Forall2 (fun a sp => In sp a) allowed sps.
Proof.
  intros allowed spaces Ha Hn Hc Hs o Ho.
  destruct (default_layout Ha Hn Hc Hs) as [L _].
  apply (proj1 (proj2 (C85_uniform L))) in Ho.
  destruct (default_decodes Ha Hn Hc Hs Ho) as (sps & H1 & H2 & _). eauto.
Qed.
Print Assumptions C85_decodes.

(** Sublattices of the examples: two sites with two species, one with three. *)
Definition ex_spaces : list site_space :=
  [ [(Sp 1, Qc_frac 1 2); (Sp 2, Qc_frac 1 2)]; [(Sp 3, Qc_frac 1 3); (Sp 4, Qc_frac 1 3); (Vac, Qc_frac 1 3)] ].
Definition ex_sites : list (list species) := [[Sp 1; Sp 2]; [Sp 3; Sp 4; Vac]; [Sp 1; Sp 2]].
Lemma ex_default : ex_sites <> [] /\ NoDup (map (map fst) ex_spaces) /\
  (forall sps, In sps ex_sites -> In sps (map (map fst) ex_spaces)) /\ (forall sp : site_space, In sp ex_spaces -> sp <> []).
Proof.
  split; [discriminate|]. split; [repeat constructor; simpl; intuition discriminate|]. split.
  - intros sps [<-|[<-|[<-|[]]]]; simpl; auto.
  - intros sp [<-|[<-|[]]]; discriminate.
Qed.
Example C85_case : layout (get_sublattices ex_sites ex_spaces) 3 /\
  number_of_occupancies (get_sublattices ex_sites ex_spaces) = 12 /\
  valid_occu (get_sublattices ex_sites ex_spaces) 3 [1; 2; 0] /\
  decode_occupancy ex_sites [1; 2; 0] = Some [Sp 2; Vac; Sp 1].
Proof.
  destruct ex_default as (H1 & H2 & H3 & H4). split; [apply (default_layout H1 H2 H3 H4)|]. split; [reflexivity|].
  split; [|reflexivity]. apply (default_valid H1 H2 H3 H4). repeat constructor.
Qed.

(** ** C86 *)
(** Charge of a species: zero for a vacancy. *)
Definition charge_of (oxi : species -> Qc) (sp : species) : Qc := if is_vac sp then 0%Qc else oxi sp.

Lemma get_charge_of oxi sp : get_charge oxi sp = charge_of oxi sp.
Proof. destruct sp; reflexivity. Qed.

Lemma index_of_seq c n : c < n -> index_of c (seq 0 n) = Some c.
Proof.
  intros H. destruct (@index_of_In c (seq 0 n)) as [i E]; [apply in_seq; lia|].
  pose proof (index_of_spec _ _ E) as E'. rewrite E.
  assert (Hi : i < n) by (rewrite <- (seq_length n 0); apply nth_error_Some; congruence).
  rewrite (nth_error_nth' _ 0) in E' by (rewrite seq_length; auto). rewrite seq_nth in E' by auto. simpl in E'. congruence.
Qed.

Lemma coded_default allowed spaces : coded (get_sublattices allowed spaces).
Proof. intros sl H. destruct (encoding_default H) as (space & _ & E & E' & _). rewrite E, E', seq_length. auto. Qed.

(** The charge that the generator computes is the total charge of the decoded occupancy. *)
Lemma charge_decoded oxi allowed spaces o sps : allowed <> [] -> NoDup (map (map fst) spaces) ->
  (forall sps, In sps allowed -> In sps (map (map fst) spaces)) -> (forall sp : site_space, In sp spaces -> sp <> []) ->
  valid_occu (get_sublattices allowed spaces) (length allowed) o -> decode_occupancy allowed o = Some sps ->
  charge oxi o (get_sublattices allowed spaces) = Some (qsum (map (charge_of oxi) sps)).
Proof.
  intros Ha Hn Hc Hs V E. destruct (default_layout Ha Hn Hc Hs) as [L KL].
  destruct (default_decodes Ha Hn Hc Hs V) as (sps' & E' & F & D). rewrite E in E'. injection E' as <-.
  pose proof (Forall2_length F) as Ls.
  rewrite (@charge_sum oxi _ (length allowed) o (fun s => charge_of oxi (nth s sps Vac)) L).
  - f_equal. f_equal. apply nth_ext with (d := 0%Qc) (d' := 0%Qc); rewrite !map_length, seq_length; auto.
    intros i Hi.
    rewrite nth_indep with (d' := charge_of oxi (nth 0 sps Vac)) by (rewrite map_length, seq_length; auto).
    rewrite (map_nth (fun s => charge_of oxi (nth s sps Vac))), seq_nth by auto.
    rewrite nth_indep with (l := map _ sps) (d' := charge_of oxi Vac) by (rewrite map_length; lia).
    rewrite map_nth. auto.
  - intros sl s Hsl Hss. pose proof (KL _ _ Hsl Hss) as Ea. destruct (proj2 V _ _ Hsl Hss) as (c & Ec & Hcc).
    unfold site_charge. rewrite Ec. cbn [option_bind].
    destruct (encoding_default Hsl) as (space & _ & Esp & Een & _). rewrite Een in *. apply in_seq in Hcc.
    rewrite index_of_seq by lia. cbn [option_bind]. pose proof (D _ _ _ Ea Ec) as X.
    destruct (nth_error sps s) as [sp|] eqn:Es.
    + rewrite <- X. cbn [option_bind]. rewrite get_charge_of. rewrite (nth_error_nth _ _ _ Es). auto.
    + symmetry in X. apply nth_error_None in X. unfold sl_species in X. rewrite map_length, Esp in X. lia.
Qed.

(** C86.  If the neutral generator returns an occupancy, then the occupancy has an allowed
    species on every site and total charge zero; whatever the draws. *)
Theorem C86_neutral :
  forall oxi allowed spaces lam ds initial o,
    allowed <> [] -> NoDup (map (map fst) spaces) ->
    (forall sps, In sps allowed -> In sps (map (map fst) spaces)) -> (forall sp : site_space, In sp spaces -> sp <> []) ->
    outcome (gen_unconstrained (get_sublattices allowed spaces)) initial ->
    gen_neutral oxi (get_sublattices allowed spaces) lam ds initial = Returned o ->
    exists sps, decode_occupancy allowed o = Some sps /\ Forall2 (fun a sp => In sp a) allowed sps /\
      qsum (map (charge_of oxi) sps) = 0%Qc.
Proof.
  intros oxi allowed spaces lam ds initial o Ha Hn Hc Hs Hi H.
  destruct (default_layout Ha Hn Hc Hs) as [L _]. apply (proj1 (proj2 (C85_uniform L))) in Hi.
  unfold gen_neutral in H. apply (attempts_returned L Hi) in H as [V E].
  destruct (default_decodes Ha Hn Hc Hs V) as (sps & D & F & _). exists sps. split; auto. split; auto.
  pose proof (charge_decoded oxi Ha Hn Hc Hs V D) as X. congruence.
Qed.
Print Assumptions C86_neutral.

(** One attempt: the draws pick an active sublattice, one of its sites and another code. *)
Definition picks (sls : list sublattice) (d : attempt) (occu : list nat) (site code : nat) : Prop :=
  exists sl cur, nth_error (filter is_active sls) (a_sl d) = Some sl /\ nth_error (sl_sites sl) (a_site d) = Some site /\
    nth_error occu site = Some cur /\
    nth_error (filter (fun c => negb (c =? cur)) (np_unique (sl_encoding sl))) (a_code d) = Some code.

Lemma flip_picks oxi sls lam d occu site code C C' : picks sls d occu site code ->
  charge oxi occu sls = Some C -> charge oxi (upd occu site code) sls = Some C' ->
  flip oxi sls lam d occu =
    Some (if Rltb (ln (a_u d)) (- lam * Q2R (this (C' * C' - C * C)%Qc)) && negb (Qceqb C 0) then (upd occu site code, C') else (occu, C)).
Proof. intros (sl & cur & E1 & E2 & E3 & E4) E5 E6. unfold flip. rewrite E1; cbn [option_bind]. rewrite E2; cbn [option_bind]. rewrite E3; cbn [option_bind]. rewrite E4; cbn [option_bind]. rewrite E5; cbn [option_bind]. rewrite E6; cbn [option_bind]. auto. Qed.

(** Draws that pick a given change of a site of an active sublattice. *)
Lemma picks_exists sls N sl site code occu u : layout sls N -> valid_occu sls N occu -> In sl sls -> is_active sl = true ->
  In site (sl_sites sl) -> In code (sl_encoding sl) -> nth_error occu site <> Some code -> (0 < u < 1)%R ->
  exists d, legal sls d /\ picks sls d occu site code /\ a_u d = u.
Proof.
  intros L V Hsl Hact Hs Hc Hne Hu. destruct (proj2 V _ _ Hsl Hs) as (cur & Ec & Hcur).
  destruct (In_nth_error _ _ (proj2 (filter_In is_active sl sls) (conj Hsl Hact))) as [i Ei].
  destruct (In_nth_error _ _ Hs) as [j Ej].
  assert (Hk : In code (filter (fun c => negb (c =? cur)) (np_unique (sl_encoding sl)))).
  { apply filter_In. split; [apply (proj2 (np_unique_In _ _)); auto|]. destruct (Nat.eqb_spec code cur); auto. congruence. }
  destruct (In_nth_error _ _ Hk) as [k Ek]. exists (mkAttempt i j k u). split; [|split; auto].
  - exists sl. split; auto. split; [apply nth_error_Some; simpl; congruence|]. split; auto.
    destruct (lay_codes L _ Hsl) as [Nc _]. pose proof (others_length Nc Hcur) as X.
    assert (k < length (filter (fun c => negb (c =? cur)) (np_unique (sl_encoding sl)))) by (apply nth_error_Some; congruence).
    simpl. lia.
  - exists sl, cur. auto.
Qed.

Definition differs (a b : list nat) (s : nat) : bool := negb (nth s a 0 =? nth s b 0).

Lemma differs_upd occu t N s : length occu = N -> length t = N -> s < N -> differs occu t s = true ->
  countb (differs (upd occu s (nth s t 0)) t) (seq 0 N) < countb (differs occu t) (seq 0 N).
Proof.
  intros Lo Lt Hs Hd.
  assert (P : Permutation (seq 0 N) (s :: filter (fun i => negb (i =? s)) (seq 0 N))).
  { apply NoDup_Permutation; [apply seq_NoDup| |].
    - constructor; [intros X; apply filter_In in X as [_ X]; rewrite Nat.eqb_refl in X; discriminate|]. apply NoDup_filter, seq_NoDup.
    - intros i. simpl. rewrite filter_In. destruct (Nat.eqb_spec i s) as [->|Hi]; simpl; [split; auto; intros _; apply in_seq; lia|].
      split; [auto|]. intros [E|[E _]]; auto. congruence. }
  rewrite !(countb_perm _ P). set (r := filter _ _). rewrite !countb_cons, Hd.
  assert (E1 : differs (upd occu s (nth s t 0)) t s = false).
  { unfold differs. erewrite nth_error_nth; [|apply nth_error_upd_eq; lia]. rewrite Nat.eqb_refl. auto. }
  rewrite E1. erewrite (@countb_ext _ (differs (upd occu s (nth s t 0)) t) (differs occu t)); [lia|].
  intros i Hi. apply filter_In in Hi as [Hi Hi']. destruct (Nat.eqb_spec i s); [discriminate|]. apply in_seq in Hi.
  unfold differs. f_equal. f_equal. apply nth_error_nth. rewrite nth_error_upd_neq by auto. apply nth_error_nth'. lia.
Qed.

Lemma small_u x : exists u, (0 < u < 1)%R /\ (ln u < x)%R.
Proof.
  exists (exp (Rmin x 0 - 1))%R. split; [split; [apply exp_pos|]|].
  - assert (H : (exp (Rmin x 0 - 1) < exp 0)%R) by (apply exp_increasing; pose proof (Rmin_r x 0); lra). rewrite exp_0 in H. lra.
  - rewrite ln_exp. pose proof (Rmin_l x 0). lra.
Qed.

(** There are draws for which the generator returns: at most one attempt per site and one. *)
Lemma reach oxi sls N lam t : layout sls N -> coded sls ->
  (forall sl, In sl sls -> sl_sites sl <> [] -> 2 <= length (sl_encoding sl) -> is_active sl = true) ->
  (exists sl, In sl sls /\ sl_sites sl <> [] /\ 2 <= length (sl_encoding sl)) ->
  valid_occu sls N t -> charge oxi t sls = Some 0%Qc ->
  forall n occu, countb (differs occu t) (seq 0 N) <= n -> valid_occu sls N occu ->
    exists ds o, length ds <= S n /\ (forall d, In d ds -> legal sls d) /\ attempts oxi sls lam ds occu = Returned o.
Proof.
  intros L C Hact Hex Vt Et. induction n as [n IH] using lt_wf_ind. intros occu Hn V.
  destruct (charge_defined oxi C V) as [q Eq]. destruct (Qceqb_spec q 0) as [->|Hq].
  - destruct Hex as (sl & Hsl & Hs & Hl). pose proof (Hact _ Hsl Hs Hl) as Ha.
    destruct (In_nth_error _ _ (proj2 (filter_In is_active sl sls) (conj Hsl Ha))) as [i Ei].
    pose (d := mkAttempt i 0 0 (1/2)).
    assert (Hd : legal sls d).
    { exists sl. split; auto. split; [destruct (sl_sites sl); [congruence|simpl; lia]|]. split; [simpl; lia|simpl; lra]. }
    exists [d], occu. split; [simpl; lia|]. split; [intros d' [<-|[]]; auto|].
    cbn [attempts]. rewrite (flip_neutral lam L C V Hd Eq). reflexivity.
  - assert (Hs : exists s, s < N /\ differs occu t s = true).
    { destruct (existsb (differs occu t) (seq 0 N)) eqn:E.
      - apply existsb_exists in E as (s & H1 & H2). apply in_seq in H1. exists s. split; auto; lia.
      - exfalso. apply Hq. assert (occu = t) as ->; [|congruence]. destruct V as [Lo _], Vt as [Lt _].
        apply nth_ext with (d := 0) (d' := 0); [lia|]. intros s Hs. destruct (Nat.eqb_spec (nth s occu 0) (nth s t 0)) as [|Hne]; auto.
        assert (existsb (differs occu t) (seq 0 N) = true); [|congruence]. apply existsb_exists. exists s. split; [apply in_seq; lia|].
        unfold differs. destruct (Nat.eqb_spec (nth s occu 0) (nth s t 0)); auto; congruence. }
    destruct Hs as (s & Hs & Hd). pose proof (proj2 (layout_range s L) Hs) as Hin. apply in_all_sites in Hin as (sl & Hsl & Hss).
    destruct (proj2 V _ _ Hsl Hss) as (c & Ec & Hc). destruct (proj2 Vt _ _ Hsl Hss) as (c' & Ec' & Hc').
    assert (Hne : c <> c').
    { intros ->. unfold differs in Hd. rewrite (nth_error_nth _ _ _ Ec), (nth_error_nth _ _ _ Ec'), Nat.eqb_refl in Hd. discriminate. }
    assert (Hl : 2 <= length (sl_encoding sl)).
    { destruct (lay_codes L _ Hsl) as [Nc _]. change 2 with (length [c; c']). apply NoDup_incl_length.
      - constructor; [intros [X|[]]; congruence|]. constructor; [simpl; tauto|constructor].
      - intros x [<-|[<-|[]]]; auto. }
    assert (Ha : is_active sl = true) by (apply Hact; auto; intros X; rewrite X in Hss; simpl in Hss; tauto).
    assert (V' : valid_occu sls N (upd occu s c')) by (eapply upd_valid; eauto).
    destruct (charge_defined oxi C V') as [q' Eq'].
    destruct (small_u (- lam * Q2R (this (q' * q' - q * q)%Qc))) as (u & Hu & Hu').
    destruct (@picks_exists sls N sl s c' occu u L V Hsl Ha Hss Hc') as (d & Ld & Pd & Ud); auto; [congruence|].
    pose proof (@flip_picks oxi sls lam d occu s c' q q' Pd Eq Eq') as F. rewrite Ud in F. unfold Rltb in F.
    destruct (Rlt_dec _ _) as [_|X] in F; [|tauto]. destruct (Qceqb_spec q 0) as [X|_] in F; [tauto|]. cbn [andb negb] in F.
    assert (Hm : countb (differs (upd occu s c') t) (seq 0 N) < countb (differs occu t) (seq 0 N)).
    { replace c' with (nth s t 0) by (apply nth_error_nth; auto). apply differs_upd; auto; [apply V|apply Vt]. }
    destruct (IH (countb (differs (upd occu s c') t) (seq 0 N))) with (occu := upd occu s c') as (ds & o & Hlen & Hds & R); auto; [lia|].
    destruct (Qceqb q' 0) eqn:E0.
    + exists [d], (upd occu s c'). split; [simpl; lia|]. split; [intros d' [<-|[]]; auto|]. cbn [attempts]. rewrite F, E0. auto.
    + exists (d :: ds), o. split; [simpl; lia|]. split; [intros d' [<-|]; auto|]. cbn [attempts]. rewrite F, E0. auto.
Qed.

(** Whatever legal draws: no exception but the time out, a neutral first occupancy is
    returned as it is, and a proposal that does not increase the absolute charge is always
    taken. *)
Theorem C86_attempts :
  forall oxi allowed spaces lam initial,
    allowed <> [] -> NoDup (map (map fst) spaces) ->
    (forall sps, In sps allowed -> In sps (map (map fst) spaces)) -> (forall sp : site_space, In sp spaces -> sp <> []) ->
    let sls := get_sublattices allowed spaces in
    outcome (gen_unconstrained sls) initial ->
    (forall ds, (forall d, In d ds -> legal sls d) -> gen_neutral oxi sls lam ds initial <> Raised) /\
    (forall d ds sps, legal sls d -> decode_occupancy allowed initial = Some sps -> qsum (map (charge_of oxi) sps) = 0%Qc ->
       gen_neutral oxi sls lam (d :: ds) initial = Returned initial) /\
    (forall d ds sps site code sps', legal sls d -> (0 <= lam)%R -> picks sls d initial site code ->
       decode_occupancy allowed initial = Some sps -> decode_occupancy allowed (upd initial site code) = Some sps' ->
       let C := qsum (map (charge_of oxi) sps) in let C' := qsum (map (charge_of oxi) sps') in
       C <> 0%Qc -> (C' * C' <= C * C)%Qc ->
       gen_neutral oxi sls lam (d :: ds) initial =
         if Qceqb C' 0 then Returned (upd initial site code) else gen_neutral oxi sls lam ds (upd initial site code)).
Proof.
  intros oxi allowed spaces lam initial Ha Hn Hc Hs sls Hi.
  destruct (default_layout Ha Hn Hc Hs) as [L _]. fold sls in L. apply (proj1 (proj2 (C85_uniform L))) in Hi.
  pose proof (@coded_default allowed spaces) as Cd. fold sls in Cd. split; [|split].
  - intros ds Hd. unfold gen_neutral. eapply attempts_defined; eauto.
  - intros d ds sps Hd D Z. unfold gen_neutral. cbn [attempts]. pose proof (charge_decoded oxi Ha Hn Hc Hs Hi D) as E. rewrite Z in E.
    rewrite (flip_neutral lam L Cd Hi Hd E). reflexivity.
  - intros d ds sps site code sps' Hd Hlam P D D' C C' HC Hle. unfold gen_neutral. cbn [attempts].
    pose proof (charge_decoded oxi Ha Hn Hc Hs Hi D) as E.
    assert (V' : valid_occu sls (length allowed) (upd initial site code)).
    { destruct P as (sl & cur & P1 & P2 & P3 & P4). apply nth_error_In, filter_In in P1 as [P1 _].
      apply nth_error_In, filter_In in P4 as [P4 _]. apply (proj1 (np_unique_In _ _)) in P4. apply nth_error_In in P2. eapply upd_valid; eauto. }
    pose proof (charge_decoded oxi Ha Hn Hc Hs V' D') as E'. fold sls in E, E'. fold C in E. fold C' in E'.
    rewrite (flip_picks lam P E E'). unfold Rltb.
    destruct (Rlt_dec _ _) as [_|X].
    + destruct (Qceqb_spec C 0) as [|_]; [tauto|]. cbn [andb negb]. auto.
    + exfalso. apply X. destruct Hd as (sl & _ & _ & _ & Hu).
      assert (ln (a_u d) < 0)%R by (rewrite <- ln_1; apply ln_increasing; lra).
      assert (Q2R (this (C' * C' - C * C)%Qc) <= 0)%R; [|nra].
      replace 0%R with (Q2R 0) by (unfold Q2R; simpl; lra). apply Qle_Rle.
      assert (X0 : (C' * C' - C * C <= 0)%Qc) by qclra. exact X0.
Qed.
Print Assumptions C86_attempts.

(** If some arrangement of allowed species is neutral, then from every first occupancy
    there are draws, for at most one attempt per site and one more, that make the generator return. *)
Theorem C86_reachable :
  forall oxi allowed spaces lam neutral initial,
    allowed <> [] -> NoDup (map (map fst) spaces) ->
    (forall sps, In sps allowed -> In sps (map (map fst) spaces)) -> (forall sp : site_space, In sp spaces -> sp <> []) ->
    (exists sps, In sps allowed /\ 2 <= length sps) ->
    Forall2 (fun a sp => In sp a) allowed neutral -> qsum (map (charge_of oxi) neutral) = 0%Qc ->
    outcome (gen_unconstrained (get_sublattices allowed spaces)) initial ->
    exists ds o, length ds <= S (length allowed) /\
      (forall d, In d ds -> legal (get_sublattices allowed spaces) d) /\
      gen_neutral oxi (get_sublattices allowed spaces) lam ds initial = Returned o.
Proof.
  intros oxi allowed spaces lam neutral initial Ha Hn Hc Hs Hex F Z Hi.
  destruct (default_layout Ha Hn Hc Hs) as [L KL]. apply (proj1 (proj2 (C85_uniform L))) in Hi.
  destruct (encode_decode F) as (t & _ & Ft & Dt). pose proof (default_valid Ha Hn Hc Hs Ft) as Vt.
  pose proof (charge_decoded oxi Ha Hn Hc Hs Vt Dt) as Et. rewrite Z in Et.
  apply (@reach oxi _ (length allowed) lam t L); auto; [exact (@coded_default allowed spaces)| | |].
  - intros sl Hsl Hss Hl. destruct (encoding_default Hsl) as (space & _ & _ & Ee & Eact). rewrite Ee, seq_length in Hl.
    unfold is_active. rewrite Eact by auto. destruct (sl_sites sl); [congruence|reflexivity].
  - destruct Hex as (sps & Hin & Hl). destruct (In_nth_error _ _ Hin) as [s Es].
    assert (Hr : In s (all_sites (get_sublattices allowed spaces))) by (apply (layout_range s L), nth_error_Some; congruence).
    apply in_all_sites in Hr as (sl & Hsl & Hss). exists sl. split; auto. split; [intros X; rewrite X in Hss; simpl in Hss; tauto|].
    pose proof (KL _ _ Hsl Hss) as E. rewrite Es in E. injection E as ->. destruct (encoding_default Hsl) as (space & _ & Esp & Ee & _).
    rewrite Ee, seq_length. unfold sl_species in Hl. rewrite map_length, Esp in Hl. auto.
  - etransitivity; [apply countb_le|]. rewrite seq_length. auto.
Qed.
Print Assumptions C86_reachable.

(** The first occupancy does not depend on the seed: the same draws of the seeded generator
    give different results. *)
Theorem C86_seed_refuted :
  exists oxi sls ds o1 o2, layout sls 2 /\ (forall d, In d ds -> legal sls d) /\
    outcome (gen_unconstrained sls) o1 /\ outcome (gen_unconstrained sls) o2 /\
    gen_neutral oxi sls 10 ds o1 <> gen_neutral oxi sls 10 ds o2.
Proof.
  exists (fun sp => match sp with Sp 1 => 1%Qc | _ => (-(1))%Qc end).
  exists (get_sublattices [[Sp 1; Sp 2]; [Sp 1; Sp 2]] [[(Sp 1, Qc_frac 1 2); (Sp 2, Qc_frac 1 2)]]).
  exists [mkAttempt 0 0 0 (1/2)], [0; 1], [1; 0].
  assert (H : layout (get_sublattices [[Sp 1; Sp 2]; [Sp 1; Sp 2]] [[(Sp 1, Qc_frac 1 2); (Sp 2, Qc_frac 1 2)]]) 2 /\
    forall enc, Forall2 (fun sps i => i < length sps) [[Sp 1; Sp 2]; [Sp 1; Sp 2]] enc ->
       valid_occu (get_sublattices [[Sp 1; Sp 2]; [Sp 1; Sp 2]] [[(Sp 1, Qc_frac 1 2); (Sp 2, Qc_frac 1 2)]]) 2 enc).
  { assert (H1 : [[Sp 1; Sp 2]; [Sp 1; Sp 2]] <> []) by discriminate.
    assert (H2 : NoDup (map (map fst) [[(Sp 1, Qc_frac 1 2); (Sp 2, Qc_frac 1 2)]])) by (repeat constructor; simpl; tauto).
    assert (H3 : forall sps, In sps [[Sp 1; Sp 2]; [Sp 1; Sp 2]] -> In sps (map (map fst) [[(Sp 1, Qc_frac 1 2); (Sp 2, Qc_frac 1 2)]])) by (intros sps [<-|[<-|[]]]; simpl; auto).
    assert (H4 : forall sp : site_space, In sp [[(Sp 1, Qc_frac 1 2); (Sp 2, Qc_frac 1 2)]] -> sp <> []) by (intros sp [<-|[]]; discriminate).
    split; [apply (default_layout H1 H2 H3 H4)|]. intros enc F. exact (default_valid H1 H2 H3 H4 F). }
  destruct H as [L V]. set (sls := get_sublattices _ _) in *.
  assert (Hd : legal sls (mkAttempt 0 0 0 (1/2))) by (eexists; split; [reflexivity|]; simpl; repeat split; try lia; lra).
  assert (V1 : valid_occu sls 2 [0; 1]) by (apply V; repeat constructor).
  assert (V2 : valid_occu sls 2 [1; 0]) by (apply V; repeat constructor).
  split; auto. split; [intros d [<-|[]]; auto|]. split; [apply (proj1 (proj2 (C85_uniform L))); auto|].
  split; [apply (proj1 (proj2 (C85_uniform L))); auto|].
  unfold gen_neutral. cbn [attempts].
  assert (Cd : coded sls) by apply coded_default.
  rewrite (flip_neutral 10 L Cd V1 Hd) by reflexivity. rewrite (flip_neutral 10 L Cd V2 Hd) by reflexivity.
  cbn. discriminate.
Qed.
Print Assumptions C86_seed_refuted.

(** With one species on every site the generator fails, although the only occupancy is
    neutral. *)
Theorem C86_fixed_refuted :
  exists allowed spaces neutral, layout (get_sublattices allowed spaces) (length allowed) /\
    Forall2 (fun a sp => In sp a) allowed neutral /\
    forall oxi, qsum (map (charge_of (fun sp => if sp_eqb sp (Sp 1) then oxi else (- oxi)%Qc)) neutral) = 0%Qc /\
    forall lam d ds initial, gen_neutral (fun sp => if sp_eqb sp (Sp 1) then oxi else (- oxi)%Qc) (get_sublattices allowed spaces) lam (d :: ds) initial = Raised.
Proof.
  exists [[Sp 1]; [Sp 2]], [[(Sp 1, 1%Qc)]; [(Sp 2, 1%Qc)]], [Sp 1; Sp 2]. split; [|split].
  - apply default_layout; try discriminate.
    + repeat constructor; simpl; intuition discriminate.
    + intros sps [<-|[<-|[]]]; simpl; auto.
    + intros sp [<-|[<-|[]]]; discriminate.
  - repeat constructor.
  - intros oxi. split; [unfold charge_of; simpl; ring|]. intros lam d ds initial. unfold gen_neutral. cbn [attempts].
    assert (E : forall i, nth_error (filter is_active (get_sublattices [[Sp 1]; [Sp 2]] [[(Sp 1, 1%Qc)]; [(Sp 2, 1%Qc)]])) i = None) by (intros [|i]; reflexivity).
    unfold flip. rewrite E. reflexivity.
Qed.
Print Assumptions C86_fixed_refuted.

(** Li+ or Mn3+ on two sites with O2- or a vacancy: the occupancy Li+ Li+ O2- is neutral. *)
Example C86_case :
  let oxi := fun sp => match sp with Sp 1 => 1%Qc | Sp 2 => Qc_of_Z 3 | _ => Qc_of_Z (-2) end in
  (exists sps, In sps ex_sites /\ 2 <= length sps) /\
  Forall2 (fun a sp => In sp a) ex_sites [Sp 1; Sp 3; Sp 1] /\ qsum (map (charge_of oxi) [Sp 1; Sp 3; Sp 1]) = 0%Qc /\
  outcome (gen_unconstrained (get_sublattices ex_sites ex_spaces)) [1; 2; 0] /\
  legal (get_sublattices ex_sites ex_spaces) (mkAttempt 0 1 0 (1/2)) /\
  picks (get_sublattices ex_sites ex_spaces) (mkAttempt 0 1 0 (1/2)) [1; 2; 0] 2 1.
Proof.
  intros oxi. split; [exists [Sp 1; Sp 2]; split; [left; auto|simpl; lia]|]. split; [repeat constructor; simpl; auto|].
  split; [apply Qc_is_canon; reflexivity|]. destruct C85_case as (L & _ & V & _).
  split; [apply (proj1 (proj2 (C85_uniform L))); auto|]. split.
  - eexists. split; [reflexivity|]. simpl. repeat split; try lia; lra.
  - exists (mk_sublattice [(Sp 1, Qc_frac 1 2); (Sp 2, Qc_frac 1 2)] [0; 2]), 0. repeat split.
Qed.

(** ** C87 *)
(** Fraction of a species that a composition asks for: what is listed, and for a vacancy
    what is missing to one. *)
Definition listed (c : composition) (sp : species) : Qc := qsum (map (fun p => if sp_eqb (fst p) sp then snd p else 0%Qc) c).
Definition fraction (c : composition) (sp : species) : Qc :=
  if is_vac sp then (listed c Vac + (1 - num_atoms c))%Qc else listed c sp.

(** A composition that suits a sublattice: distinct allowed species with positive amounts,
    adding up to one, or to less if vacancies make up the rest (the code takes 0.99 as one),
    and numbers [ks] of the sublattice's species, at least one each, that the composition
    gives within [tol]. *)
Record suits (tol : Qc) (sl : sublattice) (c : composition) (ks : list nat) : Prop := {
  su_keys : NoDup (map fst c);
  su_allowed : forall sp x, In (sp, x) c -> In sp (sl_species sl) /\ (0 < x)%Qc;
  su_total : num_atoms c = 1%Qc \/ (num_atoms c < Qc_frac 99 100)%Qc /\ ~ In Vac (map fst c);
  su_numbers : Forall2 (fun sp k => 1 <= k /\
      (- tol <= Qc_of_nat (length (sl_sites sl)) * fraction c sp - Qc_of_nat k <= tol)%Qc) (sl_species sl) ks;
  su_sum : list_sum ks = length (sl_sites sl)
}.

(** Amounts beyond one are normalised. *)
Definition portions (given c : composition) : Prop :=
  (num_atoms given <= 1)%Qc /\ c = given \/
  (1 < num_atoms given)%Qc /\ c = map (fun p => (fst p, snd p / num_atoms given)%Qc) given.
(** The compositions that an argument stands for; a tuple must be normalised already. *)
Inductive stands_for : comp_arg -> list composition -> Prop :=
| st_one given c : portions given c -> stands_for (OneComp given) [c]
| st_list gs cs : Forall2 portions gs cs -> stands_for (CompList gs) cs
| st_tuple cs : Forall (fun c => (num_atoms c <= 1)%Qc) cs -> stands_for (CompTuple cs) cs.

(** The occupancy has [ks] sites of each code on every sublattice. *)
Definition numbers (sls : list sublattice) (kss : list (list nat)) (o : list nat) : Prop :=
  Forall2 (fun sl ks => Forall2 (fun c k =>
    length (filter (fun s => match nth_error o s with Some c' => c' =? c | None => false end) (sl_sites sl)) = k)
    (sl_encoding sl) ks) sls kss.

Lemma listed_in c sp x : NoDup (map fst c) -> In (sp, x) c -> listed c sp = x.
Proof.
  unfold listed. induction c as [|[k v] c IH]; intros Nd H; [inversion H|]. cbn [map fst qsum snd] in *.
  assert (N1 : ~ In k (map fst c)) by (inversion Nd; auto). assert (N2 : NoDup (map fst c)) by (inversion Nd; auto).
  assert (Z : forall sp', ~ In sp' (map fst c) -> qsum (map (fun p => if sp_eqb (fst p) sp' then snd p else 0%Qc) c) = 0%Qc).
  { clear. intros sp' H. induction c as [|[k v] c IH]; auto. cbn [map fst snd qsum] in *. destruct (sp_eqb_spec k sp') as [->|_]; [exfalso; apply H; left; auto|].
    rewrite IH; [ring|]. intros X; apply H; right; auto. }
  destruct H as [E|H].
  - injection E as -> ->. destruct (sp_eqb_spec sp sp); [|congruence]. rewrite Z by auto. ring.
  - destruct (sp_eqb_spec k sp) as [->|_]; [exfalso; apply N1, in_map_iff; exists (sp, x); auto|]. rewrite IH by auto. ring.
Qed.
Lemma listed_out c sp : ~ In sp (map fst c) -> listed c sp = 0%Qc.
Proof.
  unfold listed. intros H. induction c as [|[k v] c IH]; auto. cbn [map fst snd qsum] in *.
  destruct (sp_eqb_spec k sp) as [->|_]; [exfalso; apply H; left; auto|]. rewrite IH; [ring|]. intros X; apply H; right; auto.
Qed.

Lemma space_get_in space sp x : NoDup (map fst space) -> In (sp, x) space -> space_get space sp = Some x.
Proof.
  induction space as [|[k v] space IH]; intros Nd H; [inversion H|]. cbn [map fst space_get] in *.
  assert (N1 : ~ In k (map fst space)) by (inversion Nd; auto). assert (N2 : NoDup (map fst space)) by (inversion Nd; auto).
  destruct H as [E|H].
  - injection E as -> ->. destruct (sp_eqb_spec sp sp); congruence.
  - destruct (sp_eqb_spec k sp) as [->|_]; [exfalso; apply N1, in_map_iff; exists (sp, x); auto|]. auto.
Qed.

Lemma suits_space leb tol sl c ks : suits tol sl c ks ->
  exists space, mk_site_space leb c = Some space /\
    forall sp, In sp (map fst c) \/ sp = Vac /\ num_atoms c <> 1%Qc -> space_get space sp = Some (fraction c sp).
Proof.
  intros [Nd Ha Ht _ _]. unfold mk_site_space.
  assert (P0 : (0 <= num_atoms c)%Qc) by (apply qsum_nonneg; intros x Hx; apply in_map_iff in Hx as ([s y] & <- & Hin); apply Qclt_le_weak, (Ha _ _ Hin)).
  assert (P99 : (Qc_frac 99 100 < 1)%Qc) by reflexivity.
  assert (P1 : (num_atoms c <= 1)%Qc) by (destruct Ht as [->|[H _]]; [apply Qcle_refl|apply Qclt_le_weak; qclra]).
  destruct (Qcltb_spec (num_atoms c) 0) as [X|_]; [exfalso; apply (Qclt_not_le _ _ X); auto|].
  destruct (Qcltb_spec 1 (num_atoms c)) as [X|_]; [exfalso; apply (Qclt_not_le _ _ X); auto|]. cbn [orb].
  assert (Hv : existsb (fun p => is_vac (fst p)) c && negb (Qceqb (num_atoms c) 1) = false).
  { destruct (Qceqb_spec (num_atoms c) 1) as [E|Hne]; [apply andb_false_r|]. rewrite andb_true_r.
    destruct Ht as [|[_ Hv]]; [tauto|]. destruct (existsb _ c) eqn:E; auto. exfalso. apply existsb_exists in E as ([s y] & Hin & E).
    destruct s; [discriminate|]. apply Hv, in_map_iff. exists (Vac, y). auto. }
  rewrite Hv. eexists. split; [reflexivity|].
  pose proof (Permutation_map fst (sort_by_perm (fun p q : species * Qc => leb (fst p) (fst q)) c)) as Pk.
  assert (Ns : NoDup (map fst (sort_by (fun p q : species * Qc => leb (fst p) (fst q)) c))).
  { eapply Permutation_NoDup; [exact Pk|auto]. }
  assert (Hs : forall sp, In sp (map fst c) -> (sp = Vac -> num_atoms c = 1%Qc) -> In (sp, fraction c sp) (sort_by (fun p q : species * Qc => leb (fst p) (fst q)) c)).
  { intros sp Hsp Hone. apply in_map_iff in Hsp as ([sp' x] & E & Hin). simpl in E. subst sp'.
    assert (fraction c sp = x) as ->.
    { unfold fraction. rewrite <- (listed_in Nd Hin). destruct sp; cbn [is_vac]; auto. rewrite Hone by auto. ring. }
    eapply Permutation_in; [apply sort_by_perm|auto]. }
  fold q099 in *. change (Qc_frac 99 100) with q099 in *. intros sp Hsp.
  destruct (Qcltb_spec (num_atoms c) q099) as [Hlt|Hge].
  - assert (Hne : num_atoms c <> 1%Qc) by (intros E; rewrite E in Hlt; qclra).
    destruct Ht as [|[_ Hvac]]; [tauto|].
    assert (Nd2 : NoDup (map fst (sort_by (fun p q : species * Qc => leb (fst p) (fst q)) c ++ [(Vac, (1 - num_atoms c)%Qc)]))).
    { rewrite map_app. apply NoDup_app_intro; auto; [repeat constructor; simpl; tauto|]. intros x Hx [<-|[]]. apply Hvac.
      eapply Permutation_in; [symmetry; exact Pk|auto]. }
    apply space_get_in; auto. apply in_or_app. destruct Hsp as [Hsp|[-> _]].
    + left. apply Hs; auto. intros ->; tauto.
    + right. left. unfold fraction. cbn [is_vac]. rewrite listed_out by auto. f_equal. ring.
  - destruct Ht as [H1|[Hx _]]; [|tauto]. destruct Hsp as [Hsp|[_ Hx]]; [|tauto]. apply space_get_in; auto.
Qed.

Lemma round_within tol x k : (0 <= tol)%Qc -> (tol < Qc_frac 1 2)%Qc -> (- tol <= x - Qc_of_nat k <= tol)%Qc -> qround x = Z.of_nat k.
Proof.
  intros H0 H1 [H2 H3]. apply qround_unique. replace (Qc_of_Z (Z.of_nat k)) with (Qc_of_nat k) by reflexivity. split; qclra.
Qed.

Lemma Forall2_imp_in {A B} (R S : A -> B -> Prop) l m : (forall a b, In a l -> In b m -> R a b -> S a b) -> Forall2 R l m -> Forall2 S l m.
Proof.
  intros H F. induction F as [|a b l m r F IH]; constructor; [apply H; simpl; auto|]. apply IH. intros; apply H; simpl; auto.
Qed.

Lemma Forall2_combine_l {A B C} (R : A -> C -> Prop) : forall (l : list A) (m : list B) ks, length l = length m ->
  Forall2 R l ks -> Forall2 (fun it k => R (fst it) k) (combine l m) ks.
Proof.
  induction l as [|x l IH]; intros [|y m] ks L F; try discriminate; simpl; inversion F; subst; constructor; auto.
Qed.

(** Every species of the sublattice is listed or a vacancy that makes up the rest. *)
Lemma suits_present tol sl c ks sp k : (0 <= tol)%Qc -> (tol < Qc_frac 1 2)%Qc -> suits tol sl c ks ->
  1 <= k -> (- tol <= Qc_of_nat (length (sl_sites sl)) * fraction c sp - Qc_of_nat k <= tol)%Qc ->
  In sp (map fst c) \/ sp = Vac /\ num_atoms c <> 1%Qc.
Proof.
  intros T0 T1 Su Hk [H1 _]. destruct (in_dec (fun a b : species => reflect_dec _ _ (sp_eqb_spec a b)) sp (map fst c)) as [|Hn]; auto.
  right. destruct (Qceqb_spec (num_atoms c) 1) as [E|Hne].
  - exfalso. assert (Z : fraction c sp = 0%Qc) by (unfold fraction; destruct sp; cbn [is_vac]; rewrite listed_out by auto; auto; rewrite E; ring).
    rewrite Z in H1. replace (Qc_of_nat (length (sl_sites sl)) * 0)%Qc with 0%Qc in H1 by ring.
    assert (1 <= Qc_of_nat k)%Qc by (change 1%Qc with (Qc_of_Z 1); change (Qc_of_nat k) with (Qc_of_Z (Z.of_nat k)); apply (proj1 (Qc_of_Z_le _ _)); lia). assert (Qc_frac 1 2 < 1)%Qc by reflexivity. qclra.
  - split; auto. destruct sp; auto. exfalso.
    assert (Z : fraction c (Sp n) = 0%Qc) by (unfold fraction; cbn [is_vac]; rewrite listed_out; auto).
    rewrite Z in H1. replace (Qc_of_nat (length (sl_sites sl)) * 0)%Qc with 0%Qc in H1 by ring.
    assert (1 <= Qc_of_nat k)%Qc by (change 1%Qc with (Qc_of_Z 1); change (Qc_of_nat k) with (Qc_of_Z (Z.of_nat k)); apply (proj1 (Qc_of_Z_le _ _)); lia). assert (Qc_frac 1 2 < 1)%Qc by reflexivity. qclra.
Qed.

Lemma suits_ready leb tol sl c ks : (0 <= tol)%Qc -> (tol < Qc_frac 1 2)%Qc -> suits tol sl c ks ->
  NoDup (sl_encoding sl) -> length (sl_encoding sl) = length (sl_space sl) -> ready1 leb c sl ks.
Proof.
  intros T0 T1 Su Ne El. destruct (suits_space leb Su) as (space & E & G). exists space. split; auto.
  assert (El' : length (sl_species sl) = length (sl_encoding sl)) by (unfold sl_species; rewrite map_length; auto).
  split; [|split; [apply (su_sum Su)|split; [|auto]]].
  - apply (@Forall2_combine_l _ _ _ (fun sp k => exists x, space_get space sp = Some x /\ qround (x * Qc_of_nat (length (sl_sites sl)))%Qc = Z.of_nat k)); auto.
    eapply Forall2_imp_in; [|exact (su_numbers Su)]. intros sp k Hsp _ [Hk Hw]. exists (fraction c sp). split.
    + apply G. eapply suits_present; eauto.
    + eapply round_within; eauto. rewrite Qcmult_comm. auto.
  - pose proof (su_numbers Su) as F. clear - F. induction F as [|sp k l ks [H _] F IH]; simpl; [tauto|]. intros k' [<-|H']; auto.
Qed.

Lemma Forall2_nth_l {A B} (R : A -> B -> Prop) l m : Forall2 R l m ->
  forall i a, nth_error l i = Some a -> exists b, nth_error m i = Some b /\ R a b.
Proof.
  intros F. induction F as [|x y l m r F IH]; intros [|i] a H; try discriminate; simpl in *; eauto.
  injection H as <-. eauto.
Qed.

(** The listed species are different ones of the sublattice, so they take at most all sites. *)
Lemma total_le (g : Qc -> Z) : forall (sps : list species) ks c, NoDup (map fst c) -> (forall sp, In sp (map fst c) -> In sp sps) ->
  Forall2 (fun sp k => forall x, In (sp, x) c -> g x = Z.of_nat k) sps ks ->
  (zsum (map (fun p => g (snd p)) c) <= Z.of_nat (list_sum ks))%Z.
Proof.
  induction sps as [|sp sps IH]; intros ks c Nd Hin F; inversion F as [|? k ? ks' Hk F']; subst.
  - destruct c as [|p c]; [simpl; reflexivity|]. exfalso. apply (Hin (fst p)). left; auto.
  - change (list_sum (k :: ks')) with (k + list_sum ks').
    destruct (in_dec (fun a b : species => reflect_dec _ _ (sp_eqb_spec a b)) sp (map fst c)) as [Hs|Hs].
    + apply in_map_iff in Hs as ([sp' x] & E & Hc). simpl in E. subst sp'. pose proof (Hk _ Hc) as Ex.
      apply in_split in Hc as (c1 & c2 & ->). rewrite map_app in *. cbn [map fst snd] in *. rewrite zsum_app. cbn [zsum fold_right].
      pose proof (NoDup_remove_1 _ _ _ Nd) as Nd1. pose proof (NoDup_remove_2 _ _ _ Nd) as Nd2.
      assert (X : (zsum (map (fun p => g (snd p)) (c1 ++ c2)) <= Z.of_nat (list_sum ks'))%Z).
      { apply IH; [rewrite map_app; auto| |].
        - intros s Hs. rewrite map_app in Hs. destruct (Hin s) as [->|]; auto; [|tauto]. apply in_app_or in Hs. apply in_or_app. simpl. tauto.
        - eapply Forall2_imp_in; [|exact F']. intros a b _ _ H y Hy. apply H. apply in_app_or in Hy. apply in_or_app. simpl. tauto. }
      rewrite map_app, zsum_app in X. unfold zsum in *. simpl. lia.
    + assert (X : (zsum (map (fun p => g (snd p)) c) <= Z.of_nat (list_sum ks'))%Z); [|lia].
      apply IH; auto. intros s Hs'. destruct (Hin s Hs') as [->|]; auto. tauto.
Qed.

Lemma suits_size tol sl c ks : (0 <= tol)%Qc -> (tol < Qc_frac 1 2)%Qc -> suits tol sl c ks ->
  size_ok tol (length (sl_sites sl)) c = true.
Proof.
  intros T0 T1 Su. pose proof (su_keys Su) as Nd. pose proof (su_allowed Su) as Ha.
  assert (Hf : forall sp x, In (sp, x) c -> fraction c sp = x).
  { intros sp x Hin. unfold fraction. destruct sp; cbn [is_vac]; [apply listed_in; auto|]. rewrite (listed_in Nd Hin).
    destruct (su_total Su) as [->|[_ Hv]]; [ring|]. exfalso. apply Hv, in_map_iff. exists (Vac, x). auto. }
  assert (Hr : forall sp k x, 1 <= k /\ (- tol <= Qc_of_nat (length (sl_sites sl)) * fraction c sp - Qc_of_nat k <= tol)%Qc -> In (sp, x) c ->
     qround (amount (length (sl_sites sl)) x) = Z.of_nat k /\ (- tol <= amount (length (sl_sites sl)) x - Qc_of_nat k <= tol)%Qc).
  { intros sp k x [_ Hw] Hin. rewrite (Hf _ _ Hin) in Hw. unfold amount. split; auto. eapply round_within; eauto. }
  unfold size_ok. apply andb_true_iff. split.
  - apply forallb_forall. intros [sp x] Hin. cbn [snd].
    destruct (In_nth_error _ _ (proj1 (Ha _ _ Hin))) as [i Ei]. destruct (Forall2_nth_l (su_numbers Su) Ei) as (k & _ & Hk).
    destruct (Hr _ _ _ Hk Hin) as [-> [H1 H2]].
    replace (Qc_of_Z (Z.of_nat k)) with (Qc_of_nat k) by reflexivity.
    destruct (Qcltb_spec tol (qabs (Qc_of_nat k - amount (length (sl_sites sl)) x))) as [X|]; auto. exfalso.
    unfold qabs in X. destruct (Qcltb_spec (Qc_of_nat k - amount (length (sl_sites sl)) x) 0) as [Y|Y]; qclra.
  - assert (X : (zsum (map (fun p => qround (amount (length (sl_sites sl)) (snd p))) c) <= Z.of_nat (list_sum ks))%Z).
    { apply (@total_le (fun x => qround (amount (length (sl_sites sl)) x)) (sl_species sl)); auto.
      - intros sp Hsp. apply in_map_iff in Hsp as ([sp' x] & <- & Hin). apply (Ha _ _ Hin).
      - eapply Forall2_imp_in; [|exact (su_numbers Su)]. intros sp k _ _ H x Hin. apply (Hr _ _ _ H Hin). }
    rewrite (su_sum Su) in X.
    destruct (Qcltb_spec (Qc_of_nat (length (sl_sites sl)) + tol) (Qc_of_Z (zsum (map (fun p => qround (amount (length (sl_sites sl)) (snd p))) c)))) as [Y|]; auto.
    exfalso. apply (proj1 (Qc_of_Z_le _ _)) in X. replace (Qc_of_Z (Z.of_nat (length (sl_sites sl)))) with (Qc_of_nat (length (sl_sites sl))) in X by reflexivity. qclra.
Qed.

Lemma portions_keys g c : portions g c -> map fst c = map fst g.
Proof. intros [[_ ->]|[_ ->]]; auto. rewrite map_map. auto. Qed.

Lemma normalise_ok mutable tol : forall gs cs sls kss, Forall2 portions gs cs ->
  (mutable = false -> Forall (fun c => (num_atoms c <= 1)%Qc) gs) -> length cs = length sls ->
  Forall2 (fun p ks => suits tol (snd p) (fst p) ks) (combine cs sls) kss -> normalise mutable gs sls = Some cs.
Proof.
  induction gs as [|g gs IH]; intros cs sls kss F Hm L K; inversion F as [|? c ? cs' Pc F']; subst; [auto|].
  destruct sls as [|sl sls]; [discriminate|]. cbn [combine] in K. inversion K as [|? ks ? kss' Su K']; subst. cbn [normalise].
  assert (X : existsb (fun p => negb (in_space (sl_space sl) (fst p))) g = false).
  { destruct (existsb _ g) eqn:E; auto. exfalso. apply existsb_exists in E as (p & Hp & E).
    assert (Hk : In (fst p) (map fst c)) by (rewrite (portions_keys Pc); apply in_map; auto).
    apply in_map_iff in Hk as ([sp x] & Ek & Hin). simpl in Ek. destruct (su_allowed Su Hin) as [Hs _].
    unfold sl_species in Hs. apply in_map_iff in Hs as (q & Eq & Hq).
    assert (in_space (sl_space sl) (fst p) = true); [|rewrite H in E; discriminate].
    unfold in_space. apply existsb_exists. exists q. split; auto. destruct (sp_eqb_spec (fst q) (fst p)); auto. simpl in Eq. congruence. }
  rewrite X. assert (Y : Qcltb 1 (num_atoms g) && negb mutable = false).
  { destruct mutable; [apply andb_false_r|]. rewrite andb_true_r. specialize (Hm eq_refl). apply Forall_inv in Hm.
    destruct (Qcltb_spec 1 (num_atoms g)) as [Z|]; auto. exfalso. apply (Qclt_not_le _ _ Z). auto. }
  rewrite Y. rewrite (IH cs' sls kss'); auto.
  - cbn [option_bind]. f_equal. f_equal. destruct Pc as [[H ->]|[H ->]]; destruct (Qcltb_spec 1 (num_atoms g)) as [Z|Z]; auto; [|tauto].
    exfalso. apply (Qclt_not_le _ _ Z). auto.
  - intros E. specialize (Hm E). inversion Hm; auto.
Qed.

Lemma compatibility_ok tol sls arg cs kss : (0 <= tol)%Qc -> (tol < Qc_frac 1 2)%Qc -> stands_for arg cs -> length cs = length sls ->
  Forall2 (fun p ks => suits tol (snd p) (fst p) ks) (combine cs sls) kss -> compatibility tol sls arg = Some cs.
Proof.
  intros T0 T1 A L K. unfold compatibility.
  assert (X : match arg with OneComp c => normalise true [c] sls | CompList cs => normalise true cs sls | CompTuple cs => normalise false cs sls end = Some cs).
  { inversion A; subst; eapply normalise_ok; eauto; try discriminate.
    clear - H. induction H as [|c cs H F IH]; constructor; auto. left; auto. }
  rewrite X. cbn [option_bind].
  assert (Y : forallb (fun p => size_ok tol (length (sl_sites (snd p))) (fst p)) (combine cs sls) = true); [|rewrite Y; auto].
  apply forallb_forall. intros p Hp. destruct (In_nth_error _ _ Hp) as [i Ei]. destruct (Forall2_nth_l K Ei) as (ks & _ & Su).
  eapply suits_size; eauto.
Qed.

Lemma all_ready leb tol : forall cs sls kss, (0 <= tol)%Qc -> (tol < Qc_frac 1 2)%Qc -> length cs = length sls ->
  (forall sl, In sl sls -> NoDup (sl_encoding sl)) -> coded sls ->
  Forall2 (fun p ks => suits tol (snd p) (fst p) ks) (combine cs sls) kss -> ready leb cs sls kss.
Proof.
  induction cs as [|c cs IH]; intros [|sl sls] kss T0 T1 L Ne Cd K; try discriminate; cbn [combine] in K; inversion K as [|? ks ? kss' Su K']; subst; cbn [ready]; auto.
  split.
  - eapply suits_ready; eauto; [apply Ne|apply Cd]; left; auto.
  - apply IH; auto; [intros; apply Ne; right; auto|intros sl' H; apply Cd; right; auto].
Qed.

(** The probability of one arrangement: for every sublattice, the product of the factorials
    of the numbers over the factorial of the number of sites. *)
Definition chance (sls : list sublattice) (kss : list (list nat)) : Qc :=
  fold_right Qcmult 1%Qc (map (fun p => (fold_right Qcmult 1%Qc (map (fun k => Qc_of_nat (fact k)) (snd p)) /
    Qc_of_nat (fact (length (sl_sites (fst p)))))%Qc) (combine sls kss)).

Lemma share_chance sls kss : share sls kss = chance sls kss.
Proof. reflexivity. Qed.

(** C87.  For compositions that suit the sublattices the generator never fails; the results
    are exactly the occupancies with the asked numbers of every species on every sublattice,
    and all of them are equally likely. *)
Theorem C87_counts_partial :
  forall leb tol sls N arg cs kss,
    layout sls N -> (forall sl, In sl sls -> length (sl_encoding sl) = length (sl_space sl)) ->
    (0 <= tol)%Qc -> (tol < Qc_frac 1 2)%Qc -> stands_for arg cs -> length cs = length sls ->
    Forall2 (fun p ks => suits tol (snd p) (fst p) ks) (combine cs sls) kss ->
    never_raises (gen_composition leb tol sls arg) /\
    (forall o, outcome (gen_composition leb tol sls arg) o <-> valid_occu sls N o /\ numbers sls kss o) /\
    (forall o, valid_occu sls N o -> numbers sls kss o ->
       prob (gen_composition leb tol sls arg) (fun o' => occu_eqb o' o) = chance sls kss /\ (0 < chance sls kss)%Qc).
Proof.
  intros leb tol sls N arg cs kss L Cd T0 T1 A Lc K. unfold gen_composition.
  rewrite (compatibility_ok T0 T1 A Lc K). cbn [of_opt].
  assert (Ne : forall sl, In sl sls -> NoDup (sl_encoding sl)) by (intros sl Hsl; apply (lay_codes L _ Hsl)).
  pose proof (all_ready leb T0 T1 Lc Ne Cd K) as Rd.
  assert (Nd : NoDup (all_sites sls)) by (eapply layout_nodup; eauto).
  assert (R : forall s, In s (all_sites sls) -> s < length (zeros sls)) by (intros s Hs; rewrite (zeros_length L); apply (layout_range s L); auto).
  assert (P : forall o, valid_occu sls N o -> numbers sls kss o -> prob (place_all leb cs sls (zeros sls)) (fun o' => occu_eqb o' o) = chance sls kss).
  { intros o V T. rewrite <- share_chance. eapply place_all_prob; eauto. apply (filled_valid o L); auto. }
  assert (Pos : (0 < chance sls kss)%Qc).
  { rewrite <- share_chance. unfold share. clear. induction (combine sls kss) as [|p l IH]; [reflexivity|]. cbn [map fold_right].
    assert (M : forall a b, (0 < a)%Qc -> (0 < b)%Qc -> (0 < a * b)%Qc) by (intros a b Ha Hb; rewrite <- (Qcmult_0_l b); apply Qcmult_lt_compat_r; auto).
    pose proof qfact_pos as F.
    assert (G : (0 < facts (snd p))%Qc).
    { unfold facts. induction (snd p) as [|k ks IHk]; [reflexivity|]. cbn [map fold_right]. apply M; auto. }
    apply M; auto. apply Qcdiv_gt_iff; auto. }
  split; [|split].
  - apply never_raises_bind; [apply never_raises_ret|]. intros x Hx. apply outcome_ret in Hx. subst x. eapply place_all_total; eauto.
  - intros o. split; intros H.
    + apply outcome_bind in H as (x & Hx & H). apply outcome_ret in Hx. subst x.
      apply (place_all_sound Nd Rd) in H as [F T]. split; auto. apply (filled_valid o L); auto.
    + destruct H as [V T]. destruct (@prob_some _ (place_all leb cs sls (zeros sls)) (fun o' => occu_eqb o' o)) as (x & Hx & E).
      * rewrite P by auto. intros Z. rewrite Z in Pos. discriminate.
      * apply occu_eqb_iff in E. subst x. apply outcome_bind. exists cs. split; [|auto]. apply outcome_ret. auto.
  - intros o V T. split; auto. rewrite prob_bind. unfold pret. cbn [map qsum fst snd]. rewrite P by auto. ring.
Qed.
Print Assumptions C87_counts_partial.

(** The sublattices of the counterexamples: [n] sites with the given species. *)
Definition same_sites (n : nat) (sps : list species) : list sublattice :=
  get_sublattices (repeat sps n) [map (fun sp => (sp, (1 / Qc_of_nat (length sps))%Qc)) sps].
Lemma same_sites_layout n sps : n <> 0 -> sps <> [] -> layout (same_sites n sps) n.
Proof.
  intros Hn H. unfold same_sites. replace n with (length (repeat sps n)) at 2 by apply repeat_length. apply default_layout.
  - destruct n; [congruence|discriminate].
  - simpl. constructor; [simpl; tauto|constructor].
  - intros s Hs. apply repeat_spec in Hs. subst s. simpl. left. rewrite map_map. simpl. apply map_id.
  - intros sp [<-|[]]. destruct sps; [congruence|discriminate].
Qed.
Lemma outcome_list {A} (m : prog A) x : outcome m x <-> In (Some x) (map snd m).
Proof.
  unfold outcome. rewrite in_map_iff. split.
  - intros (w & H). exists (w, Some x). auto.
  - intros ([w y] & E & H). simpl in E. subst y. eauto.
Qed.

(** A species of the sublattice that the composition does not list makes the generator fail,
    although an occupancy of that composition exists: the end members. *)
Theorem C87_end_member_refuted :
  exists leb sls o, layout sls 2 /\ valid_occu sls 2 o /\ numbers sls [[2; 0]] o /\
    forall o', ~ outcome (gen_composition leb (Qc_frac 1 1000000) sls (CompList [[(Sp 1, 1%Qc)]])) o'.
Proof.
  exists (fun _ _ => true), (same_sites 2 [Sp 1; Sp 2]), [0; 0]. split; [apply same_sites_layout; discriminate|]. split; [|split].
  - split; auto. intros sl s [<-|[]] Hs. exists 0. split; [|left; auto]. simpl in Hs. destruct Hs as [<-|[<-|[]]]; auto.
  - repeat constructor.
  - intros o' H. apply outcome_list in H. vm_compute in H. intuition discriminate.
Qed.
Print Assumptions C87_end_member_refuted.

(** A composition that leaves sites empty is accepted by a sublattice without vacancies, and
    the rest gets the first species: one Li and one Mn in four sites give three Li. *)
Theorem C87_short_refuted :
  exists leb sls, layout sls 4 /\
    let m := gen_composition leb (Qc_frac 1 1000000) sls (CompList [[(Sp 1, Qc_frac 1 4); (Sp 2, Qc_frac 1 4)]]) in
    (exists o, outcome m o) /\ forall o, outcome m o -> numbers sls [[3; 1]] o.
Proof.
  exists (fun _ _ => true), (same_sites 4 [Sp 1; Sp 2]). split; [apply same_sites_layout; discriminate|].
  assert (E : map snd (gen_composition (fun _ _ => true) (Qc_frac 1 1000000) (same_sites 4 [Sp 1; Sp 2]) (CompList [[(Sp 1, Qc_frac 1 4); (Sp 2, Qc_frac 1 4)]]))
    = map Some [[0;1;0;0];[0;0;1;0];[0;0;0;1];[1;0;0;0];[0;0;1;0];[0;0;0;1];[1;0;0;0];[0;1;0;0];[0;0;0;1];[1;0;0;0];[0;1;0;0];[0;0;1;0]]) by (vm_compute; reflexivity).
  intros m. split.
  - exists [0;1;0;0]. apply outcome_list. unfold m. rewrite E. left. auto.
  - intros o H. apply outcome_list in H. unfold m in H. rewrite E in H. apply in_map_iff in H as (o' & X & H). injection X as ->.
    assert (D : o = [0;1;0;0] \/ o = [0;0;1;0] \/ o = [0;0;0;1] \/ o = [1;0;0;0]) by (simpl in H; intuition auto).
    destruct D as [-> |[-> |[-> | ->]]]; repeat constructor.
Qed.
Print Assumptions C87_short_refuted.

(** One composition for two sublattices fills only the first; all sites of the second get
    its first species. *)
Theorem C87_single_refuted :
  exists leb sls, layout sls 4 /\ length sls = 2 /\
    let m := gen_composition leb (Qc_frac 1 1000000) sls (OneComp [(Sp 1, Qc_frac 1 2); (Sp 2, Qc_frac 1 2)]) in
    (exists o, outcome m o) /\ forall o, outcome m o -> numbers sls [[1; 1]; [2; 0]] o.
Proof.
  exists (fun _ _ => true), (get_sublattices [[Sp 1; Sp 2]; [Sp 1; Sp 2]; [Sp 1; Sp 3]; [Sp 1; Sp 3]]
    [[(Sp 1, Qc_frac 1 2); (Sp 2, Qc_frac 1 2)]; [(Sp 1, Qc_frac 1 2); (Sp 3, Qc_frac 1 2)]]).
  set (sls := get_sublattices _ _). split; [|split; [auto|]].
  { apply default_layout; [discriminate| | |].
    - repeat constructor; simpl; intuition discriminate.
    - intros s [<-|[<-|[<-|[<-|[]]]]]; simpl; auto.
    - intros s [<-|[<-|[]]]; discriminate. }
  assert (E : map snd (gen_composition (fun _ _ => true) (Qc_frac 1 1000000) sls (OneComp [(Sp 1, Qc_frac 1 2); (Sp 2, Qc_frac 1 2)]))
    = [Some [0; 1; 0; 0]; Some [1; 0; 0; 0]]) by (vm_compute; reflexivity).
  intros m. split.
  - exists [0;1;0;0]. apply outcome_list. unfold m. rewrite E. left. auto.
  - intros o H. apply outcome_list in H. unfold m in H. rewrite E in H. destruct H as [H|[H|[]]]; injection H as <-; repeat constructor.
Qed.
Print Assumptions C87_single_refuted.

(** A tuple of compositions that add up to more than one cannot be normalised; a list can. *)
Theorem C87_tuple_refuted :
  exists leb sls cs, layout sls 2 /\
    (forall o, ~ outcome (gen_composition leb (Qc_frac 1 1000000) sls (CompTuple cs)) o) /\
    never_raises (gen_composition leb (Qc_frac 1 1000000) sls (CompList cs)).
Proof.
  exists (fun _ _ => true), (same_sites 2 [Sp 1; Sp 2]), [[(Sp 1, 1%Qc); (Sp 2, 1%Qc)]].
  split; [apply same_sites_layout; discriminate|]. split.
  - intros o H. apply outcome_list in H. vm_compute in H. intuition discriminate.
  - intros w H. vm_compute in H. intuition discriminate.
Qed.
Print Assumptions C87_tuple_refuted.

(** Two Li and one Mn in four sites with vacancies, given as fractions; and Li/Mn given as
    amounts that are normalised. *)
Example C87_case :
  let sls := same_sites 4 [Sp 1; Sp 2; Vac] in
  layout sls 4 /\ (forall sl, In sl sls -> length (sl_encoding sl) = length (sl_space sl)) /\
  stands_for (CompList [[(Sp 1, Qc_frac 1 2); (Sp 2, Qc_frac 1 4)]]) [[(Sp 1, Qc_frac 1 2); (Sp 2, Qc_frac 1 4)]] /\
  Forall2 (fun p ks => suits (Qc_frac 1 1000000) (snd p) (fst p) ks)
    (combine [[(Sp 1, Qc_frac 1 2); (Sp 2, Qc_frac 1 4)]] sls) [[2; 1; 1]] /\
  valid_occu sls 4 [0; 2; 1; 0] /\ numbers sls [[2; 1; 1]] [0; 2; 1; 0] /\ chance sls [[2; 1; 1]] = Qc_frac 1 12.
Proof.
  intros sls. split; [apply same_sites_layout; discriminate|]. split; [intros sl [<-|[]]; auto|]. split.
  { apply st_list. constructor; [|constructor]. left. split; auto. discriminate. }
  split.
  { constructor; [|constructor]. constructor.
    - simpl. constructor; [simpl; intuition discriminate|]. constructor; [simpl; tauto|constructor].
    - intros sp x [E|[E|[]]]; injection E as <- <-; split; simpl; auto; reflexivity.
    - right. split; [reflexivity|]. simpl. intuition discriminate.
    - simpl. repeat constructor; discriminate.
    - reflexivity. }
  split.
  { apply (default_valid (allowed := repeat [Sp 1; Sp 2; Vac] 4) (spaces := [map (fun sp => (sp, (1 / Qc_of_nat 3)%Qc)) [Sp 1; Sp 2; Vac]])); [discriminate| | | |].
    - simpl. constructor; [simpl; tauto|constructor].
    - intros s [<-|[<-|[<-|[<-|[]]]]]; simpl; auto.
    - intros s [<-|[]]; discriminate.
    - repeat constructor. }
  split; [repeat constructor|]. apply Qc_is_canon. reflexivity.
Qed.
Example C87_amounts_case : exists c, portions [(Sp 1, Qc_of_nat 1); (Sp 2, Qc_of_nat 3)] c /\
  map (fun p => (fst p, this (snd p))) c = [(Sp 1, (1 # 4)%Q); (Sp 2, (3 # 4)%Q)].
Proof. eexists. split; [right; split; reflexivity|reflexivity]. Qed.
