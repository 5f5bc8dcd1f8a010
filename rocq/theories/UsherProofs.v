From Verif Require Export OccuUtilsProofs ProbProofs UsherSpec.
Set Implicit Arguments.
Unset Strict Implicit.
Open Scope nat_scope.

(** ** Generalities *)
Lemma outcome_of_opt {A} (o : option A) x : outcome (of_opt o) x <-> o = Some x.
Proof.
  destruct o as [y|]; simpl.
  - rewrite outcome_ret. split; congruence.
  - split; [intros H; apply outcome_fail in H; tauto|discriminate].
Qed.

Lemma prob_bind_of_opt {A B} (o : option A) (f : A -> prog B) P :
  prob (pbind (of_opt o) f) P = match o with Some x => prob (f x) P | None => 0%Qc end.
Proof.
  rewrite prob_bind. destruct o as [x|]; simpl; ring.
Qed.

Lemma prob_bind_choice_p {A B} (l : list A) p (f : A -> prog B) P :
  length l = length p -> l <> [] -> (forall x, In x p -> (0 <= x)%Qc) -> qsum p = 1%Qc ->
  prob (pbind (choice_p l p) f) P =
  qsum (map (fun q => (snd q * prob (f (fst q)) P)%Qc) (combine l p)).
Proof.
  intros Hl Hne Hp Hs. rewrite prob_bind. unfold choice_p.
  rewrite Hl, Nat.eqb_refl. destruct (Nat.eqb_spec (length p) 0) as [E|_].
  { destruct l; simpl in *; [congruence|lia]. }
  assert (Hf : forallb (fun x => Qcleb 0 x) p = true).
  { apply forallb_forall. intros x Hx. destruct (Qcleb_spec 0 x) as [|Hx0]; auto. }
  rewrite Hf. destruct (Qceqb_spec (qsum p) 1); [|congruence].
  cbn [negb andb]. rewrite map_map. cbn [fst snd].
  apply (@qsum_filter_nz _ _ (fun q : A * Qc => (snd q * prob (f (fst q)) P)%Qc)).
  intros [a q] _ H. simpl in *. destruct (Qceqb_spec q 0); [subst; ring|discriminate].
Qed.

Lemma never_raises_of_opt {A} (o : option A) x : o = Some x -> never_raises (of_opt o).
Proof. intros ->. apply never_raises_ret. Qed.

Lemma pos_of_opt {A} (o : option A) : pos_prog (of_opt o).
Proof. destruct o; [apply pos_ret|apply pos_fail]. Qed.
Lemma never_raises_choice_p {A} (l : list A) p :
  length l = length p -> l <> [] -> (forall x, In x p -> (0 <= x)%Qc) -> qsum p = 1%Qc ->
  never_raises (choice_p l p).
Proof.
  intros Hl Hne Hp Hs. unfold choice_p.
  rewrite Hl, Nat.eqb_refl. destruct (Nat.eqb_spec (length p) 0) as [E|_].
  { destruct l; simpl in *; [congruence|lia]. }
  assert (Hf : forallb (fun x => Qcleb 0 x) p = true).
  { apply forallb_forall. intros x Hx. destruct (Qcleb_spec 0 x) as [|Hx0]; auto. }
  rewrite Hf. destruct (Qceqb_spec (qsum p) 1); [|congruence].
  cbn [negb andb]. intros w H. apply in_map_iff in H. destruct H as ([a b] & E & _). discriminate.
Qed.

Lemma mass_of_opt {A} (o : option A) : mass (of_opt o) = 1%Qc.
Proof. destruct o; [apply mass_ret|apply mass_fail]. Qed.

Lemma occu_eqb_spec o o' : reflect (o = o') (occu_eqb o o').
Proof. unfold occu_eqb. destruct (list_eq_dec Nat.eq_dec o o'); constructor; auto. Qed.

Lemma qsum_combine_pick {A B} (l : list A) (p : list B) (F : A * B -> Qc) k a b :
  nth_error l k = Some a -> nth_error p k = Some b ->
  (forall k' a' b', k' <> k -> nth_error l k' = Some a' -> F (a', b') = 0%Qc) ->
  qsum (map F (combine l p)) = F (a, b).
Proof.
  revert p k; induction l as [|x l IH]; intros [|y p] [|k] Hk Hq H; simpl in *; try discriminate.
  - injection Hk as ->. injection Hq as ->. rewrite qsum_map_0; [ring|].
    intros [x' y'] Hin. apply in_combine_l in Hin. apply In_nth_error in Hin as [j Hj].
    apply (H (S j)); auto.
  - rewrite (H 0 x y) by auto. rewrite (IH p k); auto; [ring|].
    intros k' a' b' Hne Hn. apply (H (S k')); auto.
Qed.

Lemma prob_all {A} (m : prog A) : never_raises m -> prob m (fun _ => true) = mass m.
Proof.
  intros H. unfold prob, mass. apply qsum_map_ext. intros [w [x|]] Hin; simpl; auto.
  exfalso. eapply H; eauto.
Qed.

(** Constructed ushers are well formed. *)
Record usher_ok (sls : list sublattice) (u : usher) : Prop := {
  uo_active : us_active u = filter is_active sls;
  uo_len : length (us_active u) = length (us_probs u);
  uo_ne : us_active u <> [];
  uo_sum : qsum (us_probs u) = 1%Qc;
  uo_pos : forall x, In x (us_probs u) -> (0 <= x)%Qc
}.

Lemma usher_ok_mk sls given u :
  mk_usher sls given = Some u ->
  (forall p x, given = Some p -> In x p -> (0 <= x)%Qc) ->
  usher_ok sls u.
Proof.
  unfold mk_usher. destruct given as [p|].
  - destruct (Nat.eqb_spec (length p) (length (filter is_active sls))) as [El|]; simpl; [|discriminate].
    destruct (Qceqb_spec (qsum p) 1) as [Es|]; simpl; [|discriminate].
    intros H Hp. injection H as <-. constructor; simpl; auto; eauto.
    intros E. rewrite E in El. destruct p; simpl in *; [discriminate|lia].
  - destruct (Nat.eqb_spec (length (filter is_active sls)) 0) as [E|E]; [discriminate|].
    intros H _. injection H as <-. constructor; simpl; auto.
    + rewrite repeat_length; auto.
    + intros E'; rewrite E' in E; simpl in E; lia.
    + set (n := length (filter is_active sls)) in *.
      replace (repeat (1 / Qc_of_nat n)%Qc n) with (map (fun _ : nat => (1 / Qc_of_nat n)%Qc) (seq 0 n)).
      * rewrite qsum_const, seq_length. unfold Qcdiv. rewrite Qcmult_1_l.
        apply Qcmult_inv_r, Qc_of_nat_nz; auto.
      * clear. generalize (1 / Qc_of_nat n)%Qc as q; intros q. generalize 0 as s.
        induction n; intros s; simpl; auto. rewrite IHn; auto.
    + intros x Hx. apply repeat_spec in Hx. subst.
      apply Qcdiv_ge_iff; [apply Qc_of_nat_pos; lia|]. rewrite Qcmult_0_l. discriminate.
Qed.

Section Ushers.
Variables (sls : list sublattice) (N : nat) (u : usher).
Hypothesis (Lay : layout sls N) (Ok : usher_ok sls u).

Lemma us_In sl : In sl (us_active u) <-> In sl sls /\ sl_active sl <> [].
Proof.
  rewrite (uo_active Ok), filter_In. unfold is_active. rewrite Nat.ltb_lt.
  destruct (sl_active sl); simpl; intuition (try congruence; lia).
Qed.

Lemma outcome_random_sublattice sl :
  outcome (get_random_sublattice u) sl -> In sl sls /\ sl_active sl <> [].
Proof. intros H. apply outcome_choice_p in H. apply us_In; auto. Qed.

Lemma random_sublattice_safe : never_raises (get_random_sublattice u).
Proof.
  apply never_raises_choice_p; [apply (uo_len Ok)|apply (uo_ne Ok)|apply (uo_pos Ok)|apply (uo_sum Ok)].
Qed.

Lemma active_site_occu occu sl s :
  valid_occu sls N occu -> In sl sls -> In s (sl_active sl) ->
  s < length occu /\ exists c, nth_error occu s = Some c /\ In c (sl_encoding sl).
Proof.
  intros [Hl Hv] Hin Hs. assert (Hss : In s (sl_sites sl)) by (eapply lay_active; eauto).
  split; [rewrite Hl; eapply layout_site_lt; eauto|]. apply Hv; auto.
Qed.

Lemma site_sublattice_unique sl sl' s :
  In sl sls -> In sl' sls -> In s (sl_sites sl) -> In s (sl_sites sl') -> sl = sl'.
Proof.
  intros H H' Hs Hs'. apply In_nth_error in H as [k Hk]. apply In_nth_error in H' as [k' Hk'].
  assert (k = k') by (eapply layout_unique; eauto). subst. congruence.
Qed.

Lemma us_active_unique k k' sl sl' s :
  nth_error (us_active u) k = Some sl -> nth_error (us_active u) k' = Some sl' ->
  In s (sl_active sl) -> In s (sl_active sl') -> k = k'.
Proof.
  intros Hk Hk' Hs Hs'.
  assert (Hss : In s (sl_sites sl)).
  { eapply lay_active; eauto. apply nth_error_In in Hk. apply us_In in Hk. tauto. }
  assert (Hss' : In s (sl_sites sl')).
  { eapply lay_active; eauto. apply nth_error_In in Hk'. apply us_In in Hk'. tauto. }
  assert (Hc : disjoint_sites sl_sites sls).
  { apply NoDup_concat_disjoint. eapply Permutation_NoDup;
    [apply Permutation_sym, (lay_sites Lay)|]. apply seq_NoDup. }
  rewrite (uo_active Ok) in Hk, Hk'.
  clear - Hc Hk Hk' Hss Hss'. revert k k' Hk Hk'.
  induction sls as [|a l IH]; intros k k' Hk Hk'; [destruct k; discriminate|].
  simpl in *. destruct Hc as [Ha Hc]. destruct (is_active a); [|eapply IH; eauto].
  destruct k as [|k], k' as [|k']; simpl in *; auto.
  - injection Hk as ->. apply nth_error_In, filter_In in Hk' as [Hk' _]. exfalso; eapply Ha; eauto.
  - injection Hk' as ->. apply nth_error_In, filter_In in Hk as [Hk _]. exfalso; eapply Ha; eauto.
Qed.

(** ** Flip *)
Lemma flip_choices_In sl c0 c : In c (flip_choices sl c0) <-> In c (sl_encoding sl) /\ c <> c0.
Proof.
  unfold flip_choices. rewrite filter_In, np_unique_In.
  destruct (Nat.eqb_spec c c0); simpl; intuition congruence.
Qed.

Lemma flip_choices_length sl c0 : In sl sls -> In c0 (sl_encoding sl) ->
  S (length (flip_choices sl c0)) = length (sl_encoding sl).
Proof.
  intros Hin Hc. destruct (lay_codes Lay _ Hin) as [Hnd _].
  assert (P : Permutation (c0 :: flip_choices sl c0) (sl_encoding sl)).
  { apply NoDup_Permutation; auto.
    - constructor; [rewrite flip_choices_In; tauto|].
      apply NoDup_filter, sorted_NoDup, np_unique_sorted.
    - intros x. simpl. rewrite flip_choices_In.
      destruct (Nat.eq_dec x c0); subst; intuition (try congruence). }
  apply Permutation_length in P. simpl in P. auto.
Qed.

Lemma flip_outcome occu st :
  valid_occu sls N occu -> outcome (flip_propose u occu) st ->
  exists site code, st = [(site, code)] /\ legal_flip sls occu site code.
Proof.
  intros Hv H. unfold flip_propose in H.
  apply outcome_bind in H as (sl & Hsl & H). apply outcome_bind in H as (site & Hs & H).
  apply outcome_bind in H as (c0 & Hc0 & H). apply outcome_bind in H as (c & Hc & H).
  apply outcome_ret in H. subst. apply outcome_random_sublattice in Hsl as [Hin _].
  apply outcome_uniform in Hs. apply outcome_of_opt in Hc0. apply outcome_uniform in Hc.
  apply flip_choices_In in Hc as [Hc Hne].
  exists site, c. split; auto. exists sl. repeat split; auto. congruence.
Qed.

Lemma flip_safe occu :
  valid_occu sls N occu ->
  (forall sl, In sl sls -> sl_active sl <> [] -> 2 <= length (sl_encoding sl)) ->
  never_raises (flip_propose u occu).
Proof.
  intros Hv H2. apply never_raises_bind; [apply random_sublattice_safe|].
  intros sl Hsl. apply outcome_random_sublattice in Hsl as [Hin Hne].
  apply never_raises_bind; [apply never_raises_uniform; auto|]. intros s Hs.
  apply outcome_uniform in Hs.
  destruct (active_site_occu Hv Hin Hs) as (_ & c & Hc & Hce).
  apply never_raises_bind; [eapply never_raises_of_opt; eauto|]. intros c' Hc'.
  apply outcome_of_opt in Hc'. assert (c' = c) by congruence; subst c'.
  apply never_raises_bind; [|intros; apply never_raises_ret].
  apply never_raises_uniform. intros E. pose proof (flip_choices_length Hin Hce) as Hl.
  rewrite E in Hl. specialize (H2 _ Hin Hne). simpl in Hl. lia.
Qed.

(** Inner probability of a flip once the site is chosen. *)
Definition flip_at (occu : list nat) (sl : sublattice) (site : nat) : prog step :=
  draw c0 <- of_opt (nth_error occu site);
  draw c <- uniform (flip_choices sl c0);
  pret [(site, c)].

Lemma flip_at_prob occu sl s c0 c :
  In sl sls -> nth_error occu s = Some c0 -> In c0 (sl_encoding sl) -> In c (sl_encoding sl) -> c <> c0 ->
  forall P, (forall x, In x (flip_choices sl c0) -> P [(s, x)] = (x =? c)) ->
  prob (flip_at occu sl s) P = (1 / Qc_of_nat (length (sl_encoding sl) - 1))%Qc.
Proof.
  intros Hin Hc0 He0 Hc Hne P HP. unfold flip_at. rewrite prob_bind_of_opt, Hc0.
  rewrite prob_bind_uniform.
  rewrite (@qsum_pick _ _ _ c).
  - rewrite prob_ret, HP by (apply flip_choices_In; auto). rewrite Nat.eqb_refl.
    rewrite <- (flip_choices_length Hin He0). simpl. rewrite Nat.sub_0_r. ring.
  - apply NoDup_filter, sorted_NoDup, np_unique_sorted.
  - apply flip_choices_In; auto.
  - intros y Hy Hyc. rewrite prob_ret, HP by auto. destruct (Nat.eqb_spec y c); [congruence|ring].
Qed.

Lemma flip_at_other occu sl s : forall P,
  (forall x, P [(s, x)] = false) -> prob (flip_at occu sl s) P = 0%Qc.
Proof.
  intros P HP. apply prob_false. intros st H. unfold flip_at in H.
  apply outcome_bind in H as (c0 & Hc0 & H). apply outcome_bind in H as (c & Hc & H).
  apply outcome_ret in H. subst; auto.
Qed.

Lemma flip_prob_expand occu P :
  prob (flip_propose u occu) P =
  qsum (map (fun q => (snd q * qsum (map (fun s => 1 / Qc_of_nat (length (sl_active (fst q)))
                              * prob (flip_at occu (fst q) s) P) (sl_active (fst q))))%Qc)
         (combine (us_active u) (us_probs u))).
Proof.
  unfold flip_propose, get_random_sublattice.
  rewrite prob_bind_choice_p;
    [|apply (uo_len Ok)|apply (uo_ne Ok)|apply (uo_pos Ok)|apply (uo_sum Ok)].
  apply qsum_map_ext. intros [sl q] Hin; simpl. f_equal. rewrite prob_bind_uniform. auto.
Qed.

(** Probability of one particular flip. *)
Lemma flip_exact occu k sl q s c0 c :
  valid_occu sls N occu -> nth_error (us_active u) k = Some sl -> nth_error (us_probs u) k = Some q ->
  In s (sl_active sl) -> nth_error occu s = Some c0 -> In c (sl_encoding sl) -> c <> c0 ->
  prob (flip_propose u occu) (fun st => match st with [(s', c')] => (s' =? s) && (c' =? c) | _ => false end)
  = (q / (Qc_of_nat (length (sl_active sl)) * Qc_of_nat (length (sl_encoding sl) - 1)))%Qc.
Proof.
  intros Hv Hk Hq Hs Hc0 Hc Hne. set (P := fun st : step => _).
  assert (Hin : In sl (us_active u)) by (eapply nth_error_In; eauto).
  apply us_In in Hin as [Hin Hact].
  assert (He0 : In c0 (sl_encoding sl)).
  { destruct (active_site_occu Hv Hin Hs) as (_ & c' & Hc' & ?). congruence. }
  assert (Hinner : prob (flip_at occu sl s) P = (1 / Qc_of_nat (length (sl_encoding sl) - 1))%Qc).
  { apply (flip_at_prob Hin Hc0 He0 Hc Hne). intros x _. unfold P. rewrite Nat.eqb_refl; auto. }
  assert (Hsum : qsum (map (fun s0 => 1 / Qc_of_nat (length (sl_active sl)) *
             prob (flip_at occu sl s0) P) (sl_active sl))%Qc
         = (1 / Qc_of_nat (length (sl_active sl)) * (1 / Qc_of_nat (length (sl_encoding sl) - 1)))%Qc).
  { rewrite (@qsum_pick _ _ _ s); auto.
    - rewrite Hinner; auto.
    - eapply lay_active_nodup; eauto.
    - intros y Hy Hys. rewrite flip_at_other; [ring|]. intros x. unfold P.
      destruct (Nat.eqb_spec y s); [congruence|auto]. }
  rewrite flip_prob_expand.
  assert (Hother : forall k' sl' q', k' <> k -> nth_error (us_active u) k' = Some sl' ->
     (q' * qsum (map (fun s0 => 1 / Qc_of_nat (length (sl_active sl')) *
             prob (flip_at occu sl' s0) P) (sl_active sl')))%Qc = 0%Qc).
  { intros k' sl' q' Hkk Hk'. assert (E : In sl' (us_active u)) by (eapply nth_error_In; eauto).
    apply us_In in E as [E _].
    rewrite qsum_map_0; [ring|]. intros y Hy. rewrite flip_at_other; [ring|].
    intros x. unfold P. destruct (Nat.eqb_spec y s) as [->|]; auto. exfalso.
    apply Hkk. eapply us_active_unique; eauto. }
  rewrite (@qsum_combine_pick _ _ _ _ _ k sl q); auto.
  - simpl. rewrite Hsum. unfold Qcdiv. rewrite Qcinv_mult_distr. ring.
Qed.

(** Flips are symmetric. *)
Lemma flip_symmetric o o' :
  valid_occu sls N o -> valid_occu sls N o' ->
  transition (flip_propose u) o o' = transition (flip_propose u) o' o.
Proof.
  intros Hv Hv'. unfold transition.
  destruct (list_eq_dec Nat.eq_dec o o') as [->|Hne]; [auto|].
  rewrite !flip_prob_expand. apply qsum_map_ext. intros [sl q] Hin; simpl. f_equal.
  apply qsum_map_ext. intros s Hs. f_equal.
  assert (Hsl : In sl sls).
  { apply in_combine_l in Hin. apply us_In in Hin. tauto. }
  destruct (active_site_occu Hv Hsl Hs) as (Hlt & c & Hc & Hce).
  destruct (active_site_occu Hv' Hsl Hs) as (Hlt' & c' & Hc' & Hce').
  assert (E : forall a b ca cb, nth_error a s = Some ca -> nth_error b s = Some cb -> a <> b ->
     In ca (sl_encoding sl) -> In cb (sl_encoding sl) ->
     prob (flip_at a sl s) (fun st => occu_eqb (apply_step a st) b) =
     if occu_eqb (upd a s cb) b then (1 / Qc_of_nat (length (sl_encoding sl) - 1))%Qc else 0%Qc).
  { clear - Lay Hsl. intros a b ca cb Ha Hb Hab Hca Hcb.
    assert (Hla : s < length a) by (eapply nth_error_Some_lt; eauto).
    destruct (occu_eqb_spec (upd a s cb) b) as [E|E].
    - eapply flip_at_prob; eauto.
      + intros ->. apply Hab. rewrite <- E. symmetry. apply upd_same; auto.
      + intros x _. simpl. destruct (Nat.eqb_spec x cb) as [->|Hx].
        * destruct (occu_eqb_spec (upd a s cb) b); congruence.
        * destruct (occu_eqb_spec (upd a s x) b) as [E'|]; auto. exfalso. apply Hx.
          rewrite <- E' in Hb. rewrite nth_error_upd_eq in Hb by auto. congruence.
    - apply flip_at_other. intros x. simpl.
      destruct (occu_eqb_spec (upd a s x) b) as [E'|]; auto. exfalso. apply E.
      rewrite <- E' in Hb. rewrite nth_error_upd_eq in Hb by auto. congruence. }
  rewrite (E o o' c c'), (E o' o c' c); auto.
  assert (Hiff : upd o s c' = o' <-> upd o' s c = o).
  { split; intros H.
    - rewrite <- H, upd_upd_eq. apply upd_same; auto.
    - rewrite <- H, upd_upd_eq. apply upd_same; auto. }
  destruct (occu_eqb_spec (upd o s c') o'), (occu_eqb_spec (upd o' s c) o); tauto.
Qed.

(** ** Swap *)
Definition swap_at (occu : list nat) (sl : sublattice) (site1 : nat) : prog step :=
  draw species1 <- of_opt (nth_error occu site1);
  draw socc <- of_opt (opt_map (nth_error occu) (sl_active sl));
  match swap_options (sl_active sl) socc species1 with
  | [] => pret []
  | options =>
      draw site2 <- uniform options;
      draw species2 <- of_opt (nth_error occu site2);
      pret [(site1, species2); (site2, species1)]
  end.

Lemma swap_options_filter occu active socc c :
  opt_map (nth_error occu) active = Some socc ->
  swap_options active socc c =
  filter (fun s => match nth_error occu s with Some c' => negb (c' =? c) | None => false end) active.
Proof.
  unfold swap_options. revert socc. induction active as [|s active IH]; intros socc H; simpl in *; auto.
  - destruct (nth_error occu s) as [c'|] eqn:E; [|discriminate].
    destruct (opt_map _ _) as [ys|] eqn:E'; [|discriminate]. injection H as <-. simpl.
    destruct (negb (c' =? c)); simpl; rewrite IH; auto.
Qed.

Definition others (occu : list nat) (sl : sublattice) (c : nat) : list nat :=
  filter (fun s => match nth_error occu s with Some c' => negb (c' =? c) | None => false end) (sl_active sl).

Lemma others_In occu sl c s :
  In s (others occu sl c) <-> In s (sl_active sl) /\ exists c', nth_error occu s = Some c' /\ c' <> c.
Proof.
  unfold others. rewrite filter_In. destruct (nth_error occu s) as [c'|].
  - destruct (Nat.eqb_spec c' c); simpl; split; intros [H H']; split; auto; try discriminate.
    + destruct H' as (? & E & ?). congruence.
    + eauto.
  - split; [intros [_ H]; discriminate|intros (_ & ? & ? & _); discriminate].
Qed.

Lemma active_socc occu sl : valid_occu sls N occu -> In sl sls ->
  exists socc, opt_map (nth_error occu) (sl_active sl) = Some socc.
Proof.
  intros Hv Hin. apply opt_map_all. intros s Hs.
  destruct (active_site_occu Hv Hin Hs) as (_ & c & Hc & _). congruence.
Qed.

Lemma swap_outcome occu st :
  valid_occu sls N occu -> outcome (swap_propose u occu) st ->
  (exists s1 s2 c1 c2, st = [(s1, c2); (s2, c1)] /\ legal_swap sls occu s1 s2 c1 c2) \/
  (st = [] /\ exists sl c, In sl sls /\ sl_active sl <> [] /\
      forall s, In s (sl_active sl) -> nth_error occu s = Some c).
Proof.
  intros Hv H. unfold swap_propose in H.
  apply outcome_bind in H as (sl & Hsl & H). apply outcome_bind in H as (s1 & Hs1 & H).
  apply outcome_bind in H as (c1 & Hc1 & H). apply outcome_bind in H as (socc & Hso & H).
  apply outcome_random_sublattice in Hsl as [Hin Hne].
  apply outcome_uniform in Hs1. apply outcome_of_opt in Hc1. apply outcome_of_opt in Hso.
  rewrite (swap_options_filter c1 Hso) in H. fold (others occu sl c1) in H.
  destruct (others occu sl c1) as [|x l] eqn:E.
  - right. apply outcome_ret in H. split; auto. exists sl, c1. repeat split; auto.
    intros s Hs. destruct (active_site_occu Hv Hin Hs) as (_ & c & Hc & _).
    rewrite Hc. f_equal. destruct (Nat.eq_dec c c1); auto. exfalso.
    assert (In s (others occu sl c1)) by (apply others_In; eauto). rewrite E in *. auto.
  - left. apply outcome_bind in H as (s2 & Hs2 & H). apply outcome_bind in H as (c2 & Hc2 & H).
    apply outcome_uniform in Hs2. rewrite <- E in Hs2. apply others_In in Hs2 as [Hs2 (c' & Hc' & Hne')].
    apply outcome_of_opt in Hc2. assert (c' = c2) by congruence; subst. apply outcome_ret in H.
    exists s1, s2, c1, c2. split; auto. exists sl. repeat split; auto.
Qed.

Lemma swap_safe occu : valid_occu sls N occu -> never_raises (swap_propose u occu).
Proof.
  intros Hv. apply never_raises_bind; [apply random_sublattice_safe|].
  intros sl Hsl. apply outcome_random_sublattice in Hsl as [Hin Hne].
  apply never_raises_bind; [apply never_raises_uniform; auto|]. intros s Hs.
  apply outcome_uniform in Hs.
  destruct (active_site_occu Hv Hin Hs) as (_ & c & Hc & Hce).
  apply never_raises_bind; [eapply never_raises_of_opt; eauto|]. intros c' Hc'.
  destruct (active_socc Hv Hin) as (socc & Hso).
  apply never_raises_bind; [eapply never_raises_of_opt; eauto|]. intros so Hso'.
  apply outcome_of_opt in Hso'. assert (so = socc) by congruence; subst so.
  rewrite (swap_options_filter c' Hso). fold (others occu sl c').
  destruct (others occu sl c') as [|x l] eqn:E; [apply never_raises_ret|].
  apply never_raises_bind; [apply never_raises_uniform; discriminate|].
  intros s2 Hs2. apply outcome_uniform in Hs2. rewrite <- E in Hs2.
  apply others_In in Hs2 as (_ & c2 & Hc2 & _).
  apply never_raises_bind; [eapply never_raises_of_opt; eauto|]. intros; apply never_raises_ret.
Qed.

Lemma swap_prob_expand occu P :
  prob (swap_propose u occu) P =
  qsum (map (fun q => (snd q * qsum (map (fun s => 1 / Qc_of_nat (length (sl_active (fst q)))
                              * prob (swap_at occu (fst q) s) P) (sl_active (fst q))))%Qc)
         (combine (us_active u) (us_probs u))).
Proof.
  unfold swap_propose, get_random_sublattice.
  rewrite prob_bind_choice_p;
    [|apply (uo_len Ok)|apply (uo_ne Ok)|apply (uo_pos Ok)|apply (uo_sum Ok)].
  apply qsum_map_ext. intros [sl q] Hin; simpl. f_equal. rewrite prob_bind_uniform. auto.
Qed.

(** Probability of one particular swap. *)
Lemma swap_exact occu k sl q s1 s2 c1 c2 :
  valid_occu sls N occu -> nth_error (us_active u) k = Some sl -> nth_error (us_probs u) k = Some q ->
  In s1 (sl_active sl) -> In s2 (sl_active sl) ->
  nth_error occu s1 = Some c1 -> nth_error occu s2 = Some c2 -> c1 <> c2 ->
  prob (swap_propose u occu)
    (fun st => match st with
               | [(a, x); (b, y)] => (a =? s1) && (x =? c2) && (b =? s2) && (y =? c1)
               | _ => false end)
  = (q / (Qc_of_nat (length (sl_active sl)) *
          Qc_of_nat (countb (fun s => negb (nth s occu 0 =? c1)%nat) (sl_active sl))))%Qc.
Proof.
  intros Hv Hk Hq Hs1 Hs2 Hc1 Hc2 Hne. set (P := fun st : step => _).
  assert (Hin : In sl (us_active u)) by (eapply nth_error_In; eauto).
  apply us_In in Hin as [Hin Hact].
  assert (Hlen : countb (fun s => negb (nth s occu 0 =? c1)) (sl_active sl) = length (others occu sl c1)).
  { unfold others. apply countb_ext. intros s Hs.
    destruct (active_site_occu Hv Hin Hs) as (_ & c & Hc & _).
    rewrite Hc, (nth_error_nth _ _ _ Hc). auto. }
  rewrite Hlen.
  assert (Hother : forall sl' s, s <> s1 -> prob (swap_at occu sl' s) P = 0%Qc).
  { intros sl' s Hs. apply prob_false. intros st H. unfold swap_at in H.
    apply outcome_bind in H as (a & _ & H). apply outcome_bind in H as (socc & _ & H).
    destruct (swap_options _ _ _) as [|x l]; [apply outcome_ret in H; subst; auto|].
    apply outcome_bind in H as (b & _ & H). apply outcome_bind in H as (d & _ & H).
    apply outcome_ret in H. subst. unfold P. destruct (Nat.eqb_spec s s1); [congruence|auto]. }
  assert (Hinner : prob (swap_at occu sl s1) P = (1 / Qc_of_nat (length (others occu sl c1)))%Qc).
  { unfold swap_at. rewrite prob_bind_of_opt, Hc1, prob_bind_of_opt.
    destruct (active_socc Hv Hin) as (socc & Hso). rewrite Hso.
    rewrite (swap_options_filter c1 Hso). fold (others occu sl c1).
    assert (Hs2o : In s2 (others occu sl c1)) by (apply others_In; split; eauto).
    destruct (others occu sl c1) as [|x l] eqn:E; [destruct Hs2o|]. rewrite <- E in *.
    rewrite prob_bind_uniform, (@qsum_pick _ _ _ s2); auto.
    - rewrite prob_bind_of_opt, Hc2, prob_ret. unfold P. rewrite !Nat.eqb_refl. simpl. ring.
    - apply NoDup_filter. eapply lay_active_nodup; eauto.
    - intros y Hy Hys. rewrite prob_bind_of_opt. destruct (nth_error occu y) as [d|]; [|ring].
      rewrite prob_ret. unfold P. destruct (Nat.eqb_spec y s2); [congruence|].
      rewrite andb_false_r. simpl. ring. }
  rewrite swap_prob_expand, (@qsum_combine_pick _ _ _ _ _ k sl q); auto.
  - simpl. rewrite (@qsum_pick _ _ _ s1); auto.
    + rewrite Hinner. unfold Qcdiv. rewrite Qcinv_mult_distr. ring.
    + eapply lay_active_nodup; eauto.
    + intros y Hy Hys. rewrite Hother; auto. ring.
  - intros k' sl' q' Hkk Hk'. simpl. rewrite qsum_map_0; [ring|]. intros y Hy.
    rewrite Hother; [ring|]. intros ->. apply Hkk. eapply us_active_unique; eauto.
Qed.

Definition swapped (o : list nat) (s1 s2 : nat) : list nat :=
  match nth_error o s1, nth_error o s2 with
  | Some c1, Some c2 => upd (upd o s1 c2) s2 c1
  | _, _ => o
  end.

Definition differ (o : list nat) (s1 s2 : nat) : bool :=
  match nth_error o s1, nth_error o s2 with
  | Some c1, Some c2 => negb (c2 =? c1)
  | _, _ => false
  end.

Lemma swap_at_prob o o' sl s1 c1 :
  valid_occu sls N o -> In sl sls -> In s1 (sl_active sl) -> nth_error o s1 = Some c1 -> o <> o' ->
  prob (swap_at o sl s1) (fun st => occu_eqb (apply_step o st) o') =
  qsum (map (fun s2 => if differ o s1 s2 && occu_eqb (swapped o s1 s2) o'
                       then (1 / Qc_of_nat (length (others o sl c1)))%Qc else 0%Qc) (sl_active sl)).
Proof.
  intros Hv Hin Hs1 Hc1 Hne. unfold swap_at. rewrite prob_bind_of_opt, Hc1, prob_bind_of_opt.
  destruct (active_socc Hv Hin) as (socc & Hso). rewrite Hso.
  rewrite (swap_options_filter c1 Hso). fold (others o sl c1).
  transitivity (qsum (map (fun s2 => if occu_eqb (swapped o s1 s2) o'
      then (1 / Qc_of_nat (length (others o sl c1)))%Qc else 0%Qc) (others o sl c1))).
  - destruct (others o sl c1) as [|x l] eqn:E.
    + rewrite prob_ret. simpl. destruct (occu_eqb_spec o o'); [congruence|auto].
    + rewrite prob_bind_uniform. apply qsum_map_ext. intros s2 Hs2.
      rewrite <- E in Hs2. apply others_In in Hs2 as (_ & c2 & Hc2 & _).
      rewrite prob_bind_of_opt, Hc2, prob_ret. unfold swapped. rewrite Hc1, Hc2.
      unfold apply_step; simpl. destruct (occu_eqb _ o'); ring.
  - unfold others at 2. rewrite qsum_filter. apply qsum_map_ext. intros s2 Hs2.
    unfold differ. rewrite Hc1. destruct (nth_error o s2) as [c2|]; simpl; auto.
    destruct (negb (c2 =? c1)); auto.
Qed.

Lemma swapped_nth o s1 s2 c1 c2 :
  nth_error o s1 = Some c1 -> nth_error o s2 = Some c2 ->
  nth_error (swapped o s1 s2) s1 = Some c2 /\ nth_error (swapped o s1 s2) s2 = Some c1.
Proof.
  intros H1 H2. assert (s1 < length o) by (eapply nth_error_Some_lt; eauto).
  assert (s2 < length o) by (eapply nth_error_Some_lt; eauto).
  unfold swapped. rewrite H1, H2. split.
  - destruct (Nat.eq_dec s1 s2) as [->|Hne].
    + rewrite nth_error_upd_eq by (rewrite length_upd; auto). congruence.
    + rewrite nth_error_upd_neq by auto. apply nth_error_upd_eq; auto.
  - apply nth_error_upd_eq. rewrite length_upd; auto.
Qed.

Lemma swapped_invol o s1 s2 c1 c2 :
  nth_error o s1 = Some c1 -> nth_error o s2 = Some c2 ->
  swapped (swapped o s1 s2) s2 s1 = o.
Proof.
  intros H1 H2. destruct (swapped_nth H1 H2) as [E1 E2].
  unfold swapped at 1. rewrite E1, E2. unfold swapped. rewrite H1, H2.
  rewrite upd_upd_eq. destruct (Nat.eq_dec s1 s2) as [->|Hne].
  - rewrite !upd_upd_eq. apply upd_same; auto.
  - rewrite (@upd_upd_neq _ o s1 s2) by auto.
    rewrite upd_upd_eq, (@upd_same _ o s2) by auto. apply upd_same; auto.
Qed.

Lemma swapped_other o s1 s2 s : s <> s1 -> s <> s2 -> nth_error (swapped o s1 s2) s = nth_error o s.
Proof.
  intros H1 H2. unfold swapped. destruct (nth_error o s1); auto. destruct (nth_error o s2); auto.
  rewrite !nth_error_upd_neq; auto.
Qed.

(** Two-site exchange permutes the values seen on any duplicate-free site list
    containing both. *)
Lemma swapped_count (f : option nat -> bool) o s1 s2 c1 c2 l :
  NoDup l -> In s1 l -> In s2 l -> nth_error o s1 = Some c1 -> nth_error o s2 = Some c2 ->
  countb (fun s => f (nth_error (swapped o s1 s2) s)) l = countb (fun s => f (nth_error o s)) l.
Proof.
  intros Hnd H1 H2 E1 E2. destruct (swapped_nth E1 E2) as [F1 F2].
  destruct (Nat.eq_dec s1 s2) as [->|Hne].
  - apply countb_ext. intros s _. f_equal. destruct (Nat.eq_dec s s2) as [->|]; [congruence|].
    apply swapped_other; auto.
  - apply in_split in H1 as (a & b & ->).
    assert (P : Permutation (a ++ s1 :: b) (s1 :: a ++ b)) by (symmetry; apply Permutation_middle).
    assert (In s2 (a ++ b)).
    { rewrite in_app_iff in *. simpl in H2. destruct H2 as [H2|[H2|H2]]; auto. congruence. }
    apply in_split in H as (x & y & Exy). rewrite Exy in P.
    assert (P2 : Permutation (a ++ s1 :: b) (s1 :: s2 :: x ++ y)).
    { rewrite P. constructor. symmetry. apply Permutation_middle. }
    rewrite !(countb_perm _ P2), !countb_cons, F1, F2, E1, E2.
    assert (Nd : NoDup (s1 :: s2 :: x ++ y)) by (eapply Permutation_NoDup; eauto).
    rewrite (@countb_ext _ (fun s => f (nth_error (swapped o s1 s2) s)) (fun s => f (nth_error o s)) (x ++ y)).
    + destruct (f (Some c1)), (f (Some c2)); lia.
    + intros s Hs. f_equal. inversion Nd as [|? ? Na Nb]. inversion Nb as [|? ? Nc Nd'].
      apply swapped_other; intros ->; [apply Na; right; auto|auto].
Qed.

Lemma swap_symmetric o o' :
  valid_occu sls N o -> valid_occu sls N o' ->
  transition (swap_propose u) o o' = transition (swap_propose u) o' o.
Proof.
  intros Hv Hv'. unfold transition.
  destruct (list_eq_dec Nat.eq_dec o o') as [->|Hne]; [auto|].
  rewrite !swap_prob_expand. apply qsum_map_ext. intros [sl q] Hin; simpl. f_equal.
  assert (Hsl : In sl sls).
  { apply in_combine_l in Hin. apply us_In in Hin. tauto. }
  rewrite !qsum_map_scale. f_equal.
  set (W := fun o s => match nth_error o s with
                       | Some c => (1 / Qc_of_nat (length (others o sl c)))%Qc | None => 0%Qc end).
  assert (E : forall a b, valid_occu sls N a -> a <> b ->
    qsum (map (fun s => prob (swap_at a sl s) (fun st => occu_eqb (apply_step a st) b)) (sl_active sl))
    = qsum (map (fun s1 => qsum (map (fun s2 =>
        if differ a s1 s2 && occu_eqb (swapped a s1 s2) b then W a s1 else 0%Qc) (sl_active sl))) (sl_active sl))).
  { clear - Lay Hsl. intros a b Ha Hab. apply qsum_map_ext. intros s1 Hs1.
    destruct (active_site_occu Ha Hsl Hs1) as (_ & c & Hc & _).
    rewrite (swap_at_prob Ha Hsl Hs1 Hc Hab). unfold W. rewrite Hc. auto. }
  rewrite (E o o'), (E o' o) by auto. clear E.
  rewrite (qsum_swap (fun s1 s2 => if differ o' s1 s2 && occu_eqb (swapped o' s1 s2) o then W o' s1 else 0%Qc)).
  apply qsum_map_ext. intros s1 Hs1. apply qsum_map_ext. intros s2 Hs2.
  destruct (active_site_occu Hv Hsl Hs1) as (_ & c1 & Hc1 & _).
  destruct (active_site_occu Hv Hsl Hs2) as (_ & c2 & Hc2 & _).
  destruct (active_site_occu Hv' Hsl Hs1) as (_ & d1 & Hd1 & _).
  destruct (active_site_occu Hv' Hsl Hs2) as (_ & d2 & Hd2 & _).
  destruct (swapped_nth Hc1 Hc2) as [F1 F2]. destruct (swapped_nth Hd2 Hd1) as [G2 G1].
  unfold differ. rewrite Hc1, Hc2, Hd1, Hd2.
  destruct (occu_eqb_spec (swapped o s1 s2) o') as [E|E].
  - assert (E' : swapped o' s2 s1 = o) by (rewrite <- E; eapply swapped_invol; eauto).
    destruct (occu_eqb_spec (swapped o' s2 s1) o); [|congruence].
    assert (d1 = c2) by congruence. assert (d2 = c1) by congruence. subst d1 d2.
    rewrite (Nat.eqb_sym c2 c1). destruct (c1 =? c2); simpl; auto.
    assert (El : length (others o sl c1) = length (others o' sl c1)).
    { rewrite <- E. symmetry.
      apply (swapped_count (fun x => match x with Some c' => negb (c' =? c1) | None => false end) (c1 := c1) (c2 := c2)); auto.
      eapply lay_active_nodup; eauto. }
    unfold W. rewrite Hc1, Hd2, El. auto.
  - destruct (occu_eqb_spec (swapped o' s2 s1) o) as [E'|E'].
    + exfalso. apply E. rewrite <- E'. eapply swapped_invol; eauto.
    + rewrite !andb_false_r; auto.
Qed.

(** Swaps conserve every species count. *)
Lemma upd2_perm {A} (l : list A) i j x y :
  nth_error l i = Some x -> nth_error l j = Some y -> Permutation (upd (upd l i y) j x) l.
Proof.
  intros Hi Hj. destruct (Nat.eq_dec i j) as [->|Hne].
  - rewrite upd_upd_eq, upd_same; auto.
  - destruct (@upd_split _ l i y x Hi) as (a & b & -> & La & ->).
    assert (Hj' : nth_error (a ++ y :: b) j = Some y).
    { clear - Hj Hne La. revert i j Hj Hne La. induction a as [|z a IH]; intros i j Hj Hne La; simpl in *.
      - destruct j; simpl in *; [lia|auto].
      - destruct j; simpl in *; auto. apply (IH (length a)); auto. lia. }
    destruct (@upd_split _ (a ++ y :: b) j x y Hj') as (a' & b' & E & La' & ->).
    transitivity (x :: a' ++ b'); [symmetry; apply Permutation_middle|].
    transitivity (x :: a ++ b); [|apply Permutation_middle].
    constructor. apply Permutation_cons_inv with (a := y).
    rewrite Permutation_middle, <- E. symmetry. apply Permutation_middle.
Qed.

Lemma swap_counts occu s1 s2 c1 c2 act t :
  valid_occu sls N occu -> legal_swap sls occu s1 s2 c1 c2 ->
  get_dim_ids_table sls act = Some t ->
  occu_to_counts (apply_step occu [(s1, c2); (s2, c1)]) (n_dims_of sls) t =
  occu_to_counts occu (n_dims_of sls) t.
Proof.
  intros Hv (sl & [Hin Hs1] & [_ Hs2] & Hc1 & Hc2 & Hne) Et.
  destruct (dim_table act Lay) as (t' & E' & _ & G1 & _). assert (t' = t) by congruence; subst t'.
  destruct (valid_dims act Lay Et Hv) as (dims & Ed & Hlen & V1 & V2).
  destruct (active_site_occu Hv Hin Hs1) as (_ & x & Hx & Hxe). assert (x = c1) by congruence; subst x.
  destruct (active_site_occu Hv Hin Hs2) as (_ & x & Hx' & Hxe2). assert (x = c2) by congruence; subst x.
  apply In_nth_error in Hin as Hk. destruct Hk as [k Hk].
  apply In_nth_error in Hxe as [p1 Hp1]. apply In_nth_error in Hxe2 as [p2 Hp2].
  assert (Hct : forall s, In s (sl_active sl) -> In s (counted act sl)).
  { intros s Hs. destruct act; simpl; auto. eapply lay_active; eauto. }
  assert (D1 := V1 _ _ _ _ _ Hk (Hct _ Hs1) Hc1 Hp1).
  assert (D2 := V1 _ _ _ _ _ Hk (Hct _ Hs2) Hc2 Hp2).
  assert (K1 := G1 _ _ _ _ _ Hk (Hct _ Hs1) Hp2).
  assert (K2 := G1 _ _ _ _ _ Hk (Hct _ Hs2) Hp1).
  unfold apply_step; simpl. unfold occu_to_counts.
  rewrite (@occu_dims_upd _ _ _ _ _ _ (@occu_dims_upd _ _ _ _ _ _ Ed K1) K2), Ed. simpl.
  set (dims' := upd (upd dims s1 _) s2 _).
  assert (P : Permutation dims' dims) by (apply upd2_perm; auto).
  assert (Ef : forallb (fun d => (d <? Z.of_nat (n_dims_of sls))%Z) dims' =
               forallb (fun d => (d <? Z.of_nat (n_dims_of sls))%Z) dims).
  { apply eq_true_iff_eq. rewrite !forallb_forall. split; intros H x Hx0; apply H.
    - eapply Permutation_in; [apply Permutation_sym|]; eauto.
    - eapply Permutation_in; eauto. }
  rewrite Ef. destruct (forallb _ dims); auto. f_equal. apply map_ext. intros i.
  f_equal. apply countb_perm; auto.
Qed.

Lemma swap_valid occu s1 s2 c1 c2 :
  valid_occu sls N occu -> legal_swap sls occu s1 s2 c1 c2 ->
  valid_occu sls N (apply_step occu [(s1, c2); (s2, c1)]).
Proof.
  intros Hv (sl & [Hin Hs1] & [_ Hs2] & Hc1 & Hc2 & Hne). unfold apply_step; simpl.
  destruct (active_site_occu Hv Hin Hs1) as (_ & x & Hx & Hxe).
  destruct (active_site_occu Hv Hin Hs2) as (_ & x' & Hx' & Hxe2).
  assert (x = c1) by congruence. assert (x' = c2) by congruence. subst.
  eapply upd_valid; eauto; [eapply upd_valid; eauto|]; eapply lay_active; eauto.
Qed.

Lemma flip_valid occu s c :
  valid_occu sls N occu -> legal_flip sls occu s c -> valid_occu sls N (apply_step occu [(s, c)]).
Proof.
  intros Hv (sl & [Hin Hs] & Hc & _). unfold apply_step; simpl.
  eapply upd_valid; eauto. eapply lay_active; eauto.
Qed.

End Ushers.

Lemma flip_mass u occu : mass (flip_propose u occu) = 1%Qc.
Proof.
  unfold flip_propose. rewrite mass_bind; [apply mass_choice_p|]. intros sl _.
  rewrite mass_bind; [apply mass_uniform|]. intros s _.
  rewrite mass_bind; [apply mass_of_opt|]. intros c0 _.
  rewrite mass_bind; [apply mass_uniform|]. intros; apply mass_ret.
Qed.

Lemma swap_mass u occu : mass (swap_propose u occu) = 1%Qc.
Proof.
  unfold swap_propose. rewrite mass_bind; [apply mass_choice_p|]. intros sl _.
  rewrite mass_bind; [apply mass_uniform|]. intros s _.
  rewrite mass_bind; [apply mass_of_opt|]. intros c0 _.
  rewrite mass_bind; [apply mass_of_opt|]. intros so _.
  destruct (swap_options _ _ _); [apply mass_ret|].
  rewrite mass_bind; [apply mass_uniform|]. intros s2 _.
  rewrite mass_bind; [apply mass_of_opt|]. intros; apply mass_ret.
Qed.

(** ** MultiStep *)
Lemma sites_of_concat steps s : In s (sites_of (concat steps)) <-> exists st, In st steps /\ In s (map fst st).
Proof.
  unfold sites_of. rewrite in_map_iff. split.
  - intros (f & <- & Hf). apply in_concat in Hf as (st & Hst & Hf). exists st. split; auto.
    apply in_map; auto.
  - intros (st & Hst & Hs). apply in_map_iff in Hs as (f & <- & Hf). exists f. split; auto.
    apply in_concat. eauto.
Qed.

Lemma fresh_sites_true st steps :
  fresh_sites st steps = true <-> forall s, In s (map fst st) -> forall st', In st' steps -> ~ In s (map fst st').
Proof.
  unfold fresh_sites. rewrite forallb_forall. split.
  - intros H s Hs st' Hst' Hs'. specialize (H s Hs). apply negb_true_iff in H.
    assert (memb s (sites_of (concat steps)) = true); [|congruence].
    apply memb_In, sites_of_concat. eauto.
  - intros H s Hs. apply negb_true_iff. apply not_true_is_false. rewrite memb_In, sites_of_concat.
    intros (st' & Hst' & Hs'). eapply H; eauto.
Qed.

Lemma share_no_site_snoc steps st :
  share_no_site steps -> (forall s, In s (map fst st) -> forall st', In st' steps -> ~ In s (map fst st')) ->
  share_no_site (steps ++ [st]).
Proof.
  intros H Hf i j si sj s Hij Hi Hj Hs Hs'.
  destruct (Nat.lt_ge_cases i (length steps)) as [Li|Li];
  destruct (Nat.lt_ge_cases j (length steps)) as [Lj|Lj].
  - rewrite nth_error_app1 in Hi, Hj by auto. exact (H i j si sj s Hij Hi Hj Hs Hs').
  - rewrite nth_error_app1 in Hi by auto. rewrite nth_error_app2 in Hj by auto.
    destruct (j - length steps) as [|m]; [injection Hj as <-|destruct m; discriminate].
    exact (Hf s Hs' si (nth_error_In _ _ Hi) Hs).
  - rewrite nth_error_app1 in Hj by auto. rewrite nth_error_app2 in Hi by auto.
    destruct (i - length steps) as [|m]; [injection Hi as <-|destruct m; discriminate].
    exact (Hf s Hs sj (nth_error_In _ _ Hj) Hs').
  - rewrite nth_error_app2 in Hi, Hj by auto.
    destruct (i - length steps) eqn:Ei; [|destruct n; discriminate].
    destruct (j - length steps) eqn:Ej; [|destruct n; discriminate]. lia.
Qed.

Lemma apply_step_app occu a b : apply_step occu (a ++ b) = apply_step (apply_step occu a) b.
Proof. unfold apply_step. apply fold_left_app. Qed.

Lemma chained_snoc propose steps : forall occu st,
  chained propose occu steps -> outcome (propose (apply_step occu (concat steps))) st ->
  chained propose occu (steps ++ [st]).
Proof.
  induction steps as [|a steps IH]; intros occu st Hc Ho; simpl in *.
  - constructor; auto. constructor.
  - inversion Hc as [|? ? ? Ha Hs]; subst. constructor; auto. apply IH; auto.
    rewrite <- apply_step_app. auto.
Qed.

Lemma multi_loop_spec propose n : forall steps occu0 occu res,
  chained propose occu0 steps -> share_no_site steps -> occu = apply_step occu0 (concat steps) ->
  outcome (multi_loop propose n steps occu) res ->
  chained propose occu0 res /\ share_no_site res /\
  length steps <= length res <= length steps + n.
Proof.
  induction n as [|n IH]; intros steps occu0 occu res Hc Hs Ho H; simpl in H.
  - apply outcome_ret in H. subst. repeat split; auto; lia.
  - apply outcome_bind in H as (st & Hst & H). destruct (fresh_sites st steps) eqn:E.
    + apply (IH (steps ++ [st]) occu0) in H.
      * rewrite app_length in H. simpl in H. intuition lia.
      * apply chained_snoc; auto. subst; auto.
      * apply share_no_site_snoc; auto. apply fresh_sites_true; auto.
      * subst. rewrite concat_app, apply_step_app. simpl. rewrite app_nil_r. auto.
    + apply (IH steps occu0) in H; auto. intuition lia.
Qed.

Lemma multi_outcome propose lens p occu flips :
  outcome (multi_propose propose lens p occu) flips ->
  exists len subs, In len lens /\ flips = concat subs /\ chained propose occu subs /\
    share_no_site subs /\ 1 <= length subs <= Nat.max 1 len.
Proof.
  intros H. unfold multi_propose in H.
  apply outcome_bind in H as (len & Hl & H). apply outcome_bind in H as (st & Hst & H).
  apply outcome_bind in H as (subs & Hs & H). apply outcome_ret in H.
  apply outcome_choice_p in Hl.
  apply (@multi_loop_spec propose (len - 1) [st] occu) in Hs.
  - destruct Hs as (H1 & H2 & H3). simpl in H3. exists len, subs. do 4 (split; [assumption|]). clear - H3; unfold step in *; lia.
  - constructor; auto; constructor.
  - intros [|i] [|j] si sj s Hij Hi Hj; try lia; simpl in *.
    + destruct j; discriminate.
    + destruct i; discriminate.
    + destruct i; discriminate.
  - simpl. rewrite app_nil_r; auto.
Qed.

Lemma multi_loop_reach propose more : forall steps occu,
  chained propose occu more -> share_no_site (steps ++ more) ->
  outcome (multi_loop propose (length more) steps occu) (steps ++ more).
Proof.
  induction more as [|st more IH]; intros steps occu Hc Hs; simpl.
  - rewrite app_nil_r. apply outcome_ret; auto.
  - inversion Hc as [|? ? ? Ha Hb]; subst. apply outcome_bind. exists st. split; auto.
    assert (E : fresh_sites st steps = true).
    { apply fresh_sites_true. intros s Hs1 st' Hst' Hs2. apply In_nth_error in Hst' as [i Hi].
      apply (Hs (length steps) i st st' s).
      - apply nth_error_Some_lt in Hi. lia.
      - rewrite nth_error_app2, Nat.sub_diag by lia. auto.
      - rewrite nth_error_app1; auto. eapply nth_error_Some_lt; eauto.
      - auto.
      - auto. }
    rewrite E. replace (steps ++ st :: more) with ((steps ++ [st]) ++ more) by (rewrite <- app_assoc; auto).
    apply IH; auto. rewrite <- app_assoc. auto.
Qed.

Lemma multi_reach propose lens p occu subs :
  outcome (choice_p lens p) (length subs) -> subs <> [] ->
  chained propose occu subs -> share_no_site subs ->
  outcome (multi_propose propose lens p occu) (concat subs).
Proof.
  intros Hl Hne Hc Hs. destruct subs as [|st subs]; [congruence|].
  inversion Hc as [|? ? ? Ha Hb]; subst. unfold multi_propose.
  apply outcome_bind. exists (length (st :: subs)). split; auto.
  apply outcome_bind. exists st. split; auto.
  apply outcome_bind. exists (st :: subs). split.
  - simpl length. simpl. rewrite Nat.sub_0_r. apply (@multi_loop_reach propose subs [st]); auto.
  - apply outcome_ret; auto.
Qed.

Lemma chained_inv propose (I : list nat -> Prop) subs : forall occu,
  (forall o st, I o -> outcome (propose o) st -> I (apply_step o st)) ->
  I occu -> chained propose occu subs -> I (apply_step occu (concat subs)).
Proof.
  induction subs as [|st subs IH]; intros occu H Hi Hc; simpl; auto.
  inversion Hc as [|? ? ? Ha Hb]; subst. rewrite apply_step_app. apply IH; auto.
Qed.

Lemma chained_sites propose (I : list nat -> Prop) (S : nat -> Prop) subs : forall occu,
  (forall o st, I o -> outcome (propose o) st ->
     I (apply_step o st) /\ NoDup (map fst st) /\ forall s, In s (map fst st) -> S s) ->
  I occu -> chained propose occu subs ->
  Forall (fun st => NoDup (map fst st) /\ forall s, In s (map fst st) -> S s) subs.
Proof.
  induction subs as [|st subs IH]; intros occu H Hi Hc; constructor.
  - inversion Hc as [|? ? ? Ha Hb]; subst. apply (H _ _ Hi Ha).
  - inversion Hc as [|? ? ? Ha Hb]; subst. apply (IH (apply_step occu st)); auto. apply (H _ _ Hi Ha).
Qed.

Lemma share_NoDup subs : share_no_site subs -> Forall (fun st : step => NoDup (map fst st)) subs ->
  NoDup (map fst (concat subs)).
Proof.
  intros Hs Hf. rewrite concat_map. apply NoDup_concat_intro.
  - intros l Hl. apply in_map_iff in Hl as (st & <- & Hst). rewrite Forall_forall in Hf. auto.
  - intros i j l l' x Hi Hj Hx Hx'. destruct (Nat.eq_dec i j) as [|Hij]; auto. exfalso.
    apply nth_error_map_inv in Hi as (si & Hi & ->). apply nth_error_map_inv in Hj as (sj & Hj & ->).
    exact (Hs _ _ _ _ _ Hij Hi Hj Hx Hx').
Qed.

(** ** Composite *)
Lemma add_spec c u w c' ok : add_mcusher c u w = (c', ok) ->
  co_ushers c' = co_ushers c ++ [u] /\ co_weights c' = co_weights c ++ [w] /\
  (ok = true <-> qsum (co_weights c') <> 0%Qc) /\
  (ok = true -> co_p c' = map (fun x => (x / qsum (co_weights c'))%Qc) (co_weights c')).
Proof.
  unfold add_mcusher. destruct (Qceqb_spec (qsum (co_weights c ++ [w])) 0) as [E|E];
    intros H; injection H as <- <-; simpl; intuition congruence.
Qed.

Definition add_many (l : list ((list nat -> prog step) * Qc)) : composite * bool :=
  fold_left (fun s uw => add_mcusher (fst s) (fst uw) (snd uw)) l (empty_composite, true).

Lemma add_many_lists l : co_ushers (fst (add_many l)) = map fst l /\ co_weights (fst (add_many l)) = map snd l.
Proof.
  induction l as [|[u w] l IH] using rev_ind; auto. unfold add_many in *.
  rewrite fold_left_app. simpl. set (s := fold_left _ l _) in *.
  destruct (add_mcusher (fst s) u w) as [c' ok] eqn:E. apply add_spec in E as (E1 & E2 & _).
  simpl. rewrite E1, E2, !map_app. destruct IH as [-> ->]. auto.
Qed.

Lemma qsum_div l k : qsum (map (fun x => (x / k)%Qc) l) = (qsum l / k)%Qc.
Proof. unfold Qcdiv. induction l as [|x l IH]; simpl; [ring|]. rewrite IH. ring. Qed.

Lemma add_many_p l : l <> [] -> snd (add_many l) = true ->
  qsum (map snd l) <> 0%Qc /\
  co_p (fst (add_many l)) = map (fun uw => (snd uw / qsum (map snd l))%Qc) l /\
  qsum (co_p (fst (add_many l))) = 1%Qc.
Proof.
  intros Hne Hok. pose proof (add_many_lists l) as [_ Hw].
  destruct l as [|[u w] l _] using rev_ind; [congruence|]. unfold add_many in *.
  rewrite fold_left_app in *. simpl in *. set (s := fold_left _ l _) in *.
  destruct (add_mcusher (fst s) u w) as [c' ok] eqn:E. simpl in *. subst ok.
  apply add_spec in E as (_ & _ & E3 & E4). specialize (E4 eq_refl).
  assert (E5 := proj1 E3 eq_refl). rewrite Hw in *. split; auto. split.
  - rewrite E4, map_map. auto.
  - rewrite E4, qsum_div. unfold Qcdiv. apply Qcmult_inv_r; auto.
Qed.

Lemma composite_prob c occu P :
  co_ushers c <> [] -> length (co_ushers c) = length (co_p c) ->
  (forall x, In x (co_p c) -> (0 <= x)%Qc) -> qsum (co_p c) = 1%Qc ->
  prob (composite_propose c occu) P =
  qsum (map (fun q => (snd q * prob (fst q occu) P)%Qc) (combine (co_ushers c) (co_p c))).
Proof. intros. unfold composite_propose. rewrite prob_bind_choice_p; auto. Qed.

Lemma choice_p_bad {A B} (l : list A) p (f : A -> prog B) P :
  (length l <> length p \/ l = [] \/ (exists x, In x p /\ ~ (0 <= x)%Qc) \/ qsum p <> 1%Qc) ->
  prob (pbind (choice_p l p) f) P = 0%Qc.
Proof.
  intros H. unfold choice_p. destruct (_ && _) eqn:E; [|rewrite prob_bind; simpl; ring].
  exfalso. rewrite !andb_true_iff in E. destruct E as [[[E1 E2] E3] E4].
  apply Nat.eqb_eq in E1. rewrite forallb_forall in E3.
  destruct (Qceqb_spec (qsum p) 1); [|discriminate].
  destruct H as [H|[->|[(x & Hx & Hn)|H]]]; auto.
  - discriminate.
  - specialize (E3 _ Hx). destruct (Qcleb_spec 0 x); [auto|discriminate].
Qed.

Lemma composite_symmetric c o o' :
  (forall u, In u (co_ushers c) -> transition u o o' = transition u o' o) ->
  transition (composite_propose c) o o' = transition (composite_propose c) o' o.
Proof.
  intros H. unfold transition, composite_propose. rewrite !prob_bind.
  apply qsum_map_ext. intros [w [u|]] Hin; simpl; auto. f_equal. apply H.
  apply (outcome_choice_p (p := co_p c)). exists w; auto.
Qed.
