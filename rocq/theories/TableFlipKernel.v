(** Transition probabilities of table flips. *)
From Verif Require Export TableFlipTop.
Set Implicit Arguments.
Unset Strict Implicit.
Open Scope nat_scope.

Lemma qsum_combine_pick_at {A B} (l : list A) (p : list B) (F : A * B -> Qc) k a b :
  nth_error l k = Some a -> nth_error p k = Some b ->
  (forall k' a' b', k' <> k -> nth_error l k' = Some a' -> nth_error p k' = Some b' -> F (a', b') = 0%Qc) ->
  qsum (map F (combine l p)) = F (a, b).
Proof.
  revert p k; induction l as [|x l IH]; intros [|y p] [|k] Hk Hq H; simpl in *; try discriminate.
  - injection Hk as ->. injection Hq as ->. rewrite qsum_map_0; [ring|].
    intros [a' b'] Hin. apply In_nth_error in Hin as [k' Hk']. rewrite nth_error_combine in Hk'.
    destruct (nth_error l k') eqn:E1; [|discriminate]. destruct (nth_error p k') eqn:E2; [|discriminate].
    injection Hk' as -> ->. apply (H (S k')); auto.
  - rewrite (H 0 x y); auto. rewrite (IH p k); auto; [ring|].
    intros k' a' b' Hne. apply (H (S k')). lia.
Qed.

Lemma qsum_combine_zero {A B} (l : list A) (p : list B) (F : A * B -> Qc) :
  (forall k a b, nth_error l k = Some a -> nth_error p k = Some b -> F (a, b) = 0%Qc) ->
  qsum (map F (combine l p)) = 0%Qc.
Proof.
  intros H. apply qsum_map_0. intros [a b] Hin. apply In_nth_error in Hin as [k Hk].
  rewrite nth_error_combine in Hk.
  destruct (nth_error l k) eqn:E1; [|discriminate]. destruct (nth_error p k) eqn:E2; [|discriminate].
  injection Hk as -> ->. eapply H; eauto.
Qed.

Lemma qsum_pos_ex l : (forall x, In x l -> (0 <= x)%Qc) -> forallb (fun x => Qceqb x 0) l = false ->
  (0 < qsum l)%Qc.
Proof.
  induction l as [|x l IH]; intros Hp H; simpl in *; [discriminate|].
  assert (Hx : (0 <= x)%Qc) by (apply Hp; left; auto).
  assert (Hl : (0 <= qsum l)%Qc).
  { apply qsum_nonneg. intros; apply Hp; right; auto. }
  destruct (Qceqb_spec x 0) as [->|Hne]; simpl in H.
  - assert ((0 < qsum l)%Qc) by (apply IH; auto; intros; apply Hp; right; auto). qclra.
  - apply Qcle_lt_or_eq in Hx as [Hx|Hx]; [qclra|congruence].
Qed.

Lemma choose_section_prob {B} (mw : list Qc) (f : nat -> prog B) P :
  (forall x, In x mw -> (0 <= x)%Qc) -> forallb (fun x => Qceqb x 0) mw = false ->
  prob (pbind (choose_section mw) f) P =
  qsum (map (fun q => (snd q / qsum mw * prob (f (fst q)) P)%Qc) (combine (seq 0 (length mw)) mw)).
Proof.
  intros Hp Hz. unfold choose_section. rewrite Hz.
  assert (Hs := qsum_pos_ex Hp Hz).
  assert (Hn : existsb (fun x => Qcltb x 0) mw = false).
  { apply not_true_is_false. intros E. apply existsb_exists in E as (x & Hx & E).
    destruct (Qcltb_spec x 0) as [L|L]; [|discriminate]. specialize (Hp x Hx). qclra. }
  rewrite Hn. rewrite prob_bind_choice_p.
  - assert (E : forall l, combine l (map (fun x => x / qsum mw)%Qc mw) =
              map (fun q : nat * Qc => (fst q, (snd q / qsum mw)%Qc)) (combine l mw)).
    { generalize (qsum mw) as k. clear. induction mw as [|x mw IH]; intros k [|i l]; simpl; auto. rewrite IH; auto. }
    rewrite E, map_map. auto.
  - rewrite seq_length, map_length. auto.
  - destruct mw; [discriminate|]. discriminate.
  - intros x Hx. apply in_map_iff in Hx as (y & <- & Hy). apply Qcdiv_ge_iff; auto.
    rewrite Qcmult_0_l. auto.
  - rewrite qsum_div. field. intros E. rewrite E in Hs. qclra.
Qed.

Lemma combine_seq_nth {B} (l : list B) : forall s i x, In (i, x) (combine (seq s (length l)) l) ->
  s <= i /\ nth_error l (i - s) = Some x.
Proof.
  induction l as [|y l IH]; intros s i x H; simpl in H; [tauto|]. destruct H as [E|H].
  - injection E as -> ->. rewrite Nat.sub_diag. auto.
  - apply IH in H as [H1 H2]. split; [lia|]. replace (i - s) with (S (i - S s)) by lia. auto.
Qed.

Lemma choose_section_outcome mw i : outcome (choose_section mw) i ->
  forallb (fun x => Qceqb x 0) mw = false -> exists x, nth_error mw i = Some x /\ x <> 0%Qc.
Proof.
  intros H Hz. unfold choose_section in H. rewrite Hz in H.
  destruct (existsb _ mw); [apply outcome_fail in H; tauto|].
  apply outcome_choice_p_nz in H as (q & Hq & Hne).
  replace (length mw) with (length (map (fun x => (x / qsum mw)%Qc) mw)) in Hq by apply map_length.
  apply combine_seq_nth in Hq as [_ Hq]. rewrite Nat.sub_0_r in Hq.
  apply nth_error_map_inv in Hq as (x & Hx & ->). exists x. split; auto.
  intros ->. apply Hne. unfold Qcdiv. ring.
Qed.

Lemma prob_outcome_ne {A} (m : prog A) P : prob m P <> 0%Qc -> exists x, outcome m x /\ P x = true.
Proof.
  unfold prob. induction m as [|[w [x|]] m IH]; simpl; intros H.
  - congruence.
  - destruct (P x) eqn:E.
    + exists x. split; auto. exists w. left; auto.
    + destruct IH as (y & [w' Hy] & Hp); [intros E'; apply H; rewrite E'; ring|].
      exists y. split; auto. exists w'. right; auto.
  - destruct IH as (y & [w' Hy] & Hp); [intros E'; apply H; rewrite E'; ring|].
    exists y. split; auto. exists w'. right; auto.
Qed.

Lemma prob_bind_bool {A} (m : prog bool) (x y : prog A) P :
  prob (draw b <- m; if b then x else y) P =
  (prob m (fun b => b) * prob x P + prob m negb * prob y P)%Qc.
Proof.
  rewrite prob_bind. induction m as [|[w [[|]|]] m IH]; simpl; [unfold prob; simpl; ring| | |].
  all: rewrite IH; unfold prob; simpl; ring.
Qed.

Section Kernel.
Variables (N : nat) (tf : tableflip).
Hypothesis Ok : tf_ok N tf.
Let sls := tf_sls tf.
Let Lay : layout sls N := tk_layout Ok.
Let dirs := flip_directions (tf_table tf).
Local Notation lists := (has_lists tf).

Lemma dir_conserves i u : nth_error dirs i = Some u -> conserves_sites sls u.
Proof.
  intros H. apply nth_error_In, directions_In in H as (v & Hv & [->| ->]).
  - apply (tk_rows Ok Hv).
  - apply conserves_vopp, (tk_rows Ok Hv).
Qed.

Lemma dir_kernel i u a : nth_error dirs i = Some u -> In a (tf_A tf) ->
  length a = n_dims_of sls /\ dot a u = 0%Z.
Proof.
  intros H Ha. apply nth_error_In, directions_In in H as (v & Hv & [->| ->]).
  - apply (tk_kernel Ok Hv Ha).
  - destruct (tk_kernel Ok Hv Ha) as [H1 H2]. split; auto. rewrite dot_vopp, H2. auto.
Qed.

Lemma dir_inj i j u : nth_error dirs i = Some u -> nth_error dirs j = Some u -> i = j.
Proof.
  intros Hi Hj. pose proof (tk_distinct Ok) as H. rewrite NoDup_nth_error in H. apply H.
  - eapply nth_error_Some_lt; eauto.
  - fold dirs. congruence.
Qed.

Lemma opposite_neq i : opposite i <> i.
Proof.
  unfold opposite. pose proof (Nat.div_mod i 2) as E.
  destruct (Nat.eqb_spec (i mod 2) 1); lia.
Qed.

Lemma dir_nonzero i u : nth_error dirs i = Some u -> vopp u <> u.
Proof.
  intros Hi E. pose proof (opposite_nth Hi) as Ho. rewrite E in Ho.
  apply (opposite_neq (i := i)). eapply dir_inj; eauto.
Qed.

Lemma vadd_zero n u : length n = length u -> vadd n u = n -> vopp u = u.
Proof.
  revert u. induction n as [|x n IH]; intros [|y u] Hl H; simpl in *; try lia; auto.
  injection H as H1 H2. unfold vopp in *. simpl. f_equal; [lia|]. apply IH; auto.
Qed.

Lemma counts_length act o L : valid_occu sls N o -> lists act o L -> length (count_list L) = n_dims_of sls.
Proof. intros Hv HL. unfold count_list. rewrite map_length. eapply lists_length; eauto. Qed.

Lemma mask_some o L : valid_occu sls N o -> lists true o L ->
  exists mask, flip_weights_mask (tf_table tf) (count_list L) (tf_max tf) = Some mask.
Proof.
  intros Hv HL. unfold flip_weights_mask.
  rewrite (counts_length Hv HL), (tf_max_length Ok). fold sls.
  destruct (Nat.eqb_spec (length (tf_table tf)) 0) as [E|_].
  { exfalso. apply (tk_table Ok). destruct (tf_table tf); [auto|discriminate]. }
  assert (Hr : forallb (fun u => length u =? n_dims_of sls) (tf_table tf) = true).
  { apply forallb_forall. intros u Hu. apply Nat.eqb_eq. apply (tk_rows Ok Hu). }
  rewrite Hr, Nat.eqb_refl. simpl. eauto.
Qed.

(** The weights of the directions at given counts. *)
Definition mw_of (n nf : list Z) : list Qc :=
  masked (tf_weights tf)
    (if constraints_hold tf nf
     then match flip_weights_mask (tf_table tf) n (tf_max tf) with Some m => m | None => [] end
     else repeat false (2 * length (tf_table tf))).

Lemma mw_nonneg n nf x : In x (mw_of n nf) -> (0 <= x)%Qc.
Proof.
  unfold mw_of, masked. intros H. apply in_map_iff in H as ([w b] & <- & H). simpl.
  destruct b; [|discriminate]. apply in_combine_l in H. apply (tk_pos Ok) in H. qclra.
Qed.

Lemma mw_length o L nf : valid_occu sls N o -> lists true o L -> length (mw_of (count_list L) nf) = length dirs.
Proof.
  intros Hv HL. unfold mw_of, masked. rewrite map_length, combine_length, (tk_len Ok). unfold dirs.
  rewrite directions_length. destruct (mask_some Hv HL) as (m & Hm). rewrite Hm.
  destruct (constraints_hold tf nf).
  - rewrite (proj1 (mask_spec Hm)). lia.
  - rewrite repeat_length. lia.
Qed.

(** Weight of direction [i]: its table weight if feasible, else 0. *)
Lemma mw_nth o L nf i u x : valid_occu sls N o -> lists true o L ->
  nth_error dirs i = Some u -> nth_error (mw_of (count_list L) nf) i = Some x ->
  (x <> 0%Qc <-> constraints_hold tf nf = true /\ within (count_list L) (tf_max tf) u) /\
  (x <> 0%Qc -> nth_error (tf_weights tf) i = Some x).
Proof.
  intros Hv HL Hi Hx. unfold mw_of, masked in Hx. apply nth_error_map_inv in Hx as ([w b] & Hwb & ->).
  rewrite nth_error_combine in Hwb. destruct (nth_error (tf_weights tf) i) as [w'|] eqn:Ew; [|discriminate].
  destruct (mask_some Hv HL) as (m & Hm). rewrite Hm in Hwb. simpl.
  assert (Hw : (0 < w')%Qc) by (apply (tk_pos Ok); eapply nth_error_In; eauto).
  destruct (constraints_hold tf nf) eqn:Ec.
  - destruct (nth_error m i) as [b'|] eqn:Eb; [|discriminate]. injection Hwb as <- <-.
    pose proof (proj2 (mask_spec Hm) i u b' Hi Eb) as Hb.
    destruct b'; split.
    + split; intros; [split; auto; apply Hb; auto|]. intros E. rewrite E in Hw. qclra.
    + auto.
    + split; [congruence|]. intros [_ H]. apply Hb in H. discriminate.
    + congruence.
  - destruct (nth_error (repeat false (2 * length (tf_table tf))) i) as [b'|] eqn:Eb; [|discriminate].
    injection Hwb as <- <-. apply nth_error_In, repeat_spec in Eb. subst b'.
    split; [split; [congruence|intros [E _]; discriminate]|congruence].
Qed.

Lemma feasible_good o L i u : lists true o L -> nth_error dirs i = Some u ->
  within (count_list L) (tf_max tf) u -> good_dir tf o u.
Proof.
  intros HL Hi Hw. split; [eapply dir_conserves; eauto|].
  intros L' HL'. rewrite (has_lists_fun HL' HL). auto.
Qed.

(** ** Expansion of the proposal *)
Definition flips_prob (o : list nat) L nf (P : step -> bool) : Qc :=
  let mw := mw_of (count_list L) nf in
  if forallb (fun x => Qceqb x 0) mw then prob (swap_propose (tf_swapper tf) o) P
  else qsum (map (fun q => (snd q / qsum mw * prob (flip_sublattices (nth (fst q) dirs []) L (pairs tf)) P)%Qc)
               (combine (seq 0 (length mw)) mw)).

Lemma table_propose_prob o L Lf P : valid_occu sls N o -> lists true o L -> lists false o Lf ->
  prob (table_propose tf o) P =
  (prob (bernoulli (tf_swap_weight tf)) (fun b => b) * prob (swap_propose (tf_swapper tf) o) P +
   prob (bernoulli (tf_swap_weight tf)) negb * flips_prob o L (count_list Lf) P)%Qc.
Proof.
  intros Hv HL HLf. unfold table_propose.
  set (rest := (draw t <- of_opt (get_dim_ids_table (tf_sls tf) true); _)).
  assert (Hrest : prob rest P = flips_prob o L (count_list Lf) P).
  { unfold rest. clear rest. pose proof HL as HL'. pose proof HLf as HLf'.
    destruct HL as (t & Ht & HL & _). destruct HLf as (t' & Ht' & HLf & _).
    rewrite prob_bind_of_opt, Ht, prob_bind_of_opt, Ht', prob_bind_of_opt, HL, prob_bind_of_opt, HLf.
    destruct (mask_some Hv HL') as (m & Hm).
    assert (Emw : mw_of (count_list L) (count_list Lf) =
      masked (tf_weights tf) (if constraints_hold tf (count_list Lf) then m else repeat false (2 * length (tf_table tf)))).
    { unfold mw_of. rewrite Hm. auto. }
    rewrite prob_bind_of_opt.
    replace (if constraints_hold tf (count_list Lf) then flip_weights_mask (tf_table tf) (count_list L) (tf_max tf)
             else Some (repeat false (2 * length (tf_table tf))))
      with (Some (if constraints_hold tf (count_list Lf) then m else repeat false (2 * length (tf_table tf))))
      by (rewrite Hm; destruct (constraints_hold tf (count_list Lf)); auto).
    cbv beta iota zeta. rewrite <- Emw.
    assert (Hneg : existsb (fun x => Qcltb x 0) (mw_of (count_list L) (count_list Lf)) = false).
    { apply not_true_is_false. intros E. apply existsb_exists in E as (x & Hx & E).
      destruct (Qcltb_spec x 0) as [Hlt|Hlt]; [|discriminate]. apply mw_nonneg in Hx. qclra. }
    rewrite Hneg. unfold flips_prob.
    destruct (forallb _ (mw_of (count_list L) (count_list Lf))) eqn:Ez; auto.
    rewrite choose_section_prob; [|apply mw_nonneg|auto].
    apply qsum_map_ext. intros [i x] Hin. cbn [fst snd]. apply f_equal.
    assert (Hi : i < length dirs).
    { apply in_combine_l, in_seq in Hin. rewrite <- (mw_length (count_list Lf) Hv HL'). lia. }
    destruct (nth_error_lt dirs Hi) as [u Hu]. pose proof Hu as Hu'. unfold dirs in Hu'.
    rewrite directions_nth in Hu'. rewrite prob_bind_of_opt.
    destruct (nth_error (tf_table tf) (i / 2)) as [v|]; [|discriminate].
    injection Hu' as Hu'. rewrite (nth_error_nth _ _ _ Hu), <- Hu'. reflexivity. }
  rewrite <- Hrest. clear Hrest.
  apply prob_bind_bool.
Qed.

(** Possible outcomes: a swap, or a flip along a feasible direction. *)
Lemma table_outcome o L Lf st : valid_occu sls N o -> lists true o L -> lists false o Lf ->
  outcome (table_propose tf o) st ->
  outcome (swap_propose (tf_swapper tf) o) st \/
  (constraints_hold tf (count_list Lf) = true /\
   prob (bernoulli (tf_swap_weight tf)) negb <> 0%Qc /\
   exists i u x, nth_error dirs i = Some u /\ within (count_list L) (tf_max tf) u /\
     nth_error (mw_of (count_list L) (count_list Lf)) i = Some x /\ x <> 0%Qc /\
     outcome (flip_sublattices u L (pairs tf)) st).
Proof.
  intros Hv HL HLf H. unfold table_propose in H. apply outcome_bind in H as (b & Hb & H).
  destruct b; auto.
  assert (Hq : prob (bernoulli (tf_swap_weight tf)) negb <> 0%Qc).
  { unfold bernoulli in *. destruct (Qcleb_spec (tf_swap_weight tf) 0) as [|H0].
    - rewrite prob_ret. simpl. discriminate.
    - destruct (Qcleb_spec 1 (tf_swap_weight tf)) as [|H1].
      + apply outcome_ret in Hb. discriminate.
      + unfold prob. simpl. intros E. apply H1.
        assert (1 - tf_swap_weight tf = 0)%Qc by (rewrite <- E; ring).
        assert (tf_swap_weight tf = 1%Qc) by (rewrite <- (Qcplus_0_l (tf_swap_weight tf)), <- H2; ring).
        rewrite H3. apply Qcle_refl. }
  pose proof HL as HL'. pose proof HLf as HLf'.
  destruct HL as (t & Ht & HL & _). destruct HLf as (t' & Ht' & HLf & _).
  apply outcome_bind in H as (t1 & E1 & H). apply outcome_of_opt in E1. rewrite Ht in E1. injection E1 as <-.
  apply outcome_bind in H as (t1 & E1 & H). apply outcome_of_opt in E1. rewrite Ht' in E1. injection E1 as <-.
  apply outcome_bind in H as (t1 & E1 & H). apply outcome_of_opt in E1. rewrite HL in E1. injection E1 as <-.
  apply outcome_bind in H as (t1 & E1 & H). apply outcome_of_opt in E1. rewrite HLf in E1. injection E1 as <-.
  destruct (mask_some Hv HL') as (m & Hm).
  apply outcome_bind in H as (mask & E1 & H). apply outcome_of_opt in E1.
  assert (Emw : mw_of (count_list L) (count_list Lf) = masked (tf_weights tf) mask).
  { unfold mw_of. rewrite Hm in *. destruct (constraints_hold tf (count_list Lf)); congruence. }
  rewrite <- Emw in H.
  destruct (existsb _ _); [apply outcome_fail in H; tauto|].
  destruct (forallb _ _) eqn:Ez; auto. right.
  apply outcome_bind in H as (i & Hi & H).
  apply choose_section_outcome in Hi as (x & Hx & Hne); auto.
  assert (Hil : i < length dirs).
  { rewrite <- (mw_length (count_list Lf) Hv HL'). eapply nth_error_Some_lt; eauto. }
  destruct (nth_error_lt dirs Hil) as [u Hu].
  destruct (proj1 (proj1 (mw_nth Hv HL' Hu Hx)) Hne) as [Hc Hw].
  split; auto. split; auto. exists i, u, x. repeat (split; auto).
  apply outcome_bind in H as (v & Hvt & H). apply outcome_of_opt in Hvt.
  unfold dirs in Hu. rewrite directions_nth, Hvt in Hu. injection Hu as <-. auto.
Qed.

(** Counts of a swap outcome. *)
Lemma swap_lists act o L st : valid_occu sls N o -> lists act o L ->
  outcome (swap_propose (tf_swapper tf) o) st ->
  valid_occu sls N (apply_step o st) /\
  forall L', lists act (apply_step o st) L' -> count_list L' = count_list L.
Proof.
  intros Hv (t & Ht & HL & Hn) H.
  destruct (swap_outcome Lay (tk_swapper Ok) Hv H) as [(s1 & s2 & c1 & c2 & -> & Hs)|[-> _]].
  - split; [eapply swap_valid; eauto|]. intros L' (t' & Ht' & HL' & Hn').
    assert (t' = t) by congruence. subst t'.
    pose proof (swap_counts Lay Hv Hs Ht) as E. rewrite (tf_d_eq Ok) in Hn, Hn'. unfold sls in E. congruence.
  - split; auto. simpl. intros L' (t' & Ht' & HL' & Hn'). congruence.
Qed.

Lemma swap_prob_zero o o' L L' : valid_occu sls N o -> lists true o L -> lists true o' L' ->
  count_list L <> count_list L' -> transition (swap_propose (tf_swapper tf)) o o' = 0%Qc.
Proof.
  intros Hv HL HL' Hne. apply prob_false. intros st Hst.
  destruct (occu_eqb_spec (apply_step o st) o') as [<-|]; auto. exfalso. apply Hne. symmetry.
  apply (proj2 (swap_lists Hv HL Hst)); auto.
Qed.

Lemma flip_prob_zero o o' L L' i u : valid_occu sls N o -> lists true o L -> lists true o' L' ->
  nth_error dirs i = Some u -> within (count_list L) (tf_max tf) u ->
  count_list L' <> vadd (count_list L) u ->
  prob (flip_sublattices u L (pairs tf)) (fun st => occu_eqb (apply_step o st) o') = 0%Qc.
Proof.
  intros Hv HL HL' Hi Hw Hne. apply prob_false. intros st Hst.
  destruct (occu_eqb_spec (apply_step o st) o') as [<-|]; auto. exfalso. apply Hne.
  destruct (flip_along_outcome Ok Hv HL (feasible_good HL Hi Hw) Hst) as (_ & _ & Hv' & Hm).
  apply (moves_counts Ok Hv Hv' HL HL' (proj1 (dir_conserves Hi)) Hm).
Qed.

Lemma vadd_inj n u v : length n = length u -> length n = length v -> vadd n u = vadd n v -> u = v.
Proof.
  revert u v. induction n as [|x n IH]; intros [|y u] [|z v] H1 H2 H; simpl in *; try lia; auto.
  injection H as E1 E2. f_equal; [lia|]. apply IH; auto.
Qed.

(** Probability of a flip along direction [i]. *)
Lemma transition_flip o o' L Lf L' i u x : valid_occu sls N o -> valid_occu sls N o' ->
  lists true o L -> lists false o Lf -> lists true o' L' ->
  nth_error dirs i = Some u -> nth_error (mw_of (count_list L) (count_list Lf)) i = Some x -> x <> 0%Qc ->
  moves_as sls u o o' ->
  transition (table_propose tf) o o' =
  (prob (bernoulli (tf_swap_weight tf)) negb *
   (x / qsum (mw_of (count_list L) (count_list Lf)) * pairs_prob u L (pairs tf)))%Qc.
Proof.
  intros Hv Hv' HL HLf HL' Hi Hx Hne Hm.
  destruct (proj1 (proj1 (mw_nth Hv HL Hi Hx)) Hne) as [Hc Hw].
  pose proof (dir_conserves Hi) as Hcons.
  assert (Hul : length u = n_dims_of sls) by apply Hcons.
  assert (Hcnt : count_list L' = vadd (count_list L) u) by (apply (moves_counts Ok Hv Hv' HL HL' Hul Hm)).
  assert (Hdiff : count_list L <> count_list L').
  { intros E. apply (dir_nonzero Hi). apply (@vadd_zero (count_list L)); [|congruence].
    rewrite (counts_length Hv HL). auto. }
  unfold transition. rewrite (table_propose_prob _ Hv HL HLf).
  fold (transition (swap_propose (tf_swapper tf)) o o'). rewrite (swap_prob_zero Hv HL HL' Hdiff).
  assert (Hz : forallb (fun x => Qceqb x 0) (mw_of (count_list L) (count_list Lf)) = false).
  { apply not_true_is_false. intros E. rewrite forallb_forall in E. apply Hne.
    specialize (E x (nth_error_In _ _ Hx)). destruct (Qceqb_spec x 0); [auto|discriminate]. }
  unfold flips_prob. rewrite Hz.
  assert (Hil : i < length (mw_of (count_list L) (count_list Lf))) by (eapply nth_error_Some_lt; eauto).
  rewrite (@qsum_combine_pick_at _ _ _ _ _ i i x).
  - cbn [fst snd]. rewrite (nth_error_nth _ _ _ Hi).
    rewrite (flip_along_prob Ok Hv Hv' HL (feasible_good HL Hi Hw) Hm). ring.
  - rewrite nth_error_seq, (proj2 (Nat.ltb_lt _ _) Hil). auto.
  - auto.
  - intros k j y Hk Hj Hy. cbn [fst snd].
    assert (Hkl : k < length (mw_of (count_list L) (count_list Lf))) by (eapply nth_error_Some_lt; eauto).
    rewrite nth_error_seq, (proj2 (Nat.ltb_lt _ _) Hkl) in Hj. injection Hj as <-. simpl.
    rewrite (mw_length _ Hv HL) in Hkl. destruct (nth_error_lt dirs Hkl) as [v Hv0].
    rewrite (nth_error_nth _ _ _ Hv0).
    destruct (Qceqb_spec y 0) as [->|Hy0]; [unfold Qcdiv; ring|].
    destruct (proj1 (proj1 (mw_nth Hv HL Hv0 Hy)) Hy0) as [_ Hwv].
    rewrite (flip_prob_zero Hv HL HL' Hv0 Hwv); [ring|]. rewrite Hcnt. intros E.
    apply Hk. apply (@dir_inj k i u); auto. rewrite Hv0. f_equal.
    apply (@vadd_inj (count_list L)); auto; rewrite (counts_length Hv HL); auto.
    symmetry; apply (dir_conserves Hv0).
Qed.

(** Between occupancies of equal counts only swaps happen, symmetrically. *)
Lemma transition_same o o' L Lf L' Lf' : valid_occu sls N o -> valid_occu sls N o' ->
  lists true o L -> lists false o Lf -> lists true o' L' -> lists false o' Lf' ->
  count_list L' = count_list L -> count_list Lf' = count_list Lf ->
  transition (table_propose tf) o o' = transition (table_propose tf) o' o.
Proof.
  intros Hv Hv' HL HLf HL' HLf' E1 E2.
  assert (Hsw := swap_symmetric Lay (tk_swapper Ok) Hv Hv').
  assert (K : forall a b La Lfa Lb, valid_occu sls N a -> valid_occu sls N b ->
    lists true a La -> lists false a Lfa -> lists true b Lb -> count_list Lb = count_list La ->
    transition (table_propose tf) a b =
    ((prob (bernoulli (tf_swap_weight tf)) (fun b => b) +
      (if forallb (fun x => Qceqb x 0) (mw_of (count_list La) (count_list Lfa))
       then prob (bernoulli (tf_swap_weight tf)) negb else 0)) * transition (swap_propose (tf_swapper tf)) a b)%Qc).
  { intros a b La Lfa Lb Ha Hb HLa HLfa HLb E. unfold transition at 1.
    rewrite (table_propose_prob _ Ha HLa HLfa). unfold flips_prob.
    fold (transition (swap_propose (tf_swapper tf)) a b).
    destruct (forallb _ _); [unfold transition; ring|].
    rewrite qsum_combine_zero; [ring|]. intros k i x Hk Hx. cbn [fst snd].
    assert (Hkl : k < length (mw_of (count_list La) (count_list Lfa))) by (eapply nth_error_Some_lt; eauto).
    rewrite nth_error_seq, (proj2 (Nat.ltb_lt _ _) Hkl) in Hk. injection Hk as <-. simpl.
    rewrite (mw_length _ Ha HLa) in Hkl. destruct (nth_error_lt dirs Hkl) as [v Hv0].
    rewrite (nth_error_nth _ _ _ Hv0).
    destruct (Qceqb_spec x 0) as [->|Hx0]; [unfold Qcdiv; ring|].
    destruct (proj1 (proj1 (mw_nth Ha HLa Hv0 Hx)) Hx0) as [_ Hwv].
    rewrite (flip_prob_zero Ha HLa HLb Hv0 Hwv); [ring|]. rewrite E. intros E'.
    apply (dir_nonzero Hv0). apply (@vadd_zero (count_list La)); auto.
    rewrite (counts_length Ha HLa). symmetry; apply (dir_conserves Hv0). }
  rewrite (K o o' L Lf L'), (K o' o L' Lf' L); auto. rewrite E1, E2, Hsw. auto.
Qed.

(** The constraints keep holding. *)
Lemma constraints_moves o o' Lf Lf' i u : valid_occu sls N o -> valid_occu sls N o' ->
  lists false o Lf -> lists false o' Lf' -> nth_error dirs i = Some u -> moves_as sls u o o' ->
  constraints_hold tf (count_list Lf') = constraints_hold tf (count_list Lf).
Proof.
  intros Hv Hv' HLf HLf' Hi Hm. pose proof (dir_conserves Hi) as [Hul _].
  rewrite (moves_full_counts Ok Hv Hv' HLf HLf' Hul Hm). unfold constraints_hold.
  apply forallb_ext_in. intros [a b] Hin. simpl. apply in_combine_l in Hin.
  destruct (dir_kernel Hi Hin) as [Hla Hd]. rewrite dot_vadd; [rewrite Hd, Z.add_0_r; auto|].
  rewrite (counts_length Hv HLf). auto.
Qed.

(** The reverse direction is feasible at the target. *)
Lemma counts_bounds o L d x m : valid_occu sls N o -> lists true o L ->
  nth_error (count_list L) d = Some x -> nth_error (tf_max tf) d = Some m -> (0 <= x <= m)%Z.
Proof.
  intros Hv HL Hx Hm. assert (Hd : d < n_dims_of sls).
  { rewrite <- (counts_length Hv HL). eapply nth_error_Some_lt; eauto. }
  destruct (@dims_cover sls d Hd) as (k & sl & p & Hk & Hp & ->).
  destruct (nth_error_lt (sl_encoding sl) Hp) as [c Hc].
  pose proof (count_nth Ok Hv HL Hk Hc) as E1. pose proof (tf_max_nth Ok Hk Hp) as E2.
  unfold dim_offset in E1, E2. fold sls in E1, E2. simpl in E1. rewrite E1 in Hx. rewrite E2 in Hm.
  injection Hx as <-. injection Hm as <-. pose proof (countb_le (carries o c) (sl_active sl)). lia.
Qed.

Lemma reverse_within o L L' u : valid_occu sls N o -> lists true o L -> length u = n_dims_of sls ->
  count_list L' = vadd (count_list L) u -> within (count_list L') (tf_max tf) (vopp u).
Proof.
  intros Hv HL Hu E. pose proof (counts_length Hv HL) as Hl.
  split; [rewrite length_vopp, E, length_vadd; lia|].
  intros d x m Hx Hm. rewrite vadd_comm, E, vadd_opp in Hx by lia. eapply counts_bounds; eauto.
Qed.
End Kernel.
