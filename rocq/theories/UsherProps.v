(** Properties C05-C08 and C64 (vocabulary in UsherSpec.v and OccuUtilsSpec.v). *)
From Verif Require Import UsherProofs OccuUtilsProps.
Open Scope nat_scope.

(** ** C05: flips *)
Theorem C05_flip_legal :
  forall sls N given u occu st,
    layout sls N -> mk_usher sls given = Some u ->
    (forall p x, given = Some p -> In x p -> (0 <= x)%Qc) ->
    valid_occu sls N occu -> outcome (flip_propose u occu) st ->
    exists site code, st = [(site, code)] /\ legal_flip sls occu site code /\
      valid_occu sls N (apply_step occu st).
Proof.
  intros sls N given u occu st L M P V H. pose proof (usher_ok_mk M P) as O.
  destruct (flip_outcome O V H) as (s & c & -> & Hl).
  exists s, c. split; [auto|]. split; [auto|]. exact (flip_valid L V Hl).
Qed.
Print Assumptions C05_flip_legal.

(** A flip is always proposed (no exception, total probability one) as soon as
    sublattices with active sites have at least two species. *)
Theorem C05_flip_total :
  forall sls N given u occu,
    layout sls N -> mk_usher sls given = Some u ->
    (forall p x, given = Some p -> In x p -> (0 <= x)%Qc) ->
    valid_occu sls N occu ->
    (forall sl, In sl sls -> sl_active sl <> [] -> 2 <= length (sl_encoding sl)) ->
    never_raises (flip_propose u occu) /\ prob (flip_propose u occu) (fun _ => true) = 1%Qc.
Proof.
  intros sls N given u occu L M P V H2. pose proof (usher_ok_mk M P) as O.
  pose proof (flip_safe L O V H2) as S. split; auto.
  rewrite prob_all by auto. apply flip_mass.
Qed.
Print Assumptions C05_flip_total.

(** Every legal flip of a sublattice is proposed with the same probability. *)
Theorem C05_flip_probability :
  forall sls N given u occu k sl q s c0 c,
    layout sls N -> mk_usher sls given = Some u ->
    (forall p x, given = Some p -> In x p -> (0 <= x)%Qc) ->
    valid_occu sls N occu ->
    nth_error (us_active u) k = Some sl -> nth_error (us_probs u) k = Some q ->
    In s (sl_active sl) -> nth_error occu s = Some c0 -> In c (sl_encoding sl) -> c <> c0 ->
    prob (flip_propose u occu)
      (fun st => match st with [(s', c')] => (s' =? s) && (c' =? c) | _ => false end)
    = (q / (Qc_of_nat (length (sl_active sl)) * Qc_of_nat (length (sl_encoding sl) - 1)))%Qc.
Proof.
  intros sls N given u occu k sl q s c0 c L M P V. pose proof (usher_ok_mk M P) as O.
  exact (flip_exact L O V).
Qed.
Print Assumptions C05_flip_probability.

(** The probability of proposing a change from [o] to [o'] equals that of proposing
    the change back. *)
Theorem C05_flip_symmetric :
  forall sls N given u o o',
    layout sls N -> mk_usher sls given = Some u ->
    (forall p x, given = Some p -> In x p -> (0 <= x)%Qc) ->
    valid_occu sls N o -> valid_occu sls N o' ->
    transition (flip_propose u) o o' = transition (flip_propose u) o' o.
Proof.
  intros sls N given u o o' L M P V V'. pose proof (usher_ok_mk M P) as O.
  exact (flip_symmetric L O V V').
Qed.
Print Assumptions C05_flip_symmetric.

(** ** C06: swaps *)
Theorem C06_swap_legal :
  forall sls N given u occu st,
    layout sls N -> mk_usher sls given = Some u ->
    (forall p x, given = Some p -> In x p -> (0 <= x)%Qc) ->
    valid_occu sls N occu -> outcome (swap_propose u occu) st ->
    (exists s1 s2 c1 c2, st = [(s1, c2); (s2, c1)] /\ s1 <> s2 /\ legal_swap sls occu s1 s2 c1 c2) \/
    (st = [] /\ exists sl c, In sl sls /\ sl_active sl <> [] /\
        forall s, In s (sl_active sl) -> nth_error occu s = Some c).
Proof.
  intros sls N given u occu st L M P V H. pose proof (usher_ok_mk M P) as O.
  destruct (swap_outcome L O V H) as [(s1 & s2 & c1 & c2 & -> & Hl)|Hr]; [left|right; auto].
  exists s1, s2, c1, c2. split; auto. split; auto.
  destruct Hl as (sl & _ & _ & H1 & H2 & Hne). intros ->. congruence.
Qed.
Print Assumptions C06_swap_legal.

(** Applying a proposed swap keeps the occupancy allowed and every species count,
    whether only active or all sites are counted. *)
Theorem C06_swap_conserves :
  forall sls N given u occu st act t,
    layout sls N -> mk_usher sls given = Some u ->
    (forall p x, given = Some p -> In x p -> (0 <= x)%Qc) ->
    valid_occu sls N occu -> outcome (swap_propose u occu) st ->
    get_dim_ids_table sls act = Some t ->
    valid_occu sls N (apply_step occu st) /\
    occu_to_counts (apply_step occu st) (n_dims_of sls) t = occu_to_counts occu (n_dims_of sls) t.
Proof.
  intros sls N given u occu st act t L M P V H T. pose proof (usher_ok_mk M P) as O.
  destruct (swap_outcome L O V H) as [(s1 & s2 & c1 & c2 & -> & Hl)|[-> _]].
  - split; [exact (swap_valid L V Hl)|exact (swap_counts L V Hl T)].
  - split; auto.
Qed.
Print Assumptions C06_swap_conserves.

Theorem C06_swap_total :
  forall sls N given u occu,
    layout sls N -> mk_usher sls given = Some u ->
    (forall p x, given = Some p -> In x p -> (0 <= x)%Qc) ->
    valid_occu sls N occu ->
    never_raises (swap_propose u occu) /\ prob (swap_propose u occu) (fun _ => true) = 1%Qc.
Proof.
  intros sls N given u occu L M P V. pose proof (usher_ok_mk M P) as O.
  pose proof (swap_safe L O V) as S. split; auto.
  rewrite prob_all by auto. apply swap_mass.
Qed.
Print Assumptions C06_swap_total.

(** Every legal swap can be proposed, with this probability. *)
Theorem C06_swap_probability :
  forall sls N given u occu k sl q s1 s2 c1 c2,
    layout sls N -> mk_usher sls given = Some u ->
    (forall p x, given = Some p -> In x p -> (0 <= x)%Qc) ->
    valid_occu sls N occu ->
    nth_error (us_active u) k = Some sl -> nth_error (us_probs u) k = Some q ->
    In s1 (sl_active sl) -> In s2 (sl_active sl) ->
    nth_error occu s1 = Some c1 -> nth_error occu s2 = Some c2 -> c1 <> c2 ->
    prob (swap_propose u occu)
      (fun st => match st with
                 | [(a, x); (b, y)] => (a =? s1) && (x =? c2) && (b =? s2) && (y =? c1)
                 | _ => false end)
    = (q / (Qc_of_nat (length (sl_active sl)) *
            Qc_of_nat (countb (fun s => negb (nth s occu 0 =? c1)%nat) (sl_active sl))))%Qc.
Proof.
  intros sls N given u occu k sl q s1 s2 c1 c2 L M P V. pose proof (usher_ok_mk M P) as O.
  exact (swap_exact L O V).
Qed.
Print Assumptions C06_swap_probability.

Theorem C06_swap_symmetric :
  forall sls N given u o o',
    layout sls N -> mk_usher sls given = Some u ->
    (forall p x, given = Some p -> In x p -> (0 <= x)%Qc) ->
    valid_occu sls N o -> valid_occu sls N o' ->
    transition (swap_propose u) o o' = transition (swap_propose u) o' o.
Proof.
  intros sls N given u o o' L M P V V'. pose proof (usher_ok_mk M P) as O.
  exact (swap_symmetric L O V V').
Qed.
Print Assumptions C06_swap_symmetric.

(** Non-vacuity: an usher on the example layout; both sublattices are proposed. *)
Definition ex_usher : usher :=
  mkUsher ex_layout [Qc_frac 1 2; Qc_frac 1 2].
Example C05_example :
  mk_usher ex_layout None = Some ex_usher /\
  map snd (flip_propose ex_usher ex_occu) =
    [Some [(0, 0)]; Some [(3, 1)]; Some [(1, 0)]; Some [(4, 2)]] /\
  this (prob (flip_propose ex_usher ex_occu)
    (fun st => match st with [(s, c)] => (s =? 3) && (c =? 1) | _ => false end)) = (1 # 4)%Q.
Proof. split; [|split]; try reflexivity. Qed.
Example C06_example :
  map snd (swap_propose ex_usher ex_occu) =
    [Some [(0, 0); (3, 1)]; Some [(3, 1); (0, 0)]; Some [(1, 0); (4, 2)]; Some [(4, 2); (1, 0)]] /\
  map snd (swap_propose ex_usher [0; 2; 0; 0; 0]) =
    [Some []; Some []; Some [(1, 0); (4, 2)]; Some [(4, 2); (1, 0)]].
Proof. split; reflexivity. Qed.

(** ** C07: multi-step proposals *)
Theorem C07_multistep_chain :
  forall propose lens p occu flips,
    outcome (multi_propose propose lens p occu) flips ->
    exists len subs, In len lens /\ flips = concat subs /\ chained propose occu subs /\
      share_no_site subs /\ 1 <= length subs <= Nat.max 1 len.
Proof. exact multi_outcome. Qed.
Print Assumptions C07_multistep_chain.

(** Conversely every chain of sub-steps without common sites whose length can be
    drawn is proposed. *)
Theorem C07_multistep_reach :
  forall propose lens p occu subs,
    outcome (choice_p lens p) (length subs) -> subs <> [] ->
    chained propose occu subs -> share_no_site subs ->
    outcome (multi_propose propose lens p occu) (concat subs).
Proof. exact multi_reach. Qed.
Print Assumptions C07_multistep_reach.

(** Whatever the underlying usher preserves is preserved, and a site is touched at
    most once if each sub-step touches a site at most once. *)
Theorem C07_multistep_inherits :
  forall propose (I : list nat -> Prop) (S : nat -> Prop) lens p occu flips,
    (forall o st, I o -> outcome (propose o) st ->
       I (apply_step o st) /\ NoDup (map fst st) /\ forall s, In s (map fst st) -> S s) ->
    I occu -> outcome (multi_propose propose lens p occu) flips ->
    I (apply_step occu flips) /\ NoDup (map fst flips) /\ (forall s, In s (map fst flips) -> S s).
Proof.
  intros propose I S lens p occu flips H Hi Ho.
  destruct (multi_outcome Ho) as (len & subs & _ & -> & Hc & Hs & _).
  pose proof (chained_sites H Hi Hc) as F. split; [|split].
  - apply (chained_inv (propose := propose)); auto. intros o st H1 H2. apply (H o st H1 H2).
  - apply share_NoDup; auto. eapply Forall_impl; [|exact F]. intros a [Ha _]; auto.
  - intros s Hin. apply sites_of_concat in Hin as (st & Hst & Hin).
    rewrite Forall_forall in F. apply (F st Hst); auto.
Qed.
Print Assumptions C07_multistep_inherits.

(** Instance: multi-step swaps conserve composition and touch active sites only. *)
Theorem C07_multistep_swap :
  forall sls N given u lens p occu flips act t,
    layout sls N -> mk_usher sls given = Some u ->
    (forall p x, given = Some p -> In x p -> (0 <= x)%Qc) ->
    valid_occu sls N occu -> get_dim_ids_table sls act = Some t ->
    outcome (multi_propose (swap_propose u) lens p occu) flips ->
    valid_occu sls N (apply_step occu flips) /\
    occu_to_counts (apply_step occu flips) (n_dims_of sls) t = occu_to_counts occu (n_dims_of sls) t /\
    NoDup (map fst flips) /\
    (forall s, In s (map fst flips) -> exists sl, active_site sls sl s).
Proof.
  intros sls N given u lens p occu flips act t L M P V T H.
  assert (K := @C07_multistep_inherits (swap_propose u)
    (fun o => valid_occu sls N o /\
       occu_to_counts o (n_dims_of sls) t = occu_to_counts occu (n_dims_of sls) t)
    (fun s => exists sl, active_site sls sl s) lens p occu flips).
  destruct K as ((K1 & K2) & K3 & K4); auto.
  intros o st [Hv Hc] Ho. destruct (C06_swap_conserves _ _ _ _ _ _ _ _ L M P Hv Ho T) as [H1 H2].
  split; [split; [auto|congruence]|].
  destruct (C06_swap_legal _ _ _ _ _ _ L M P Hv Ho) as [(s1 & s2 & c1 & c2 & -> & Hne & Hl)|[-> _]]; simpl.
  - split; [repeat constructor; simpl; intuition congruence|].
    destruct Hl as (sl & A1 & A2 & _). intros s [<-|[<-|[]]]; eauto.
  - split; [constructor|tauto].
Qed.
Print Assumptions C07_multistep_swap.

(** The middle sub-step of three may be dropped; both lengths occur. *)
Example C07_example :
  let outs := map snd (multi_propose (flip_propose ex_usher) [2] [1%Qc] ex_occu) in
  In (Some [(0, 0); (3, 1)]) outs /\ In (Some [(0, 0)]) outs /\ ~ In (Some [(0, 0); (0, 1)]) outs.
Proof. vm_compute. intuition congruence. Qed.

(** ** C08: composite ushers *)
Theorem C08_probabilities :
  forall (l : list ((list nat -> prog step) * Qc)),
    l <> [] ->
    let s := fold_left (fun s uw => add_mcusher (fst s) (fst uw) (snd uw)) l (empty_composite, true) in
    snd s = true ->
    qsum (map snd l) <> 0%Qc /\ co_ushers (fst s) = map fst l /\
    co_p (fst s) = map (fun uw => (snd uw / qsum (map snd l))%Qc) l /\ qsum (co_p (fst s)) = 1%Qc.
Proof.
  intros l Hl s Hs. destruct (add_many_p Hl Hs) as (H1 & H2 & H3).
  destruct (add_many_lists l) as [H4 _]. auto.
Qed.
Print Assumptions C08_probabilities.

(** A call raises exactly when the weights so far add up to zero. *)
Theorem C08_add_raises_iff :
  forall c u w c' ok, add_mcusher c u w = (c', ok) ->
    (ok = false <-> qsum (co_weights c ++ [w]) = 0%Qc).
Proof.
  intros c u w c' ok H. destruct (add_spec H) as (_ & E & [K1 K2] & _). rewrite E in *.
  destruct ok; split; intros; try congruence; auto.
  - exfalso; apply K1; auto.
  - destruct (Qceqb_spec (qsum (co_weights c ++ [w])) 0) as [|Hn]; auto. apply K2 in Hn. congruence.
Qed.
Print Assumptions C08_add_raises_iff.

(** With non-negative weights each proposal is made by a member with the probability
    of that member. *)
Theorem C08_delegates :
  forall (l : list ((list nat -> prog step) * Qc)) occu,
    l <> [] ->
    let s := fold_left (fun s uw => add_mcusher (fst s) (fst uw) (snd uw)) l (empty_composite, true) in
    snd s = true -> (forall uw, In uw l -> (0 <= snd uw)%Qc) ->
    (forall P, prob (composite_propose (fst s) occu) P =
       qsum (map (fun uw => (snd uw / qsum (map snd l) * prob (fst uw occu) P)%Qc) l)) /\
    (forall st, outcome (composite_propose (fst s) occu) st ->
       exists uw, In uw l /\ outcome (fst uw occu) st).
Proof.
  intros l occu Hl s Hs Hw. destruct (C08_probabilities l Hl Hs) as (H1 & H2 & H3 & H4). fold s in H2, H3, H4.
  assert (Hp : (0 < qsum (map snd l))%Qc).
  { assert (H0 : (0 <= qsum (map snd l))%Qc).
    { apply qsum_nonneg. intros x Hx. apply in_map_iff in Hx as (uw & <- & Hin); auto. }
    apply Qcle_lt_or_eq in H0 as [H0|H0]; auto. exfalso; auto. }
  split.
  - intros P. rewrite composite_prob; auto.
    + rewrite H2, H3. rewrite combine_map2, map_map. reflexivity.
    + rewrite H2. destruct l; [congruence|discriminate].
    + rewrite H2, H3, !map_length; auto.
    + rewrite H3. intros x Hx. apply in_map_iff in Hx as (uw & <- & Hin).
      apply Qcdiv_ge_iff; auto. rewrite Qcmult_0_l. auto.
  - intros st Ho. unfold composite_propose in Ho. apply outcome_bind in Ho as (u & Hu & Ho).
    apply outcome_choice_p in Hu. rewrite H2 in Hu. apply in_map_iff in Hu as (uw & <- & Hin). eauto.
Qed.
Print Assumptions C08_delegates.

Example C08_example :
  match mk_composite [flip_propose ex_usher; swap_propose ex_usher] (Some [Qc_frac 1 1; Qc_frac 3 1]) with
  | Some c => map this (co_p c) = [1 # 4; 3 # 4]%Q /\
      this (prob (composite_propose c ex_occu) (fun st => length st =? 1)) = (1 # 4)%Q
  | None => False
  end.
Proof. vm_compute. auto. Qed.

(** ** C64: documented selection probabilities *)

(** The probability that is documented for the [k]-th sublattice with active sites. *)
Definition documented (sls : list sublattice) (given : option (list Qc)) (k : nat) : Qc :=
  match given with
  | Some p => nth k p 0%Qc
  | None => (1 / Qc_of_nat (length (filter (fun sl => negb (length (sl_active sl) =? 0)) sls)))%Qc
  end.
(** The step changes a site of the sublattice first. *)
Definition on_sublattice (sl : sublattice) (st : step) : bool :=
  match st with (s, _) :: _ => existsb (Nat.eqb s) (sl_active sl) | [] => false end.

Lemma prob_sure {A} (m : prog A) P : never_raises m -> mass m = 1%Qc -> (forall x, outcome m x -> P x = true) -> prob m P = 1%Qc.
Proof. intros N M H. rewrite <- M, <- prob_all by auto. apply prob_ext. auto. Qed.

Lemma active_filter sls : filter is_active sls = filter (fun sl => negb (length (sl_active sl) =? 0)) sls.
Proof.
  apply filter_ext. intros sl. unfold is_active. destruct (Nat.ltb_spec 0 (length (sl_active sl))); destruct (Nat.eqb_spec (length (sl_active sl)) 0); auto; lia.
Qed.

Lemma documented_prob sls given u k sl : mk_usher sls given = Some u ->
  nth_error (filter (fun sl => negb (length (sl_active sl) =? 0)) sls) k = Some sl ->
  nth_error (us_active u) k = Some sl /\ nth_error (us_probs u) k = Some (documented sls given k).
Proof.
  unfold mk_usher, documented. rewrite active_filter. set (act := filter _ sls). intros M Hk.
  assert (Hlt : k < length act) by (apply nth_error_Some; congruence). destruct given as [p|].
  - destruct (Nat.eqb_spec (length p) (length act)) as [E|]; [|discriminate]. destruct (Qceqb (qsum p) 1); [|discriminate].
    injection M as <-. cbn. split; auto. apply nth_error_nth'. lia.
  - destruct (Nat.eqb_spec (length act) 0); [discriminate|]. injection M as <-. cbn. split; auto.
    revert Hlt. generalize (1 / Qc_of_nat (length act))%Qc as q. generalize (length act) as len. clear. intros len q. revert len. induction k as [|k IH]; intros [|len] H; simpl; auto; try lia. apply IH. lia.
Qed.

Lemma existsb_eqb s l : existsb (Nat.eqb s) l = true <-> In s l.
Proof. rewrite existsb_exists. split; [intros (x & Hx & E); apply Nat.eqb_eq in E; subst; auto|]. intros H. exists s. split; auto. apply Nat.eqb_refl. Qed.

(** A weighted mean over the sublattices of something that is sure on one of them and
    impossible on the others. *)
Lemma pick_sublattice sls N u k sl q (F : sublattice -> nat -> Qc) :
  layout sls N -> usher_ok sls u -> nth_error (us_active u) k = Some sl -> nth_error (us_probs u) k = Some q ->
  (forall s, In s (sl_active sl) -> F sl s = 1%Qc) ->
  (forall sl' s, In sl' sls -> In s (sl_active sl') -> ~ In s (sl_active sl) -> F sl' s = 0%Qc) ->
  qsum (map (fun q => (snd q * qsum (map (fun s => 1 / Qc_of_nat (length (sl_active (fst q))) * F (fst q) s) (sl_active (fst q))))%Qc)
         (combine (us_active u) (us_probs u))) = q.
Proof.
  intros L O Hk Hq H1 H0.
  assert (Hin : In sl (us_active u)) by (eapply nth_error_In; eauto). apply (us_In O) in Hin as [Hin Hact].
  rewrite (@qsum_combine_pick _ _ _ _ _ k sl q); auto.
  - cbn [fst snd]. rewrite (@qsum_map_ext _ _ (fun _ => (1 / Qc_of_nat (length (sl_active sl)))%Qc)).
    + rewrite qsum_const. field. apply Qc_of_nat_nz. destruct (sl_active sl); simpl; [congruence|lia].
    + intros s Hs. rewrite H1 by auto. ring.
  - intros k' sl' q' Hne Hk'. cbn [fst snd]. assert (Hin' : In sl' (us_active u)) by (eapply nth_error_In; eauto).
    apply (us_In O) in Hin' as [Hin' _]. rewrite qsum_map_0; [ring|]. intros s Hs. rewrite H0; auto; [ring|].
    intros X. apply Hne. eapply (us_active_unique L O); eauto.
Qed.

(** A flip changes the [k]-th sublattice with active sites with the probability documented
    for it; so does a swap, whenever the sublattice carries two different codes. *)
Theorem C64_sublattices :
  forall sls N given u occu k sl,
    layout sls N -> mk_usher sls given = Some u ->
    (forall p x, given = Some p -> In x p -> (0 <= x)%Qc) -> valid_occu sls N occu ->
    nth_error (filter (fun sl => negb (length (sl_active sl) =? 0)) sls) k = Some sl ->
    (2 <= length (sl_encoding sl) -> prob (flip_propose u occu) (on_sublattice sl) = documented sls given k) /\
    (forall s1 s2, In s1 (sl_active sl) -> In s2 (sl_active sl) -> nth_error occu s1 <> nth_error occu s2 ->
       prob (swap_propose u occu) (on_sublattice sl) = documented sls given k).
Proof.
  intros sls N given u occu k sl L M P V Hk. pose proof (usher_ok_mk M P) as O.
  destruct (documented_prob _ _ _ _ _ M Hk) as [Hk' Hq].
  assert (Hin : In sl sls) by (apply nth_error_In, filter_In in Hk; tauto). split.
  - intros H2. rewrite (flip_prob_expand O).
    apply (@pick_sublattice sls N u k sl _ (fun sl' s => prob (flip_at occu sl' s) (on_sublattice sl)) L O Hk' Hq).
    + intros s Hs. destruct (active_site_occu L V Hin Hs) as (_ & c & Hc & He).
      assert (Nr : flip_choices sl c <> []) by (intros E; pose proof (flip_choices_length L Hin He) as X; rewrite E in X; simpl in X; lia).
      unfold flip_at. rewrite Hc. apply prob_sure.
      * apply never_raises_bind; [apply never_raises_ret|]. intros x Hx. apply outcome_ret in Hx. subst x.
        apply never_raises_bind; [apply never_raises_uniform; auto|]. intros; apply never_raises_ret.
      * rewrite mass_bind; [apply mass_ret|]. intros x _. rewrite mass_bind; [apply mass_uniform|]. intros; apply mass_ret.
      * intros st H. apply outcome_bind in H as (x & _ & H). apply outcome_bind in H as (y & _ & H). apply outcome_ret in H. subst st.
        apply existsb_eqb; auto.
    + intros sl' s Hsl' Hs Hns. apply flip_at_other. intros x. unfold on_sublattice. destruct (existsb _ _) eqn:E; auto. apply existsb_eqb in E. tauto.
  - intros s1 s2 Hs1 Hs2 Hdiff. rewrite (swap_prob_expand O).
    apply (@pick_sublattice sls N u k sl _ (fun sl' s => prob (swap_at occu sl' s) (on_sublattice sl)) L O Hk' Hq).
    + intros s Hs. destruct (active_site_occu L V Hin Hs) as (_ & c & Hc & He). destruct (active_socc L V Hin) as [socc Hso].
      unfold swap_at. rewrite Hc, Hso. cbn [of_opt].
      assert (Nr : swap_options (sl_active sl) socc c <> []).
      { rewrite (swap_options_filter c Hso). fold (others occu sl c). intros E.
        assert (X : forall s', In s' (sl_active sl) -> nth_error occu s' = Some c).
        { intros s' Hs'. destruct (active_site_occu L V Hin Hs') as (_ & c' & Hc' & _). rewrite Hc'. f_equal.
          destruct (Nat.eq_dec c' c); auto. exfalso. assert (Y : In s' (others occu sl c)) by (apply others_In; eauto). rewrite E in Y. auto. }
        apply Hdiff. rewrite !X; auto. }
      assert (Hopt : forall x, In x (swap_options (sl_active sl) socc c) -> exists c', nth_error occu x = Some c').
      { intros x Hx. rewrite (swap_options_filter c Hso) in Hx. fold (others occu sl c) in Hx. apply others_In in Hx as (_ & c' & E & _). eauto. }
      apply prob_sure.
      * apply never_raises_bind; [apply never_raises_ret|]. intros x Hx. apply outcome_ret in Hx. subst x.
        apply never_raises_bind; [apply never_raises_ret|]. intros x Hx. apply outcome_ret in Hx. subst x.
        destruct (swap_options (sl_active sl) socc c) as [|y l] eqn:E; [congruence|].
        apply never_raises_bind; [apply never_raises_uniform; discriminate|]. intros x Hx. apply outcome_uniform in Hx.
        destruct (Hopt x Hx) as [c' ->]. apply never_raises_bind; [apply never_raises_ret|]. intros; apply never_raises_ret.
      * rewrite mass_bind; [apply mass_ret|]. intros x _. rewrite mass_bind; [apply mass_ret|]. intros x' _.
        destruct (swap_options (sl_active sl) x' x) as [|y l]; [apply mass_ret|].
        rewrite mass_bind; [apply mass_uniform|]. intros x2 _. rewrite mass_bind; [apply mass_of_opt|]. intros; apply mass_ret.
      * intros st H. apply outcome_bind in H as (x & Hx & H). apply outcome_ret in Hx. subst x. apply outcome_bind in H as (x & Hx & H). apply outcome_ret in Hx. subst x.
        destruct (swap_options (sl_active sl) socc c) as [|y l]; [congruence|].
        apply outcome_bind in H as (x & _ & H). apply outcome_bind in H as (x' & _ & H). apply outcome_ret in H. subst st. apply existsb_eqb; auto.
    + intros sl' s Hsl' Hs Hns. apply prob_false. intros st H. unfold swap_at in H.
      apply outcome_bind in H as (x & _ & H). apply outcome_bind in H as (socc & _ & H).
      assert (X : existsb (Nat.eqb s) (sl_active sl) = false) by (destruct (existsb _ _) eqn:E; auto; apply existsb_eqb in E; tauto).
      destruct (swap_options (sl_active sl') socc x) as [|y l]; [apply outcome_ret in H; subst st; auto|].
      apply outcome_bind in H as (x1 & _ & H). apply outcome_bind in H as (x2 & _ & H). apply outcome_ret in H. subst st. exact X.
Qed.
Print Assumptions C64_sublattices.

(** Probabilities that do not match are rejected by the constructor and by the setter, and
    accepted ones are used from then on. *)
Theorem C64_setter :
  forall sls given u p, mk_usher sls given = Some u ->
    set_probabilities u p = mk_usher sls (Some p) /\
    (mk_usher sls (Some p) <> None <->
     length p = length (filter (fun sl => negb (length (sl_active sl) =? 0)) sls) /\ qsum p = 1%Qc).
Proof.
  intros sls given u p M.
  assert (A : us_active u = filter (fun sl => negb (length (sl_active sl) =? 0)) sls).
  { unfold mk_usher in M. rewrite active_filter in M. destruct given as [p'|].
    - destruct (negb (length p' =? _)); [discriminate|]. destruct (negb (Qceqb (qsum p') 1)); [discriminate|]. injection M as <-. auto.
    - destruct (_ =? 0); [discriminate|]. injection M as <-. auto. }
  unfold set_probabilities, mk_usher. rewrite A, active_filter. split; auto.
  destruct (Nat.eqb_spec (length p) (length (filter (fun sl => negb (length (sl_active sl) =? 0)) sls))) as [E|E]; cbn [negb].
  - destruct (Qceqb_spec (qsum p) 1) as [Q|Q]; cbn [negb]; split; intros H; try tauto; try discriminate.
  - split; intros H; tauto.
Qed.
Print Assumptions C64_setter.

(** Without explicit probabilities every step length is drawn with equal probability: the
    proposals are the mean of those of fixed lengths. *)
Theorem C64_uniform_lengths_partial :
  forall propose lens, lens <> [] ->
    exists lens' p, mk_multistep lens None = Some (lens', p) /\
    forall occu P, prob (multi_propose propose lens' p occu) P =
      (qsum (map (fun len => prob (multi_propose propose [len] [1%Qc] occu) P) lens) / Qc_of_nat (length lens))%Qc.
Proof.
  intros propose lens H. assert (Hl : length lens <> 0) by (destruct lens; simpl; congruence).
  exists lens, (repeat (1 / Qc_of_nat (length lens))%Qc (length lens)). split.
  { unfold mk_multistep. destruct (Nat.eqb_spec (length lens) 0); [lia|auto]. }
  intros occu P. set (q := (1 / Qc_of_nat (length lens))%Qc).
  assert (Hq : (0 <= q)%Qc) by (unfold q; apply Qcdiv_ge_iff; [apply Qc_of_nat_pos; lia|]; rewrite Qcmult_0_l; discriminate).
  assert (E1 : forall len, prob (multi_propose propose [len] [1%Qc] occu) P =
    prob (draw st <- propose occu; draw steps <- multi_loop propose (len - 1) [st] (apply_step occu st); pret (concat steps)) P).
  { intros len. unfold multi_propose. rewrite prob_bind_choice_p; auto; [|discriminate|intros x [<-|[]]; discriminate].
    cbn [combine map qsum fst snd]. rewrite Qcmult_1_l, Qcplus_0_r. reflexivity. }
  unfold multi_propose at 1. rewrite prob_bind_choice_p.
  - transitivity (qsum (map (fun len => (q * prob (multi_propose propose [len] [1%Qc] occu) P)%Qc) lens)).
    + assert (X : forall (g : nat -> Qc) l, qsum (map (fun r => (snd r * g (fst r))%Qc) (combine l (repeat q (length l)))) = qsum (map (fun len => (q * g len)%Qc) l)).
      { clear. intros g l. induction l as [|x l IH]; auto. cbn [length repeat combine map qsum fst snd]. rewrite IH. auto. }
      rewrite (X (fun len => prob (draw st <- propose occu; draw steps <- multi_loop propose (len - 1) [st] (apply_step occu st); pret (concat steps)) P)).
      apply qsum_map_ext. intros len _. rewrite E1. auto.
    + rewrite qsum_map_scale. unfold q, Qcdiv. ring.
  - rewrite repeat_length. auto.
  - auto.
  - intros x Hx. apply repeat_spec in Hx. subst x. auto.
  - transitivity (qsum (map (fun _ : nat => q) lens)).
    + clearbody q. clear. induction lens as [|x l IH]; auto. cbn [length repeat map qsum]. rewrite IH. auto.
    + rewrite qsum_const. unfold q. field. apply Qc_of_nat_nz. auto.
Qed.
Print Assumptions C64_uniform_lengths_partial.

(** With explicit step probabilities the constructor always raises, also for
    matching probabilities that add up to one. *)
Theorem C64_step_probabilities_refuted :
  forall lens p, mk_multistep lens (Some p) = None.
Proof. reflexivity. Qed.
Print Assumptions C64_step_probabilities_refuted.

(** Probabilities 1/4 and 3/4 for two sublattices, and the flips on the second one. *)
Example C64_case :
  match mk_usher ex_layout (Some [Qc_frac 1 4; Qc_frac 3 4]) with
  | Some u => this (prob (flip_propose u ex_occu) (on_sublattice (nth 1 ex_layout (mkSL [] [] [] [])))) = (3 # 4)%Q /\
              this (prob (swap_propose u ex_occu) (on_sublattice (nth 1 ex_layout (mkSL [] [] [] [])))) = (3 # 4)%Q
  | None => False
  end /\ documented ex_layout (Some [Qc_frac 1 4; Qc_frac 3 4]) 1 = Qc_frac 3 4.
Proof. split; [vm_compute; auto|reflexivity]. Qed.
