(** Relabelings of occupancies that commute with proposals, for the symmetry of multi-steps and composites (C63). *)
From Verif Require Import UsherProofs OccuUtilsProps LawProofs.
Set Implicit Arguments.
Local Open Scope nat_scope.

Lemma length_apply_step st : forall a, length (apply_step a st) = length a.
Proof.
  induction st as [|f st IH]; intros a; auto. change (apply_step a (f :: st)) with (apply_step (upd a (fst f) (snd f)) st).
  rewrite IH. apply length_upd.
Qed.

(** ** Changes of names *)
Section Change.
Variables (N : nat) (gs : nat -> nat) (gc : nat -> nat -> nat) (go : list nat -> list nat).
Definition gst (st : step) : step := map (fun f => (gs (fst f), gc (fst f) (snd f))) st.
Hypothesis gs_inj : forall s s', gs s = gs s' -> s = s'.
Hypothesis go_len : forall a, length a = N -> length (go a) = N.
Hypothesis go_upd : forall a s c, length a = N -> upd (go a) (gs s) (gc s c) = go (upd a s c).

Lemma go_step st : forall a, length a = N -> apply_step (go a) (gst st) = go (apply_step a st).
Proof.
  induction st as [|[s c] st IH]; intros a Ha; auto.
  change (apply_step (upd (go a) (gs s) (gc s c)) (gst st) = go (apply_step (upd a s c) st)).
  rewrite go_upd by auto. apply IH. rewrite length_upd. auto.
Qed.
Lemma memb_gs s l : memb (gs s) (map gs l) = memb s l.
Proof.
  unfold memb. induction l as [|x l IH]; auto. cbn [map existsb]. rewrite IH. f_equal.
  destruct (Nat.eqb_spec s x) as [->|H]; [apply Nat.eqb_refl|]. apply Nat.eqb_neq. auto.
Qed.
Lemma sites_gst st : sites_of (gst st) = map gs (sites_of st).
Proof. unfold sites_of, gst. rewrite !map_map. reflexivity. Qed.
Lemma concat_gst steps : concat (map gst steps) = gst (concat steps).
Proof. unfold gst. rewrite concat_map. reflexivity. Qed.
Lemma fresh_gst st steps : fresh_sites (gst st) (map gst steps) = fresh_sites st steps.
Proof.
  unfold fresh_sites. rewrite concat_gst, !sites_gst. induction (sites_of st) as [|s l IH]; auto.
  cbn [map forallb]. rewrite memb_gs, IH. reflexivity.
Qed.

Definition commutes (p : list nat -> prog step) : Prop :=
  forall a, length a = N -> forall (B : Type) (f : step -> prog B), same (pbind (p (go a)) f) (pbind (p a) (fun st => f (gst st))).

Lemma loop_commutes p n : commutes p -> forall steps a, length a = N -> forall (B : Type) (f : list step -> prog B),
  same (pbind (multi_loop p n (map gst steps) (go a)) f) (pbind (multi_loop p n steps a) (fun r => f (map gst r))).
Proof.
  intros Hp. induction n as [|n IH]; intros steps a Ha B f; cbn [multi_loop].
  - eapply same_trans; [apply same_sym, same_ret|]. exact (same_ret steps (fun r => f (map gst r))).
  - eapply same_trans; [apply same_sym, same_assoc|]. eapply same_trans; [apply Hp; auto|].
    eapply same_trans; [|apply same_assoc]. apply same_bind. intros st. cbn beta. rewrite fresh_gst.
    destruct (fresh_sites st steps).
    + rewrite go_step by auto. change [gst st] with (map gst [st]). rewrite <- map_app.
      apply IH. rewrite length_apply_step. auto.
    + apply IH. auto.
Qed.
Lemma multi_commutes p lens ps : commutes p -> commutes (multi_propose p lens ps).
Proof.
  intros Hp a Ha B f. unfold multi_propose.
  eapply same_trans; [apply same_sym, same_assoc|]. apply same_step. intros len.
  eapply same_trans; [apply same_sym, same_assoc|]. eapply same_trans; [apply Hp; auto|]. apply same_step. intros st.
  eapply same_trans; [apply same_sym, same_assoc|]. rewrite go_step by auto. change [gst st] with (map gst [st]).
  eapply same_trans; [apply loop_commutes; auto; rewrite length_apply_step; auto|]. apply same_step. intros steps.
  eapply same_trans; [apply same_sym, same_ret|]. rewrite concat_gst. exact (same_ret (concat steps) (fun st => f (gst st))).
Qed.
Lemma composite_commutes c : (forall p, In p (co_ushers c) -> commutes p) -> commutes (composite_propose c).
Proof.
  intros H a Ha B f. unfold composite_propose.
  eapply same_trans; [apply same_sym, same_assoc|]. eapply same_trans; [|apply same_assoc]. apply same_bind_in. intros p Hp.
  apply outcome_choice_p in Hp. apply H; auto.
Qed.
Lemma built_commutes (base : (list nat -> prog step) -> Prop) p : (forall p, base p -> commutes p) -> built base p -> commutes p.
Proof.
  intros H. induction 1 as [p Hp|p lens ps _ IH|c _ IH]; [auto|apply multi_commutes; auto|apply composite_commutes; auto].
Qed.

Lemma commutes_symmetric p o o' : commutes p -> length o = N -> length o' = N ->
  (forall a, length a = N -> go (go a) = a) -> go o = o' -> go o' = o -> transition p o o' = transition p o' o.
Proof.
  intros Hp Lo Lo' Inv E E'. unfold transition. symmetry. rewrite <- E at 1.
  assert (X := Hp o Lo _ (fun st => pret st) (fun st => occu_eqb (apply_step o' st) o)).
  assert (R : forall (m : prog step) P, prob (pbind m (fun st => pret st)) P = prob m P).
  { intros m P. rewrite prob_bind. unfold prob at 2. apply qsum_map_ext. intros [w [x|]] _; cbn [fst snd]; auto.
    rewrite prob_ret. destruct (P x); ring. }
  rewrite R in X. rewrite X. clear X.
  transitivity (prob (pbind (p o) (fun st => pret st)) (fun st => occu_eqb (apply_step o' (gst st)) o)).
  - rewrite !prob_bind. apply qsum_map_ext. intros [w [x|]] _; cbn [fst snd]; auto.
  - rewrite R. apply prob_ext. intros st. rewrite <- E at 1. rewrite go_step by auto.
    assert (Ls : length (apply_step o st) = N) by (rewrite length_apply_step; auto).
    destruct (occu_eqb_spec (go (apply_step o st)) o) as [X|X], (occu_eqb_spec (apply_step o st) o') as [Y|Y]; auto; exfalso.
    + apply Y. rewrite <- (Inv _ Ls), X. auto.
    + apply X. rewrite Y. auto.
Qed.
End Change.

Lemma same_uniform_perm {X Y} (l l' : list X) (h : X -> X) (f g : X -> prog Y) :
  Permutation l (map h l') -> (forall x, In x l' -> same (f (h x)) (g x)) -> same (pbind (uniform l) f) (pbind (uniform l') g).
Proof.
  intros Hp H P. rewrite !prob_bind_uniform. rewrite (Permutation_length Hp), map_length.
  rewrite (qsum_perm (Permutation_map (fun x => (1 / Qc_of_nat (length l') * prob (f x) P)%Qc) Hp)), map_map.
  apply qsum_map_ext. intros x Hx. rewrite (H x Hx P). reflexivity.
Qed.
Lemma same_of_opt {X Y} (o : option X) (f : X -> prog Y) x : o = Some x -> same (pbind (of_opt o) f) (f x).
Proof. intros -> P. rewrite prob_bind_of_opt. reflexivity. Qed.
Lemma map_nth_error_eq (f : nat -> nat) n s : s < n -> nth_error (map f (seq 0 n)) s = Some (f s).
Proof.
  intros H. assert (E := @map_nth_error _ _ f s (seq 0 n) s). apply E.
  rewrite (@nth_error_nth' _ _ _ 0) by (rewrite seq_length; auto). rewrite seq_nth; auto.
Qed.
Lemma nth_error_ext {A} (l l' : list A) : (forall k, nth_error l k = nth_error l' k) -> l = l'.
Proof.
  revert l'. induction l as [|x l IH]; intros [|y l'] H; auto; try (specialize (H 0); discriminate).
  f_equal; [injection (H 0); auto|]. apply IH. intros k. exact (H (S k)).
Qed.
Lemma list_ext (a b : list nat) : length a = length b -> (forall s, s < length a -> nth_error a s = nth_error b s) -> a = b.
Proof.
  intros Hl H. apply nth_error_ext. intros s. destruct (Nat.lt_ge_cases s (length a)) as [Hs|Hs]; auto.
  rewrite (proj2 (nth_error_None a s) Hs). symmetry. apply nth_error_None. lia.
Qed.

(** ** Flips: the two species of every site change names *)
Section Flips.
Variables (sls : list sublattice) (N : nat) (o o' : list nat).
Hypotheses (Lay : layout sls N) (Vo : valid_occu sls N o) (Vo' : valid_occu sls N o').
Definition trade (s c : nat) : nat := if c =? nth s o 0 then nth s o' 0 else if c =? nth s o' 0 then nth s o 0 else c.
Definition traded (a : list nat) : list nat := map (fun s => trade s (nth s a 0)) (seq 0 (length a)).

Lemma trade_invol s c : trade s (trade s c) = c.
Proof.
  unfold trade. set (x := nth s o 0). set (y := nth s o' 0).
  destruct (Nat.eqb_spec c x) as [->|Hx]; [|destruct (Nat.eqb_spec c y) as [->|Hy]].
  - destruct (Nat.eqb_spec y x); auto. rewrite Nat.eqb_refl. auto.
  - rewrite Nat.eqb_refl. auto.
  - destruct (Nat.eqb_spec c x); [congruence|]. destruct (Nat.eqb_spec c y); congruence.
Qed.
Lemma traded_nth a s : nth_error (traded a) s = option_map (trade s) (nth_error a s).
Proof.
  destruct (Nat.lt_ge_cases s (length a)) as [H|H].
  - unfold traded. rewrite map_nth_error_eq by auto. rewrite (nth_error_nth' a 0 H). reflexivity.
  - rewrite (proj2 (nth_error_None a s) H). apply nth_error_None. unfold traded. rewrite map_length, seq_length. auto.
Qed.
Lemma traded_length a : length (traded a) = length a.
Proof. unfold traded. rewrite map_length, seq_length. reflexivity. Qed.
Lemma traded_upd a s c : upd (traded a) s (trade s c) = traded (upd a s c).
Proof.
  apply nth_error_ext. intros t. rewrite traded_nth, !nth_error_upd, traded_nth, traded_length.
  destruct (Nat.eqb_spec s t) as [->|]; [destruct (t <? length a)|]; reflexivity.
Qed.
Lemma traded_invol a : traded (traded a) = a.
Proof.
  apply nth_error_ext. intros s. rewrite !traded_nth. destruct (nth_error a s); cbn; auto. rewrite trade_invol. reflexivity.
Qed.
Lemma traded_o : traded o = o'.
Proof.
  destruct Vo as [L _], Vo' as [L' _]. apply list_ext; [rewrite traded_length; congruence|]. rewrite traded_length. intros s Hs.
  rewrite traded_nth, (nth_error_nth' o 0 Hs). cbn. unfold trade. rewrite Nat.eqb_refl. symmetry. apply nth_error_nth'. lia.
Qed.
Lemma traded_o' : traded o' = o.
Proof. rewrite <- traded_o at 1. apply traded_invol. Qed.
Lemma trade_code sl s c : In sl sls -> In s (sl_active sl) -> In c (sl_encoding sl) -> In (trade s c) (sl_encoding sl).
Proof.
  intros Hsl Hs Hc.
  destruct (active_site_occu Lay Vo Hsl Hs) as (_ & x & Ex & Hx). destruct (active_site_occu Lay Vo' Hsl Hs) as (_ & y & Ey & Hy).
  unfold trade. rewrite (nth_error_nth _ _ 0 Ex), (nth_error_nth _ _ 0 Ey).
  destruct (c =? x); auto. destruct (c =? y); auto.
Qed.
Lemma trade_choices sl s c0 : In sl sls -> In s (sl_active sl) ->
  Permutation (flip_choices sl (trade s c0)) (map (trade s) (flip_choices sl c0)).
Proof.
  intros Hsl Hs. apply NoDup_Permutation.
  - apply NoDup_filter, sorted_NoDup, np_unique_sorted.
  - apply FinFun.Injective_map_NoDup; [|apply NoDup_filter, sorted_NoDup, np_unique_sorted].
    intros x y E. rewrite <- (trade_invol s x), E. apply trade_invol.
  - intros c. rewrite flip_choices_In, in_map_iff. split.
    + intros [Hc Hne]. exists (trade s c). split; [apply trade_invol|]. apply flip_choices_In. split; [apply trade_code; auto|].
      intros E. apply Hne. rewrite <- E. symmetry. apply trade_invol.
    + intros (c' & <- & Hc'). apply flip_choices_In in Hc' as [Hc' Hne]. split; [apply trade_code; auto|].
      intros E. apply Hne. rewrite <- (trade_invol s c'), E. apply trade_invol.
Qed.
Lemma flip_commutes u : usher_ok sls u -> commutes N (fun s => s) trade traded (flip_propose u).
Proof.
  intros Ok a Ha B f. unfold flip_propose.
  eapply same_trans; [apply same_sym, same_assoc|]. eapply same_trans; [|apply same_assoc]. apply same_bind_in. intros sl Hsl.
  destruct (outcome_random_sublattice Ok Hsl) as [Hin _].
  eapply same_trans; [apply same_sym, same_assoc|]. eapply same_trans; [|apply same_assoc]. apply same_bind_in. intros s Hs.
  apply outcome_uniform in Hs.
  eapply same_trans; [apply same_sym, same_assoc|]. eapply same_trans; [|apply same_assoc].
  rewrite traded_nth. intros P. rewrite !prob_bind_of_opt. destruct (nth_error a s) as [c0|]; cbn [option_map]; [|reflexivity].
  revert P. change (same (pbind (draw c <- uniform (flip_choices sl (trade s c0)); pret [(s, c)]) f)
                         (pbind (draw c <- uniform (flip_choices sl c0); pret [(s, c)]) (fun st => f (gst (fun s => s) trade st)))).
  eapply same_trans; [apply same_sym, same_assoc|]. eapply same_trans; [|apply same_assoc].
  apply same_uniform_perm with (h := trade s); [apply trade_choices; auto|]. intros c _.
  eapply same_trans; [apply same_sym, same_ret|]. exact (same_ret [(s, c)] (fun st => f (gst (fun s => s) trade st))).
Qed.
End Flips.

Lemma flips_symmetric sls N (base : (list nat -> prog step) -> Prop) p o o' : layout sls N -> (forall p, base p -> exists u, usher_ok sls u /\ p = flip_propose u) ->
  built base p -> valid_occu sls N o -> valid_occu sls N o' -> transition p o o' = transition p o' o.
Proof.
  intros L Hb Hp V V'. apply (@commutes_symmetric N (fun s => s) (trade o o') (traded o o')).
  - intros a s c _. apply traded_upd.
  - apply (@built_commutes N (fun s => s) (trade o o') (traded o o')) with (base := base); auto.
    + intros a s c _. apply traded_upd.
    + intros q Hq. destruct (Hb q Hq) as (u & Ok & ->). apply (@flip_commutes sls N); auto.
  - apply V.
  - apply V'.
  - intros a _. apply traded_invol.
  - apply (traded_o V V').
  - apply (traded_o' V V').
Qed.

(** ** Swaps: pairs of sites change places *)
Lemma prob_nz_outcome {A} (m : prog A) P : prob m P <> 0%Qc -> exists x, outcome m x /\ P x = true.
Proof.
  induction m as [|[w [x|]] m IH]; intros H.
  - exfalso. apply H. reflexivity.
  - destruct (P x) eqn:E; [exists x; split; auto; exists w; left; auto|].
    destruct IH as (y & (w' & Hy) & Ey); [|exists y; split; auto; exists w'; right; auto].
    intros X. apply H. unfold prob in *. cbn. rewrite E, X. ring.
  - destruct IH as (y & (w' & Hy) & Ey); [|exists y; split; auto; exists w'; right; auto].
    intros X. apply H. unfold prob in *. cbn. rewrite X. ring.
Qed.

Unset Strict Implicit.
Section Swaps.
Variables (sls : list sublattice) (N : nat).
Hypothesis Lay : layout sls N.
(** Exchanges of active sites in pairs. *)
Definition pairing (pi : nat -> nat) : Prop :=
  (forall s, pi (pi s) = s) /\ (forall s, pi s <> s -> exists sl, In sl sls /\ In s (sl_active sl) /\ In (pi s) (sl_active sl)).
Lemma pairing_active pi sl s : pairing pi -> In sl sls -> In s (sl_active sl) -> In (pi s) (sl_active sl).
Proof.
  intros [_ H] Hsl Hs. destruct (Nat.eq_dec (pi s) s) as [->|Hne]; auto.
  destruct (H s Hne) as (sl' & Hsl' & Hs' & Hp). rewrite (site_sublattice_unique Lay Hsl Hsl' (lay_active Lay _ _ Hsl Hs) (lay_active Lay _ _ Hsl' Hs')). auto.
Qed.
Lemma active_lt sl s : In sl sls -> In s (sl_active sl) -> s < N.
Proof. intros Hsl Hs. apply (@layout_site_lt sls N sl s Lay Hsl). apply (lay_active Lay _ _ Hsl Hs). Qed.
Lemma pairing_lt pi s : pairing pi -> s < N -> pi s < N.
Proof.
  intros [_ H] Hs. destruct (Nat.eq_dec (pi s) s) as [->|Hne]; auto.
  destruct (H s Hne) as (sl & Hsl & _ & Hp). apply (active_lt Hsl Hp).
Qed.

Section Pairing.
Variable pi : nat -> nat.
Hypothesis Hpi : pairing pi.
Definition moved (a : list nat) : list nat := map (fun s => nth (pi s) a 0) (seq 0 N).
Lemma pi_invol s : pi (pi s) = s. Proof. apply Hpi. Qed.
Lemma pi_inj s s' : pi s = pi s' -> s = s'.
Proof. intros E. rewrite <- (pi_invol s), E. apply pi_invol. Qed.
Lemma moved_length a : length (moved a) = N.
Proof. unfold moved. rewrite map_length, seq_length. reflexivity. Qed.
Lemma moved_nth a s : length a = N -> nth_error (moved a) s = nth_error a (pi s).
Proof.
  intros Ha. destruct (Nat.lt_ge_cases s N) as [H|H].
  - unfold moved. rewrite map_nth_error_eq by auto. symmetry. apply nth_error_nth'. rewrite Ha. apply (pairing_lt Hpi); auto.
  - rewrite (proj2 (nth_error_None (moved a) s)) by (rewrite moved_length; auto). symmetry. apply nth_error_None. rewrite Ha.
    destruct (Nat.lt_ge_cases (pi s) N) as [X|X]; auto. apply (pairing_lt Hpi) in X. rewrite pi_invol in X. lia.
Qed.
Lemma moved_upd a s c : length a = N -> upd (moved a) (pi s) c = moved (upd a s c).
Proof.
  intros Ha. apply nth_error_ext. intros t. rewrite moved_nth by (rewrite length_upd; auto).
  rewrite !nth_error_upd, moved_nth, moved_length, Ha by auto.
  destruct (Nat.eqb_spec (pi s) t) as [<-|Hne].
  - rewrite pi_invol, Nat.eqb_refl. destruct (Nat.ltb_spec (pi s) N) as [H|H], (Nat.ltb_spec s N) as [H'|H']; auto; exfalso.
    + apply (pairing_lt Hpi) in H. rewrite pi_invol in H. lia.
    + apply (pairing_lt Hpi) in H'. lia.
  - destruct (Nat.eqb_spec s (pi t)) as [->|_]; auto. rewrite pi_invol in Hne. congruence.
Qed.
Lemma moved_invol a : length a = N -> moved (moved a) = a.
Proof.
  intros Ha. apply nth_error_ext. intros s. rewrite moved_nth, moved_nth, pi_invol; auto. apply moved_length.
Qed.
Lemma active_perm sl : In sl sls -> Permutation (sl_active sl) (map pi (sl_active sl)).
Proof.
  intros Hsl. assert (Hn := lay_active_nodup Lay _ Hsl). apply NoDup_Permutation; auto.
  - apply FinFun.Injective_map_NoDup; auto. intros x y. apply pi_inj.
  - intros s. rewrite in_map_iff. split.
    + intros Hs. exists (pi s). split; [apply pi_invol|apply (pairing_active Hpi Hsl Hs)].
    + intros (t & <- & Ht). apply (pairing_active Hpi Hsl Ht).
Qed.
Lemma others_perm sl a c : In sl sls -> length a = N -> Permutation (others (moved a) sl c) (map pi (others a sl c)).
Proof.
  intros Hsl Ha. assert (Hn := lay_active_nodup Lay _ Hsl). apply NoDup_Permutation.
  - apply NoDup_filter. auto.
  - apply FinFun.Injective_map_NoDup; [intros x y; apply pi_inj|]. apply NoDup_filter. auto.
  - intros s. rewrite others_In, in_map_iff, moved_nth by auto. split.
    + intros [Hs H]. exists (pi s). split; [apply pi_invol|]. apply others_In. split; [apply (pairing_active Hpi Hsl Hs)|auto].
    + intros (t & <- & Ht). apply others_In in Ht as [Ht H]. split; [apply (pairing_active Hpi Hsl Ht)|]. rewrite pi_invol. auto.
Qed.
Lemma socc_some sl (a : list nat) : In sl sls -> length a = N -> exists socc, opt_map (nth_error a) (sl_active sl) = Some socc.
Proof.
  intros Hsl Ha. apply opt_map_all. intros s Hs. apply nth_error_Some. rewrite Ha. apply (active_lt Hsl Hs).
Qed.
Lemma swap_commutes u : usher_ok sls u -> commutes N pi (fun _ c => c) moved (swap_propose u).
Proof.
  intros Ok a Ha B f. unfold swap_propose. set (g := gst pi (fun _ c => c)).
  eapply same_trans; [apply same_sym, same_assoc|]. eapply same_trans; [|apply same_assoc]. apply same_bind_in. intros sl Hsl.
  destruct (outcome_random_sublattice Ok Hsl) as [Hin _].
  eapply same_trans; [apply same_sym, same_assoc|]. eapply same_trans; [|apply same_assoc].
  apply same_uniform_perm with (h := pi); [apply active_perm; auto|]. intros s1 Hs1.
  assert (L1 : s1 < N) by apply (active_lt Hin Hs1).
  destruct (nth_error a s1) as [c1|] eqn:E1; [|apply nth_error_None in E1; lia].
  assert (E1' : nth_error (moved a) (pi s1) = Some c1) by (rewrite moved_nth, pi_invol; auto).
  destruct (socc_some Hin Ha) as (so & Eso). destruct (socc_some (a := moved a) Hin (moved_length a)) as (so' & Eso').
  rewrite E1', Eso, Eso'.
  eapply same_trans; [apply same_sym, same_assoc|]. eapply same_trans; [|apply same_assoc].
  eapply same_trans; [apply same_of_opt; reflexivity|]. eapply same_trans; [|apply same_sym, same_of_opt; reflexivity]. cbv beta.
  eapply same_trans; [apply same_sym, same_assoc|]. eapply same_trans; [|apply same_assoc].
  eapply same_trans; [apply same_of_opt; reflexivity|]. eapply same_trans; [|apply same_sym, same_of_opt; reflexivity]. cbv beta.
  rewrite (swap_options_filter c1 Eso), (swap_options_filter c1 Eso'). fold (others a sl c1) (others (moved a) sl c1).
  assert (Hp := others_perm c1 Hin Ha).
  destruct (others a sl c1) as [|x l] eqn:Ea.
  - apply Permutation_sym, Permutation_nil in Hp. rewrite Hp.
    eapply same_trans; [apply same_sym, same_ret|]. exact (same_ret [] (fun st => f (g st))).
  - destruct (others (moved a) sl c1) as [|x' l'] eqn:Ea'; [apply Permutation_nil in Hp; discriminate|].
    rewrite <- Ea, <- Ea' in *.
    eapply same_trans; [apply same_sym, same_assoc|]. eapply same_trans; [|apply same_assoc].
    apply same_uniform_perm with (h := pi); [auto|]. intros s2 Hs2. apply others_In in Hs2 as (_ & c2 & E2 & _).
    assert (E2' : nth_error (moved a) (pi s2) = Some c2) by (rewrite moved_nth, pi_invol; auto).
    rewrite E2, E2'.
    eapply same_trans; [apply same_sym, same_assoc|]. eapply same_trans; [|apply same_assoc].
    eapply same_trans; [apply same_of_opt; reflexivity|]. eapply same_trans; [|apply same_sym, same_of_opt; reflexivity]. cbv beta.
    eapply same_trans; [apply same_sym, same_ret|]. exact (same_ret [(s1, c2); (s2, c1)] (fun st => f (g st))).
Qed.
End Pairing.

(** What swaps do. *)
Definition exchanged (a b : list nat) (S : nat -> Prop) : Prop :=
  exists pi, pairing pi /\ (forall s, pi s <> s -> S s) /\ length b = length a /\ forall s, nth_error b s = nth_error a (pi s).
Lemma exchanged_valid a b S : exchanged a b S -> valid_occu sls N a -> valid_occu sls N b.
Proof.
  intros (pi & Hp & _ & Hl & H) [La Va]. split; [congruence|]. intros sl s Hsl Hs. rewrite H.
  destruct (Nat.eq_dec (pi s) s) as [->|Hne]; [apply Va; auto|]. destruct (proj2 Hp s Hne) as (sl' & Hsl' & Hs' & Hp').
  assert (E : sl' = sl).
  { exact (site_sublattice_unique Lay Hsl' Hsl (lay_active Lay _ _ Hsl' Hs') Hs). }
  subst. apply Va; auto. apply (lay_active Lay _ _ Hsl Hp').
Qed.
Lemma exchanged_refl a S : exchanged a a S.
Proof. exists (fun s => s). split; [split; [auto|congruence]|]. split; [congruence|auto]. Qed.
Lemma exchanged_trans a b c S T : exchanged a b S -> exchanged b c T -> (forall s, S s -> T s -> False) -> exchanged a c (fun s => S s \/ T s).
Proof.
  intros (p & Hp & Sp & Lp & Np) (q & Hq & Sq & Lq & Nq) D.
  assert (Ps : forall s, p s <> s -> q s = s).
  { intros s H. destruct (Nat.eq_dec (q s) s); auto. exfalso. exact (D s (Sp s H) (Sq s n)). }
  assert (Pp : forall s, p s <> s -> p (p s) <> p s) by (intros s H X; rewrite (proj1 Hp) in X; congruence).
  assert (Qq : forall s, q s <> s -> q (q s) <> q s) by (intros s H X; rewrite (proj1 Hq) in X; congruence).
  assert (Qs : forall s, q s <> s -> p s = s).
  { intros s H. destruct (Nat.eq_dec (p s) s); auto. exfalso. exact (D s (Sp s n) (Sq s H)). }
  assert (C : forall s, p (q s) = if Nat.eq_dec (q s) s then p s else q s).
  { intros s. destruct (Nat.eq_dec (q s) s) as [->|H]; auto. }
  exists (fun s => p (q s)). split; [split|].
  - intros s. rewrite (C s). destruct (Nat.eq_dec (q s) s) as [E|H].
    + destruct (Nat.eq_dec (p s) s) as [F|H]; [rewrite F, E; exact F|]. rewrite (Ps (p s) (Pp s H)). apply Hp.
    + rewrite (proj1 Hq). auto.
  - intros s. rewrite (C s). destruct (Nat.eq_dec (q s) s) as [E|H]; intros X; [apply Hp; auto|apply Hq; auto].
  - split; [|split; [congruence|]].
    + intros s. rewrite (C s). destruct (Nat.eq_dec (q s) s) as [E|H]; intros X; auto.
    + intros s. rewrite Nq, Np. reflexivity.
Qed.
Lemma exchanged_weaken a b (S T : nat -> Prop) : (forall s, S s -> T s) -> exchanged a b S -> exchanged a b T.
Proof. intros H (p & Hp & Sp & R). exists p. split; auto. Qed.

Definition swaps_only (p : list nat -> prog step) : Prop :=
  forall a st, valid_occu sls N a -> outcome (p a) st -> exchanged a (apply_step a st) (fun s => In s (map fst st)).
Lemma swap_only u : usher_ok sls u -> swaps_only (swap_propose u).
Proof.
  intros Ok a st V H. destruct (swap_outcome Lay Ok V H) as [(s1 & s2 & c1 & c2 & -> & Hl)|[-> _]]; [|apply exchanged_refl].
  destruct Hl as (sl & [Hsl H1] & [_ H2] & E1 & E2 & Hne).
  assert (Hs : s1 <> s2) by congruence.
  assert (L1 : s1 < length a) by (apply nth_error_Some; congruence). assert (L2 : s2 < length a) by (apply nth_error_Some; congruence).
  exists (fun s => if s =? s1 then s2 else if s =? s2 then s1 else s). split; [split|].
  - intros s. destruct (Nat.eqb_spec s s1) as [->|X].
    + destruct (Nat.eqb_spec s2 s1); [congruence|]. rewrite Nat.eqb_refl. auto.
    + destruct (Nat.eqb_spec s s2) as [->|Y]; [rewrite Nat.eqb_refl; auto|].
      destruct (Nat.eqb_spec s s1); [congruence|]. destruct (Nat.eqb_spec s s2); congruence.
  - intros s. destruct (Nat.eqb_spec s s1) as [->|X]; [exists sl; auto|].
    destruct (Nat.eqb_spec s s2) as [->|Y]; [exists sl; auto|congruence].
  - split; [|split].
    + intros s. destruct (Nat.eqb_spec s s1) as [->|X]; [cbn; auto|]. destruct (Nat.eqb_spec s s2) as [->|Y]; [cbn; auto|congruence].
    + apply length_apply_step.
    + intros s. unfold apply_step. cbn [fold_left fst snd]. rewrite !nth_error_upd, length_upd.
      destruct (Nat.eqb_spec s s1) as [->|X].
      * destruct (Nat.eqb_spec s2 s1); [congruence|]. rewrite Nat.eqb_refl. destruct (Nat.ltb_spec s1 (length a)); [auto|lia].
      * destruct (Nat.eqb_spec s s2) as [->|Y].
        -- rewrite Nat.eqb_refl. destruct (Nat.ltb_spec s2 (length a)); [auto|lia].
        -- destruct (Nat.eqb_spec s2 s); [congruence|]. destruct (Nat.eqb_spec s1 s); [congruence|auto].
Qed.
Lemma chained_swaps p subs : swaps_only p -> forall a, valid_occu sls N a -> chained p a subs -> share_no_site subs ->
  exchanged a (apply_step a (concat subs)) (fun s => In s (map fst (concat subs))).
Proof.
  intros Hp. induction subs as [|st subs IH]; intros a V Hc Hs; [apply exchanged_refl|].
  inversion Hc as [|? ? ? Ha Hb]; subst. cbn [concat]. rewrite apply_step_app.
  assert (X := Hp a st V Ha). assert (V' := exchanged_valid X V).
  assert (Hs' : share_no_site subs).
  { intros i j si sj s Hij Hi Hj. apply (Hs (S i) (S j)); auto. }
  apply exchanged_weaken with (S := fun s => In s (map fst st) \/ In s (map fst (concat subs))).
  - intros s H. rewrite map_app, in_app_iff. auto.
  - apply (exchanged_trans X (IH _ V' Hb Hs')). intros s H1 H2. rewrite concat_map in H2. apply in_concat in H2 as (l & Hl & Hx).
    apply in_map_iff in Hl as (st' & <- & Hst'). apply In_nth_error in Hst' as (j & Hj).
    exact (Hs 0 (S j) st st' s (O_S j) eq_refl Hj H1 Hx).
Qed.
Lemma built_swaps (base : (list nat -> prog step) -> Prop) p : (forall p, base p -> swaps_only p) -> built base p -> swaps_only p.
Proof.
  intros H. induction 1 as [p Hp|p lens ps _ IH|c _ IH]; [auto| |].
  - intros a st V Ho. destruct (multi_outcome Ho) as (len & subs & _ & -> & Hc & Hs & _). apply (chained_swaps IH V Hc Hs).
  - intros a st V Ho. unfold composite_propose in Ho. apply outcome_bind in Ho as (p & Hp & Ho). apply outcome_choice_p in Hp.
    exact (IH p Hp a st V Ho).
Qed.
Lemma swaps_symmetric (base : (list nat -> prog step) -> Prop) p o o' : (forall p, base p -> exists u, usher_ok sls u /\ p = swap_propose u) ->
  built base p -> valid_occu sls N o -> valid_occu sls N o' -> transition p o o' = transition p o' o.
Proof.
  intros Hb Hp V V'.
  assert (Hs : swaps_only p).
  { apply built_swaps with (base := base); auto. intros q Hq. destruct (Hb q Hq) as (u & Ok & ->). apply (swap_only Ok). }
  assert (Main : forall a b, valid_occu sls N a -> valid_occu sls N b -> transition p a b <> 0%Qc -> transition p a b = transition p b a).
  { intros a b Va Vb Hnz. destruct (@prob_nz_outcome _ _ _ Hnz) as (st & Ho & Est).
    destruct (occu_eqb_spec (apply_step a st) b) as [E|]; [|discriminate].
    destruct (Hs a st Va Ho) as (pi & Hpi & _ & Hl & Hn). rewrite E in *.
    assert (Eb : moved pi a = b).
    { apply nth_error_ext. intros s. rewrite (moved_nth Hpi) by apply Va. auto. }
    apply (@commutes_symmetric N pi (fun _ c => c) (moved pi)).
    - intros x s c Hx. apply (moved_upd Hpi). auto.
    - apply (@built_commutes N pi (fun _ c => c) (moved pi)) with (base := base); auto.
      + apply (pi_inj Hpi).
      + intros x s c Hx. apply (moved_upd Hpi). auto.
      + intros q Hq. destruct (Hb q Hq) as (u & Ok & ->). apply (swap_commutes Hpi Ok).
    - apply Va.
    - apply Vb.
    - intros x Hx. apply (moved_invol Hpi Hx).
    - exact Eb.
    - rewrite <- Eb. apply (moved_invol Hpi). apply Va. }
  destruct (Qc_eq_dec (transition p o o') 0) as [E|E]; [|apply Main; auto].
  destruct (Qc_eq_dec (transition p o' o) 0) as [E'|E']; [congruence|]. symmetry. apply Main; auto.
Qed.
End Swaps.
