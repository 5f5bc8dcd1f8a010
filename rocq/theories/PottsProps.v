(** C118 and C119: decorations of Potts subspaces. *)
From Verif Require GroundEnergyProofs.
From Verif Require Import MatchingProps LibProofs EvaluatorProofs SubspaceProofs SubspaceProps OrbitProps EvaluatorProps.
From Verif Require Export Potts SubspaceSpec.
From Coq Require Import Permutation Lia.
Set Implicit Arguments.
Unset Strict Implicit.
Open Scope nat_scope.

(** ** Specification *)
(** The site permutations form a group and exchange only sites with the same species, of which there are at least two. *)
Record geo_ok (spaces : nat -> list (list nat)) (g : pgeo) : Prop := {
  go_dims : map (@length nat) (spaces (g_key g)) = g_dims g;
  go_some : g_dims g <> [];
  go_two : forall d, In d (g_dims g) -> 2 <= d;
  go_distinct : forall sp, In sp (spaces (g_key g)) -> NoDup sp;
  go_group : perm_group (length (g_dims g)) (g_perms g);
  go_sym : sym_bits (spaces (g_key g)) (g_perms g)
}.
(** The ways to put species on the sites of a cluster. *)
Definition labeling (spaces : list (list nat)) (t : list nat) : Prop := Forall2 (fun x sp => In x sp) t spaces.
(** All of them, each once, in classes of symmetrically equivalent ones. *)
Definition all_labelings (spaces : list (list nat)) (perms : list (list nat)) (Ds : list (list (list nat))) : Prop :=
  NoDup (concat Ds) /\ (forall t, In t (concat Ds) <-> labeling spaces t) /\ (forall D, In D Ds -> D <> []) /\
  (forall D a b, In D Ds -> In a D -> (In b D <-> exists p, In p perms /\ permute a p = Some b)).
Definition generated (points : list pgeo) (multi : list (nat * list pgeo)) (given : bool) : list pgeo := points ++ (if given then flat_map snd multi else []).

(** ** Proofs *)
Lemma items_flat A B (f : A -> option B) (items : list (nat * list A)) r :
  opt_map (fun kv => let? os := opt_map f (snd kv) in Some (fst kv, os)) items = Some r -> opt_map f (flat_map snd items) = Some (flat_map snd r).
Proof.
  revert r. induction items as [|[k l] items IH]; intros r; cbn [opt_map]; [intros [= <-]; auto|]. cbn [snd fst]. destruct (opt_map f l) as [os|] eqn:E; [|discriminate]. cbn [option_bind].
  destruct (opt_map (fun kv => let? os := opt_map f (snd kv) in Some (fst kv, os)) items) as [r'|]; [|discriminate]. intros [= <-]. cbn [flat_map snd]. specialize (IH r' eq_refl).
  clear - E IH. revert os E. induction l as [|x l IHl]; intros os; cbn [opt_map app]; [intros [= <-]; auto|]. destruct (f x); [|discriminate]. cbn [option_bind]. destruct (opt_map f l) as [os'|]; [|discriminate]. intros [= <-]. rewrite (IHl os' eq_refl). auto.
Qed.
Lemma opt_map_apps A B (f : A -> option B) l l' r r' : opt_map f l = Some r -> opt_map f l' = Some r' -> opt_map f (l ++ l') = Some (r ++ r').
Proof.
  revert r. induction l as [|x l IH]; intros r; cbn [opt_map app]; [intros [= <-]; auto|]. destruct (f x); [|discriminate]. cbn [option_bind]. destruct (opt_map f l) as [r0|]; [|discriminate]. intros [= <-] H. rewrite (IH r0 eq_refl H). auto.
Qed.
Lemma opt_map_at A B (f : A -> option B) l r n x : opt_map f l = Some r -> nth_error l n = Some x -> exists y, nth_error r n = Some y /\ f x = Some y.
Proof.
  revert r n. induction l as [|a l IH]; intros r [|n]; cbn [opt_map nth_error]; try discriminate; destruct (f a) as [b|] eqn:E; try discriminate; cbn [option_bind]; destruct (opt_map f l) as [r0|]; try discriminate; intros [= <-].
  - intros [= <-]. exists b. auto.
  - intros H. apply (IH r0 n eq_refl H).
Qed.
(** Species of a cluster. *)
Lemma species_iff spaces bits t : species_of spaces bits = Some t <-> length t = length bits /\ length bits <= length spaces /\
  forall i b, nth_error bits i = Some b -> exists sp, nth_error spaces i = Some sp /\ nth_error sp b = nth_error t i.
Proof.
  revert spaces t. induction bits as [|b bits IH]; intros spaces t; cbn [species_of].
  - split; [intros [= <-]; split; auto; split; [cbn; lia|]; intros [|i] b H; discriminate|]. intros (H & _). destruct t; [auto|discriminate].
  - destruct spaces as [|sp spaces]; [split; [discriminate|]; intros (_ & H & _); cbn in H; lia|]. split.
    + destruct (nth_error sp b) as [x|] eqn:E; [|discriminate]. cbn [option_bind]. destruct (species_of spaces bits) as [r|] eqn:Er; [|discriminate]. intros [= <-]. apply IH in Er as (H1 & H2 & H3).
      split; [cbn; lia|]. split; [cbn; lia|]. intros [|i] b' H; cbn [nth_error] in *; [injection H as <-; exists sp; auto|auto].
    + intros (H1 & H2 & H3). destruct t as [|x t]; [discriminate|]. destruct (H3 0 b eq_refl) as (sp' & [= <-] & E). cbn [nth_error] in E. rewrite E. cbn [option_bind].
      assert (X : species_of spaces bits = Some t) by (apply IH; split; [cbn in H1; lia|]; split; [cbn in H2; lia|]; intros i b' H; apply (H3 (S i)); auto). rewrite X. auto.
Qed.
Lemma species_total spaces bits : codes_below (map (@length nat) spaces) bits -> exists t, species_of spaces bits = Some t /\ labeling spaces t.
Proof.
  revert bits. induction spaces as [|sp spaces IH]; intros bits H; inversion H as [|? b ? bits' H1 H2]; subst; cbn [species_of]; [exists []; split; auto; constructor|].
  destruct (IH bits' H2) as (t & E & L). destruct (nth_error sp b) as [x|] eqn:Ex; [|apply nth_error_None in Ex; lia]. cbn [option_bind]. rewrite E. exists (x :: t). split; auto. constructor; auto. eapply nth_error_In; eauto.
Qed.
Lemma species_onto spaces t : labeling spaces t -> exists bits, codes_below (map (@length nat) spaces) bits /\ species_of spaces bits = Some t.
Proof.
  intros H. induction H as [|x sp t spaces H1 H2 IH]; [exists []; split; [constructor|auto]|]. destruct IH as (bits & I1 & I2). apply In_nth_error in H1 as (b & Hb). exists (b :: bits). split.
  - constructor; auto. apply nth_error_Some. congruence.
  - cbn [species_of]. rewrite Hb. cbn [option_bind]. rewrite I2. auto.
Qed.
Lemma species_inj spaces bits bits' t : (forall sp, In sp spaces -> NoDup sp) -> species_of spaces bits = Some t -> species_of spaces bits' = Some t -> bits = bits'.
Proof.
  intros HN H H'. apply species_iff in H as (L1 & L2 & H). apply species_iff in H' as (L1' & L2' & H'). apply GroundEnergyProofs.nth_error_eq. intros i.
  destruct (nth_error bits i) as [b|] eqn:E.
  - assert (Li : i < length bits') by (rewrite <- L1', L1; apply nth_error_Some; congruence). destruct (nth_error bits' i) as [b'|] eqn:E'; [|apply nth_error_None in E'; lia]. f_equal.
    destruct (H i b E) as (sp & S1 & S2). destruct (H' i b' E') as (sp' & S1' & S2'). rewrite S1 in S1'. injection S1' as <-. assert (Hn : NoDup sp) by (apply HN; eapply nth_error_In; eauto).
    apply (proj1 (NoDup_nth_error sp) Hn); [|congruence]. apply nth_error_Some. rewrite S2. apply nth_error_Some. rewrite L1'. auto.
  - apply nth_error_None in E. symmetry. apply nth_error_None. lia.
Qed.
Lemma permute_iff bits p b : permute bits p = Some b <-> length b = length p /\ forall i j, nth_error p i = Some j -> nth_error bits j <> None /\ nth_error b i = nth_error bits j.
Proof.
  unfold permute. revert b. induction p as [|j p IH]; intros b; cbn [opt_map].
  - split; [intros [= <-]; split; auto; intros [|i] j H; discriminate|]. intros (H & _). destruct b; [auto|discriminate].
  - split.
    + destruct (nth_error bits j) as [x|] eqn:E; [|discriminate]. cbn [option_bind]. destruct (opt_map (nth_error bits) p) as [r|]; [|discriminate]. intros [= <-]. destruct (proj1 (IH r) eq_refl) as (H1 & H2). split; [cbn; lia|].
      intros [|i] k H; cbn [nth_error] in *; [injection H as <-; rewrite E; split; [discriminate|auto]|apply H2; auto].
    + intros (H1 & H2). destruct b as [|x b]; [discriminate|]. destruct (H2 0 j eq_refl) as (H3 & H4). cbn [nth_error] in H4. rewrite <- H4. cbn [option_bind].
      assert (X : opt_map (nth_error bits) p = Some b) by (apply IH; split; [cbn in H1; lia|]; intros i k H; apply (H2 (S i)); auto). rewrite X. auto.
Qed.
Lemma species_permute spaces perms p a b t : sym_bits spaces perms -> In p perms -> length p = length spaces -> length a = length spaces -> species_of spaces a = Some t -> permute a p = Some b ->
  exists t', species_of spaces b = Some t' /\ permute t p = Some t'.
Proof.
  intros HS Hp Lp La H1 H2. apply species_iff in H1 as (L1 & L2 & H1). apply permute_iff in H2 as (L3 & H2).
  assert (X : permute t p <> None).
  { unfold permute. intros E. assert (Y : exists j, In j p /\ nth_error t j = None).
    { clear - E. induction p as [|j p IH]; [discriminate|]. cbn [opt_map] in E. destruct (nth_error t j) eqn:Ej; [|exists j; cbn; auto]. cbn [option_bind] in E. destruct (opt_map (nth_error t) p); [discriminate|]. destruct IH as (k & K1 & K2); auto. exists k. cbn. auto. }
    destruct Y as (j & Y1 & Y2). apply In_nth_error in Y1 as (i & Y1). apply H2 in Y1 as (Y1 & _). apply Y1. apply nth_error_None. apply nth_error_None in Y2. lia. }
  destruct (permute t p) as [t'|] eqn:Et; [|congruence]. exists t'. split; auto. apply permute_iff in Et as (L4 & Et). apply species_iff. split; [lia|]. split; [lia|]. intros i x Hx.
  assert (Li : i < length p) by (rewrite <- L3; apply nth_error_Some; congruence). destruct (nth_error p i) as [j|] eqn:Ej; [|apply nth_error_None in Ej; lia].
  destruct (H2 i j Ej) as (_ & H3). rewrite Hx in H3. destruct (H1 j x) as (sp & S1 & S2); auto. exists sp. split.
  - rewrite <- (HS p i j Hp Ej). auto.
  - destruct (Et i j Ej) as (_ & ->). auto.
Qed.
(** Full orbits. *)
Section Geo.
Variables (spaces : nat -> list (list nat)) (g : pgeo).
Hypothesis HG : geo_ok spaces g.
Let sps := spaces (g_key g).
Lemma sym_dims : sym_bits (map (seq 0) (g_dims g)) (g_perms g).
Proof.
  intros p i j Hp Hi. rewrite <- (go_dims HG). rewrite map_map, !nth_error_map. rewrite (go_sym HG Hp Hi). auto.
Qed.
Lemma geo_orbit : exists so, potts_of g = Some so /\ s_key so = g_key g /\ NoDup (concat (s_combos so)) /\ (forall a, In a (concat (s_combos so)) <-> codes_below (g_dims g) a) /\
  (forall c, In c (s_combos so) -> c <> []) /\ (forall c a b, In c (s_combos so) -> In a c -> (In b c <-> exists p, In p (g_perms g) /\ permute a p = Some b)).
Proof.
  destruct (@C35_partition (length (g_dims g)) (map (seq 0) (g_dims g)) (g_perms g) (go_group HG) sym_dims) as (cs & E & H1 & H2 & H3 & H4); [apply map_length|].
  unfold potts_of, potts_orbit. rewrite E. cbn [option_bind]. eexists. split; [reflexivity|]. cbn [s_key s_combos]. split; auto. split; auto. split; [|auto].
  intros a. rewrite H2. apply cart_below.
Qed.
Lemma geo_labelings so : potts_of g = Some so -> exists Ds, opt_map (opt_map (species_of sps)) (s_combos so) = Some Ds /\ all_labelings sps (g_perms g) Ds.
Proof.
  intros E. destruct geo_orbit as (so' & E' & _ & H1 & H2 & H3 & H4). rewrite E in E'. injection E' as <-. clear E. pose proof (go_dims HG) as Hd. fold sps in Hd.
  assert (T : forall bits, In bits (concat (s_combos so)) -> species_of sps bits <> None).
  { intros bits Hb. apply H2 in Hb. rewrite <- Hd in Hb. destruct (species_total Hb) as (t & -> & _). discriminate. }
  destruct (@opt_map_all _ _ (opt_map (species_of sps)) (s_combos so)) as (Ds & ED).
  { intros c Hc E. apply opt_map_none in E as (bits & B1 & B2). apply (T bits); auto. apply in_concat. eauto. }
  exists Ds. split; auto.
  (* images of classes *)
  assert (I : forall D, In D Ds <-> exists c, In c (s_combos so) /\ opt_map (species_of sps) c = Some D).
  { clear - ED. revert Ds ED. induction (s_combos so) as [|c cs IH]; intros Ds; cbn [opt_map]; [intros [= <-] D; split; [intros []|intros (? & [] & _)]|]. destruct (opt_map (species_of sps) c) as [D0|] eqn:E0; [|discriminate]. cbn [option_bind].
    destruct (opt_map (opt_map (species_of sps)) cs) as [r|]; [|discriminate]. intros [= <-] D. cbn [In]. rewrite (IH r eq_refl). split.
    - intros [<-|(x & X1 & X2)]; [exists c; auto|exists x; auto].
    - intros (x & [->|X1] & X2); [left; congruence|right; eauto]. }
  assert (J : forall c D t, opt_map (species_of sps) c = Some D -> (In t D <-> exists bits, In bits c /\ species_of sps bits = Some t)).
  { clear. induction c as [|b c IH]; intros D t; cbn [opt_map]; [intros [= <-]; split; [intros []|intros (? & [] & _)]|]. destruct (species_of sps b) as [x|] eqn:Ex; [|discriminate]. cbn [option_bind].
    destruct (opt_map (species_of sps) c) as [r|]; [|discriminate]. intros [= <-]. cbn [In]. rewrite (IH r t eq_refl). split.
    - intros [<-|(y & Y1 & Y2)]; [exists b; auto|exists y; auto].
    - intros (y & [->|Y1] & Y2); [left; congruence|right; eauto]. }
  assert (K : opt_map (species_of sps) (concat (s_combos so)) = Some (concat Ds)).
  { clear - ED. revert Ds ED. induction (s_combos so) as [|c cs IH]; intros Ds; cbn [opt_map]; [intros [= <-]; auto|]. destruct (opt_map (species_of sps) c) as [D0|] eqn:E0; [|discriminate]. cbn [option_bind].
    destruct (opt_map (opt_map (species_of sps)) cs) as [r|]; [|discriminate]. intros [= <-]. cbn [concat]. apply opt_map_apps; auto. }
  assert (LB : forall bits, codes_below (g_dims g) bits -> length bits = length sps).
  { intros bits Hb. rewrite <- Hd in Hb. apply Forall2_length in Hb. rewrite map_length in Hb. auto. }
  split; [|split; [|split]].
  - assert (N : forall l r, NoDup l -> opt_map (species_of sps) l = Some r -> NoDup r); [|apply (N _ _ H1 K)].
    induction l as [|b l IH]; intros r Hn; cbn [opt_map]; [intros [= <-]; constructor|]. inversion Hn as [|? ? N1 N2]; subst. destruct (species_of sps b) as [x|] eqn:Ex; [|discriminate]. cbn [option_bind].
    destruct (opt_map (species_of sps) l) as [r'|] eqn:Er; [|discriminate]. intros [= <-]. constructor; [|apply IH; auto]. intros C. apply (J l r' x Er) in C as (b' & C1 & C2). rewrite (species_inj (go_distinct HG) Ex C2) in N1. auto.
  - intros t. rewrite (J _ _ t K). split.
    + intros (bits & B1 & B2). apply H2 in B1. rewrite <- Hd in B1. destruct (species_total B1) as (t' & B3 & B4). rewrite B2 in B3. injection B3 as <-. auto.
    + intros L. destruct (species_onto L) as (bits & B1 & B2). exists bits. split; auto. apply H2. rewrite <- Hd. auto.
  - intros D HD ->. apply I in HD as (c & C1 & C2). apply (H3 c C1). apply opt_map_length in C2. destruct c; auto; discriminate.
  - intros D a b HD Ha. apply I in HD as (c & C1 & C2). apply (J c D a C2) in Ha as (x & X1 & X2). rewrite (J c D b C2). assert (Cx : codes_below (g_dims g) x) by (apply H2; apply in_concat; eauto).
    assert (LP : forall p, In p (g_perms g) -> length p = length sps). { intros p Hp. destruct (pg_perm (go_group HG) p Hp) as (L & _). rewrite L. rewrite <- Hd, map_length. auto. }
    split.
    + intros (y & Y1 & Y2). apply (H4 c x y C1 X1) in Y1 as (p & P1 & P2). destruct (species_permute (go_sym HG) P1 (LP p P1) (LB x Cx) X2 P2) as (t' & T1 & T2). exists p. split; auto. fold sps in T1. congruence.
    + intros (p & P1 & P2). destruct (pg_perm (go_group HG) p P1) as (Q1 & Q2 & Q3). assert (E : permute x p = Some (act x p)).
      { apply (permute_act (n := length (g_dims g))); auto. rewrite (LB x Cx), <- Hd, map_length. auto. }
      destruct (species_permute (go_sym HG) P1 (LP p P1) (LB x Cx) X2 E) as (t' & T1 & T2). fold sps in T1. assert (t' = b) as -> by congruence. exists (act x p). split; auto. apply (H4 c x _ C1 X1). eauto.
Qed.
(** There are at least two classes: one species at the first places of all sites, another one at the second. *)
Lemma geo_two so : potts_of g = Some so -> 2 <= s_len so.
Proof.
  intros E. destruct geo_orbit as (so' & E' & _ & H1 & H2 & H3 & H4). rewrite E in E'. injection E' as <-. unfold s_len.
  assert (Z : forall v, v < 2 -> In (repeat v (length (g_dims g))) (concat (s_combos so))).
  { intros v Hv. apply H2. pose proof (go_two HG) as T. clear - T Hv. unfold codes_below. induction (g_dims g) as [|d ds IH]; cbn [length repeat]; constructor; [specialize (T d (or_introl eq_refl)); lia|]. apply IH. intros x Hx. apply T. cbn. auto. }
  pose proof (Z 0 ltac:(lia)) as Z0. pose proof (Z 1 ltac:(lia)) as Z1. destruct (s_combos so) as [|c [|c' cs]]; [destruct Z0| |cbn; lia]. exfalso. cbn [concat] in Z0, Z1. rewrite app_nil_r in Z0, Z1.
  apply (H4 c _ _ (or_introl eq_refl) Z0) in Z1 as (p & P1 & P2). apply permute_iff in P2 as (L & P2). pose proof (go_some HG) as Ne. destruct (g_dims g) as [|d ds]; [congruence|]. cbn [length repeat] in L, P2.
  destruct p as [|j p]; [discriminate|]. destruct (P2 0 j eq_refl) as (P3 & P4). cbn [nth_error] in P4. symmetry in P4. apply nth_error_In in P4. change (0 :: repeat 0 (length ds)) with (repeat 0 (S (length ds))) in P4. apply repeat_spec in P4. discriminate.
Qed.
End Geo.
Lemma drop_last_is A (l : list A) n : l <> [] -> drop_at [n + length l - 1] n l = removelast l.
Proof.
  revert n. induction l as [|x l IH]; intros n H; [congruence|]. cbn [drop_at existsb]. rewrite orb_false_r. destruct l as [|y l].
  - cbn [length]. replace (n + 1 - 1) with n by lia. rewrite Nat.eqb_refl. reflexivity.
  - cbn [length]. destruct (Nat.eqb_spec n (n + S (S (length l)) - 1)); [lia|]. cbn [removelast]. f_equal. specialize (IH (S n)). cbn [length] in IH. replace (n + S (S (length l)) - 1) with (S n + S (length l) - 1) by lia. apply IH. discriminate.
Qed.
Lemma drop_last_ok so : 2 <= s_len so -> drop_last_combo so = Some (with_combos so (removelast (s_combos so))).
Proof.
  intros H. unfold drop_last_combo, remove_combos. cbn [existsb]. destruct (Nat.leb_spec (s_len so) (s_len so - 1)); [lia|]. cbn [orb option_bind fst snd].
  assert (Ne : s_combos so <> []) by (unfold s_len in H; destruct (s_combos so); [cbn in H; lia|discriminate]). pose proof (drop_last_is 0 Ne) as E. cbn [Nat.add] in E. fold (s_len so) in E. rewrite E.
  pose proof (app_removelast_last [] Ne) as L. apply (f_equal (@length _)) in L. rewrite app_length in L. cbn [length] in L. unfold s_len in H. destruct (Nat.eqb_spec (length (removelast (s_combos so))) 0); [lia|]. auto.
Qed.
Lemma opt_map_removelast A B (f : A -> option B) l r : opt_map f l = Some r -> opt_map f (removelast l) = Some (removelast r).
Proof.
  revert r. induction l as [|x l IH]; intros r; cbn [opt_map]; [intros [= <-]; auto|]. destruct (f x) as [y|] eqn:E; [|discriminate]. cbn [option_bind]. destruct (opt_map f l) as [r'|] eqn:Er; [|discriminate]. intros [= <-].
  destruct l as [|a l]; [injection Er as <-; auto|]. specialize (IH r' eq_refl). destruct r' as [|b r']; [cbn [opt_map] in Er; destruct (f a); [|discriminate]; cbn [option_bind] in Er; destruct (opt_map f l); discriminate|].
  change (removelast (x :: a :: l)) with (x :: removelast (a :: l)). change (removelast (y :: b :: r')) with (y :: removelast (b :: r')). cbn [opt_map]. rewrite E. cbn [option_bind]. rewrite IH. auto.
Qed.

(** The orbits of the generated subspace. *)
Definition kept (given remove_last : bool) (so : sorbit) : sorbit := if given && remove_last then with_combos so (removelast (s_combos so)) else so.
Lemma items_total spaces points multi given rl : (forall g, In g (generated points multi given) -> geo_ok spaces g) ->
  exists items fos, potts_items points multi given rl = Some items /\ opt_map potts_of (generated points multi given) = Some fos /\ orbits_of items = map (kept given rl) fos.
Proof.
  intros HG. unfold potts_items, generated in *.
  assert (T : forall g, geo_ok spaces g -> exists so, potts_of g = Some so) by (intros g Hg; destruct (geo_orbit Hg) as (so & E & _); eauto).
  destruct (@opt_map_all _ _ potts_of points) as (ps & Ep); [intros g Hin E; destruct (T g) as (so & X); [apply HG; apply in_or_app; auto|congruence]|]. rewrite Ep. cbn [option_bind].
  destruct given; cbn [negb].
  - destruct (@opt_map_all _ _ (fun kv => let? os := opt_map potts_of (snd kv) in Some (fst kv, os)) multi) as (ms & Em).
    { intros [k l] Hin E. cbn [fst snd] in E. destruct (opt_map potts_of l) eqn:El; [discriminate|]. apply opt_map_none in El as (g & G1 & G2). destruct (T g) as (so & X); [|congruence]. apply HG. apply in_or_app. right. apply in_flat_map. exists (k, l). auto. }
    rewrite Em. cbn [option_bind]. pose proof (items_flat Em) as Ef. pose proof (opt_map_apps Ep Ef) as Ea. exists (match rl with true => map (fun kv => (fst kv, map (kept true rl) (snd kv))) ((1, ps) :: ms) | false => (1, ps) :: ms end), (ps ++ flat_map snd ms).
    split; [|split; auto].
    + destruct rl; auto. apply opt_map_map. intros [k os] Hin. cbn [fst snd]. rewrite opt_map_map with (g := kept true true); auto. intros so Hso. apply drop_last_ok.
      assert (X : In so (ps ++ flat_map snd ms)) by (destruct Hin as [[= <- <-]|Hin]; apply in_or_app; [auto|right; apply in_flat_map; exists (k, os); auto]).
      apply In_nth_error in X as (n & X). pose proof (opt_map_length _ _ Ea) as L. destruct (nth_error (points ++ flat_map snd multi) n) as [g|] eqn:Eg; [|apply nth_error_None in Eg; rewrite <- L in Eg; apply nth_error_None in Eg; congruence].
      destruct (opt_map_at Ea Eg) as (y & Y1 & Y2). rewrite X in Y1. injection Y1 as <-. apply (geo_two (spaces := spaces) (g := g)); auto. apply HG. eapply nth_error_In; eauto.
    + destruct rl.
      * rewrite orbits_of_map. unfold orbits_of. cbn [flat_map snd]. auto.
      * unfold kept. cbn [andb]. rewrite map_id. unfold orbits_of. cbn [flat_map snd]. auto.
  - rewrite app_nil_r. exists [(1, ps)], ps. split; auto. split; auto. unfold kept, orbits_of. cbn [andb flat_map snd]. rewrite app_nil_r, map_id. auto.
Qed.

Lemma new_reachable items : items_ok items -> reachable (fun _ _ => []) (new_sub items).
Proof. intros H. exists items, []. auto. Qed.
Section Sub.
Variables (spaces : nat -> list (list nat)) (points : list pgeo) (multi : list (nat * list pgeo)) (given rl : bool) (items : list (nat * list sorbit)).
Hypothesis HG : forall g, In g (generated points multi given) -> geo_ok spaces g.
Hypothesis HI : potts_items points multi given rl = Some items.
Let st := new_sub items.
Lemma sub_facts : items_ok items /\ exists fos, opt_map potts_of (generated points multi given) = Some fos /\ map core (sub_orbits st) = map core (map (kept given rl) fos).
Proof.
  destruct (items_total rl HG) as (items' & fos & E1 & E2 & E3). rewrite HI in E1. injection E1 as <-. assert (Hok : items_ok items).
  { apply items_orbits. rewrite E3. intros o Ho. apply in_map_iff in Ho as (so & <- & Hso). apply In_nth_error in Hso as (n & Hn). pose proof (opt_map_length _ _ E2) as L.
    destruct (nth_error (generated points multi given) n) as [g|] eqn:Eg; [|apply nth_error_None in Eg; rewrite <- L in Eg; apply nth_error_None in Eg; congruence].
    destruct (opt_map_at E2 Eg) as (y & Y1 & Y2). rewrite Hn in Y1. injection Y1 as <-. assert (T : 2 <= s_len so) by (apply (geo_two (spaces := spaces) (g := g)); auto; apply HG; eapply nth_error_In; eauto).
    unfold kept, s_len in *. destruct (given && rl); [|intros C; rewrite C in T; cbn in T; lia]. cbn [with_combos s_combos]. intros C. assert (Ne : s_combos so <> []) by (intros C'; rewrite C' in T; cbn in T; lia).
    pose proof (app_removelast_last [] Ne) as X. rewrite C in X. cbn [app] in X. rewrite X in T. cbn in T. lia. }
  split; auto. exists fos. split; auto. unfold st, new_sub. destruct (reset_consistent [] Hok) as (_ & H & _). rewrite H, E3. auto.
Qed.
(** ** C118: decorations *)
Lemma sub_at n g : nth_error (generated points multi given) n = Some g -> exists o so, nth_error (sub_orbits st) n = Some o /\ potts_of g = Some so /\ core o = core (kept given rl so) /\ s_id o = S n.
Proof.
  intros Hg. destruct sub_facts as (Hok & fos & E & C). destruct (opt_map_at E Hg) as (so & S1 & S2). assert (X : nth_error (map core (sub_orbits st)) n = Some (core (kept given rl so))) by (rewrite C, !nth_error_map, S1; auto).
  rewrite nth_error_map in X. destruct (nth_error (sub_orbits st) n) as [o|] eqn:Eo; [|discriminate]. exists o, so. split; auto. split; auto. split; [cbn [option_map] in X; congruence|].
  pose proof (reachable_consistent (new_reachable Hok)) as HC. fold st in HC. assert (Y : nth_error (map s_id (sub_orbits st)) n = Some (s_id o)) by (rewrite nth_error_map, Eo; auto). rewrite (c_ids HC) in Y.
  assert (Ln : n < length (sub_orbits st)) by (apply nth_error_Some; congruence). rewrite (nth_error_nth' _ 0) in Y by (rewrite seq_length; auto). rewrite seq_nth in Y by auto. injection Y as <-. auto.
Qed.
Lemma function_at n o k c : nth_error (sub_orbits st) n = Some o -> nth_error (s_combos o) k = Some c -> get_function_decoration spaces st (s_bit o + k) = opt_map (species_of (spaces (s_key o))) c.
Proof.
  intros Ho Hk. destruct sub_facts as (Hok & _). pose proof (new_reachable Hok) as HR. fold st in HR. pose proof (reachable_consistent HR) as HC. unfold get_function_decoration.
  assert (Lk : k < s_len o) by (unfold s_len; apply nth_error_Some; congruence). assert (Own : owner st (s_bit o + k) o) by (split; [eapply nth_error_In; eauto|lia]).
  assert (Rng : 0 < s_bit o + k < sub_ncorr st).
  { pose proof (c_bits HC n Ho) as B. rewrite (c_ncorr HC). pose proof (firstn_skipn n (sub_orbits st)) as SS. assert (S2 : skipn n (sub_orbits st) = o :: skipn (S n) (sub_orbits st)).
    { clear - Ho. revert n Ho. induction (sub_orbits st) as [|x l IH]; intros [|n] H; try discriminate; cbn [nth_error skipn] in *; [injection H as ->; auto|]. rewrite (IH n H). destruct l; auto; destruct n; discriminate. }
    rewrite <- SS, S2 at 1. rewrite map_app, list_sum_app. cbn [map]. unfold list_sum at 2. cbn [fold_right]. lia. }
  destruct (C33_owner HR Rng) as (o' & O1 & O2 & O3). rewrite (O2 o Own) in *. rewrite O3. cbn [option_bind].
  assert (Id : s_id o' = S n).
  { assert (Y : nth_error (map s_id (sub_orbits st)) n = Some (s_id o')) by (rewrite nth_error_map, Ho; auto). rewrite (c_ids HC) in Y. assert (Ln : n < length (sub_orbits st)) by (apply nth_error_Some; congruence).
    rewrite (nth_error_nth' _ 0) in Y by (rewrite seq_length; auto). rewrite seq_nth in Y by auto. injection Y as <-. auto. }
  rewrite Id. cbn [Nat.sub]. rewrite Nat.sub_0_r, Ho. cbn [option_bind]. replace (s_bit o' + k - s_bit o') with k by lia. rewrite Hk. auto.
Qed.
Lemma orbit_decorations n o : nth_error (sub_orbits st) n = Some o -> get_orbit_decorations spaces st (S n) = opt_map (opt_map (species_of (spaces (s_key o)))) (s_combos o).
Proof.
  intros Ho. unfold get_orbit_decorations. replace (S n - 1) with n by lia. rewrite Ho. cbn [option_bind]. unfold s_len.
  assert (X : forall cs k, (forall i c, nth_error cs i = Some c -> nth_error (s_combos o) (k + i) = Some c) -> opt_map (get_function_decoration spaces st) (seq (s_bit o + k) (length cs)) = opt_map (opt_map (species_of (spaces (s_key o)))) cs).
  { induction cs as [|c cs IH]; intros k H; auto. cbn [length seq opt_map]. pose proof (function_at Ho (H 0 c eq_refl)) as F. rewrite Nat.add_0_r in F. rewrite F. replace (S (s_bit o + k)) with (s_bit o + S k) by lia. rewrite IH; auto. intros i c' Hi. rewrite <- (H (S i) c' Hi). f_equal. lia. }
  specialize (X (s_combos o) 0). rewrite Nat.add_0_r in X. apply X. auto.
Qed.
End Sub.
(** Generation never fails, also when the last function of every orbit is removed. *)
Theorem C118_total spaces points multi given rl : (forall g, In g (generated points multi given) -> geo_ok spaces g) -> potts_items points multi given rl <> None.
Proof. intros HG. destruct (items_total rl HG) as (items & fos & E & _). congruence. Qed.
(** The decorations of an orbit are all labelings in classes of equivalent ones, without the last class if it was removed. *)
Theorem C118_orbit spaces points multi given rl items n g : (forall g, In g (generated points multi given) -> geo_ok spaces g) -> potts_items points multi given rl = Some items ->
  nth_error (generated points multi given) n = Some g ->
  exists Ds, all_labelings (spaces (g_key g)) (g_perms g) Ds /\
    get_orbit_decorations spaces (new_sub items) (S n) = Some (if given && rl then removelast Ds else Ds).
Proof.
  intros HG HI Hn. destruct (sub_at HG HI Hn) as (o & so & H1 & H2 & H3 & H4). assert (Gg : geo_ok spaces g) by (apply HG; eapply nth_error_In; eauto).
  destruct (geo_labelings Gg H2) as (Ds & D1 & D2). exists Ds. split; auto. rewrite (orbit_decorations HG HI H1). apply core_fields in H3 as (K1 & _ & _ & K2 & _).
  destruct (geo_orbit Gg) as (so' & E' & K3 & _). rewrite H2 in E'. injection E' as <-. rewrite K1, K2. unfold kept. destruct (given && rl); cbn [with_combos s_key s_combos]; rewrite K3; auto. apply opt_map_removelast. auto.
Qed.
(** The decorations of a function are those at its position in its orbit. *)
Theorem C118_function spaces points multi given rl items n g k Ds D o : (forall g, In g (generated points multi given) -> geo_ok spaces g) -> potts_items points multi given rl = Some items ->
  nth_error (generated points multi given) n = Some g -> nth_error (sub_orbits (new_sub items)) n = Some o ->
  get_orbit_decorations spaces (new_sub items) (S n) = Some Ds -> nth_error Ds k = Some D ->
  owner (new_sub items) (s_bit o + k) o /\ get_function_decoration spaces (new_sub items) (s_bit o + k) = Some D.
Proof.
  intros HG HI Hn Ho HD Hk. rewrite (orbit_decorations HG HI Ho) in HD. assert (Lk : k < length (s_combos o)) by (rewrite <- (opt_map_length _ _ HD); apply nth_error_Some; congruence).
  destruct (nth_error (s_combos o) k) as [c|] eqn:Ec; [|apply nth_error_None in Ec; lia]. split; [split; [eapply nth_error_In; eauto|unfold s_len; lia]|].
  rewrite (function_at HG HI Ho Ec). destruct (opt_map_at HD Ec) as (D' & H1 & H2). congruence.
Qed.

(** ** C119: removing the last decorations *)
(** With cutoffs of larger clusters every orbit has one class of decorations fewer than when the last ones are not removed. *)
Theorem C119_removed_partial spaces points multi items items' n g : (forall g, In g (generated points multi true) -> geo_ok spaces g) ->
  potts_items points multi true false = Some items -> potts_items points multi true true = Some items' -> nth_error (generated points multi true) n = Some g ->
  exists Ds D, get_orbit_decorations spaces (new_sub items) (S n) = Some (Ds ++ [D]) /\ get_orbit_decorations spaces (new_sub items') (S n) = Some Ds /\ Ds <> [].
Proof.
  intros HG HI HI' Hn. destruct (sub_at HG HI Hn) as (o & so & H1 & H2 & H3 & H4). assert (Gg : geo_ok spaces g) by (apply HG; eapply nth_error_In; eauto).
  destruct (geo_labelings Gg H2) as (Ds & D1 & D2). pose proof (geo_two Gg H2) as T. unfold s_len in T. pose proof (opt_map_length _ _ D1) as L. assert (Ne : Ds <> []) by (intros ->; cbn in L; lia).
  pose proof (app_removelast_last [] Ne) as X. exists (removelast Ds), (last Ds []). rewrite <- X. split; [|split].
  - rewrite (orbit_decorations HG HI H1). apply core_fields in H3 as (K1 & _ & _ & K2 & _). destruct (geo_orbit Gg) as (so' & E' & K3 & _). rewrite H2 in E'. injection E' as <-. rewrite K1, K2. cbn [kept andb]. rewrite K3. auto.
  - destruct (sub_at HG HI' Hn) as (o' & so' & H1' & H2' & H3' & _). rewrite H2 in H2'. injection H2' as <-. rewrite (orbit_decorations HG HI' H1'). apply core_fields in H3' as (K1 & _ & _ & K2 & _).
    destruct (geo_orbit Gg) as (so' & E' & K3 & _). rewrite H2 in E'. injection E' as <-. rewrite K1, K2. unfold kept. cbn [andb with_combos s_key s_combos]. rewrite K3. apply opt_map_removelast. auto.
  - intros C. rewrite C in X. rewrite X in L. cbn in L. lia.
Qed.
(** With cutoffs of single sites only, no decoration is removed. *)
Theorem C119_points_refuted : exists spaces points multi items items',
  (forall g, In g (generated points multi false) -> geo_ok spaces g) /\ points <> [] /\ potts_items points multi false false = Some items /\ potts_items points multi false true = Some items' /\
  items' = items /\ forall n, get_orbit_decorations spaces (new_sub items') n = get_orbit_decorations spaces (new_sub items) n.
Proof.
  exists (fun _ => [[7; 8; 9]]), [mkGeo 1 1 [3] [[0]]], []. do 2 eexists.
  split; [|split; [discriminate|split; [vm_compute; reflexivity|split; [vm_compute; reflexivity|auto]]]].
  intros g [<-|[]]. constructor; cbn.
  - reflexivity.
  - discriminate.
  - intros d [<-|[]]. lia.
  - intros sp [<-|[]]. repeat constructor; cbn; intuition discriminate.
  - constructor.
    + intros p [<-|[]]. split; [reflexivity|split; [repeat constructor; auto|intros i [<-|[]]; auto]].
    + cbn. auto.
    + intros p q r [<-|[]] [<-|[]] H. vm_compute in H. injection H as <-. cbn. auto.
    + intros p [<-|[]]. exists [0]. cbn. auto.
  - intros p i j [<-|[]] H. destruct i as [|[|i]]; cbn in H; [injection H as <-; auto|discriminate|discriminate].
Qed.

(** ** Cases *)
(** One site with three species and the pair of two such sites that may be exchanged. *)
Definition pt_points := [mkGeo 1 1 [3] [[0]]].
Definition pt_multi := [(2, [mkGeo 2 3 [2; 2] [[0; 1]; [1; 0]]])].
Definition pt_spaces (k : nat) := if k =? 1 then [[7; 8; 9]] else [[7; 8]; [7; 8]].
Lemma pt_ok : forall g, In g (generated pt_points pt_multi true) -> geo_ok pt_spaces g.
Proof.
  intros g [<-|[<-|[]]]; constructor; cbn.
  - reflexivity.
  - discriminate.
  - intros d [<-|[]]. lia.
  - intros sp [<-|[]]. repeat constructor; cbn; intuition discriminate.
  - constructor.
    + intros p [<-|[]]. split; [reflexivity|split; [repeat constructor; auto|intros i [<-|[]]; auto]].
    + cbn. auto.
    + intros p q r [<-|[]] [<-|[]] H. vm_compute in H. injection H as <-. cbn. auto.
    + intros p [<-|[]]. exists [0]. cbn. auto.
  - intros p i j [<-|[]] H. destruct i as [|[|i]]; cbn in H; [injection H as <-; auto|discriminate|discriminate].
  - reflexivity.
  - discriminate.
  - intros d [<-|[<-|[]]]; lia.
  - intros sp [<-|[<-|[]]]; repeat constructor; cbn; intuition discriminate.
  - constructor.
    + intros p [<-|[<-|[]]]; (split; [reflexivity|split; [repeat constructor; cbn; intuition discriminate|intros i [<-|[<-|[]]]; auto]]).
    + cbn. auto.
    + intros p q r [<-|[<-|[]]] [<-|[<-|[]]] H; vm_compute in H; injection H as <-; cbn; auto.
    + intros p [<-|[<-|[]]]; [exists [0; 1]|exists [1; 0]]; cbn; auto.
  - intros p i j [<-|[<-|[]]] H; destruct i as [|[|[|i]]]; cbn in H; try discriminate; injection H as <-; auto.
Qed.
Example C118_case : (forall g, In g (generated pt_points pt_multi true) -> geo_ok pt_spaces g) /\
  exists items, potts_items pt_points pt_multi true true = Some items /\
    get_orbit_decorations pt_spaces (new_sub items) 1 = Some [[[7]]; [[8]]] /\
    get_orbit_decorations pt_spaces (new_sub items) 2 = Some [[[7; 7]]; [[7; 8]; [8; 7]]] /\
    get_function_decoration pt_spaces (new_sub items) 4 = Some [[7; 8]; [8; 7]].
Proof. split; [exact pt_ok|]. eexists. split; [vm_compute; reflexivity|]. vm_compute. auto. Qed.
Example C119_case : exists items items', potts_items pt_points pt_multi true false = Some items /\ potts_items pt_points pt_multi true true = Some items' /\
  get_orbit_decorations pt_spaces (new_sub items) 2 = Some [[[7; 7]]; [[7; 8]; [8; 7]]; [[8; 8]]] /\ get_orbit_decorations pt_spaces (new_sub items') 2 = Some [[[7; 7]]; [[7; 8]; [8; 7]]].
Proof. do 2 eexists. split; [vm_compute; reflexivity|]. split; [vm_compute; reflexivity|]. vm_compute. auto. Qed.

Print Assumptions C118_total.
Print Assumptions C118_orbit.
Print Assumptions C118_function.
Print Assumptions C119_removed_partial.
Print Assumptions C119_points_refuted.
