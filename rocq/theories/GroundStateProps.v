(** C50 and C51: variables and linearised terms of the ground-state problem. *)
From Verif Require Export GroundState.
From Verif Require Import LibProofs SublatticeSpec SublatticeProofs SublatticeProps EncodingProofs EncodingProps ClusterProps.
Set Implicit Arguments.
Unset Strict Implicit.
Open Scope nat_scope.

(** ** Specification *)
(** Sublattices of a structure with site spaces [origs]: every site is in exactly one, codes are increasing and a code
    stands for the species at that place of the site space of each site. *)
Record var_layout (origs : list (list species)) (sls : list sublattice) : Prop := {
  lay_sites : Permutation (concat (map sl_sites sls)) (seq 0 (length origs));
  lay_sorted : forall sl, In sl sls -> StronglySorted lt (sl_encoding sl);
  lay_len : forall sl, In sl sls -> length (sl_encoding sl) = length (sl_species sl) /\ sl_species sl <> [];
  lay_codes : forall sl s orig k c, In sl sls -> In s (sl_sites sl) -> nth_error origs s = Some orig -> nth_error (sl_encoding sl) k = Some c ->
    exists sp, nth_error (sl_species sl) k = Some sp /\ nth_error orig c = Some sp;
  lay_nodup : forall orig, In orig origs -> NoDup orig
}.
(** A site that can change. *)
Definition free_site (sl : sublattice) (s : nat) : Prop := 1 < length (sl_species sl) /\ In s (sl_active sl).
(** The code is allowed on a site: any code of the sublattice if the site can change, the only one, or the initial one. *)
Definition allowed_code (sl : sublattice) (init : option (list nat)) (s c : nat) : Prop :=
  In c (sl_encoding sl) /\ (free_site sl s \/ length (sl_species sl) = 1 \/ exists o, init = Some o /\ nth_error o s = Some c).
(** Restricted sites of a sublattice with several species have an initial code. *)
Definition initial_ok (sls : list sublattice) (init : option (list nat)) : Prop :=
  forall sl s, In sl sls -> In s (sl_sites sl) -> 1 < length (sl_species sl) -> ~ In s (sl_active sl) ->
    exists o c, init = Some o /\ nth_error o s = Some c /\ In c (sl_encoding sl).
Definition allowed (sls : list sublattice) (init : option (list nat)) (N : nat) (occu : list nat) : Prop :=
  length occu = N /\ forall sl s c, In sl sls -> In s (sl_sites sl) -> nth_error occu s = Some c -> allowed_code sl init s c.
(** Zeros and ones that satisfy the normalization constraints. *)
Definition boolean (x : list Qc) : Prop := forall q, In q x -> q = 0%Qc \/ q = 1%Qc.
Definition feasible (marks : list (list mark)) (n : nat) (x : list Qc) : Prop :=
  length x = n /\ boolean x /\ forall vs, In vs (normalization marks) -> sum_vars x vs = 1%Qc.

(** ** Lists *)
Lemma concat_same_pos {A} (ls : list (list A)) i j a b x : NoDup (concat ls) -> nth_error ls i = Some a -> nth_error ls j = Some b -> In x a -> In x b -> i = j.
Proof.
  revert i j. induction ls as [|l ls IH]; intros i j N Hi Hj Ha Hb; [destruct i; discriminate|]. simpl in N.
  assert (D : forall y, In y l -> In y (concat ls) -> False).
  { clear - N. induction l as [|z l IH]; intros y Hy Hc; [contradiction|]. simpl in N. apply NoDup_cons_iff in N as [N0 N]. destruct Hy as [->|Hy]; [apply N0, in_or_app; auto|eauto]. }
  destruct i as [|i], j as [|j]; simpl in *; auto.
  - injection Hi as <-. exfalso. apply (D x Ha). apply in_concat. exists b. split; auto. eapply nth_error_In; eauto.
  - injection Hj as <-. exfalso. apply (D x Hb). apply in_concat. exists a. split; auto. eapply nth_error_In; eauto.
  - f_equal. eapply IH; eauto. clear - N. induction l; simpl in N; auto. apply NoDup_cons_iff in N as [_ N]. auto.
Qed.
Lemma find_all_spec {A} (f : A -> bool) l : find_all f l = filter (fun i => match nth_error l i with Some x => f x | None => false end) (seq 0 (length l)).
Proof.
  unfold find_all.
  assert (K : forall l o (g : nat -> option A), (forall i, g (o + i) = nth_error l i) ->
    map fst (filter (fun p => f (snd p)) (combine (seq o (length l)) l)) = filter (fun i => match g i with Some x => f x | None => false end) (seq o (length l))).
  { clear l. induction l as [|x l IH]; intros o g H; simpl; auto. pose proof (H 0) as H0. rewrite Nat.add_0_r in H0. simpl in H0. rewrite H0.
    assert (H' : forall i, g (S o + i) = nth_error l i) by (intros i; replace (S o + i) with (o + S i) by lia; apply (H (S i))).
    destruct (f x); simpl; rewrite (IH (S o) g H'); auto. }
  apply (K l 0 (nth_error l)). auto.
Qed.
Lemma find_all_In {A} (f : A -> bool) l i : In i (find_all f l) <-> exists x, nth_error l i = Some x /\ f x = true.
Proof.
  rewrite find_all_spec, filter_In, in_seq. split.
  - intros [_ H]. destruct (nth_error l i) as [x|]; [eauto|discriminate].
  - intros (x & Hx & Hf). rewrite Hx. split; auto. assert (i < length l) by (apply nth_error_Some; congruence). lia.
Qed.
Lemma find_all_sorted {A} (f : A -> bool) l : StronglySorted lt (find_all f l).
Proof.
  rewrite find_all_spec. apply sorted_filter. generalize 0. induction (length l) as [|n IH]; intros o; simpl; constructor; auto. apply Forall_forall. intros x Hx. apply in_seq in Hx. lia.
Qed.
Lemma sorted_single l c : StronglySorted lt l -> (forall x, In x l <-> x = c) -> l = [c].
Proof. intros S H. apply sorted_ext; auto; [repeat constructor|]. intros x. rewrite H. simpl. intuition. Qed.
Lemma vars_of_In ms v : In v (vars_of ms) <-> In (Var v) ms.
Proof. induction ms as [|[u| |] ms IH]; simpl; [tauto|..]; rewrite IH; intuition congruence. Qed.
Lemma vars_find_all ms : length (find_all (fun m => match m with Var _ => true | _ => false end) ms) = length (vars_of ms) /\
  forall k v, nth_error (vars_of ms) k = Some v -> exists c, nth_error (find_all (fun m => match m with Var _ => true | _ => false end) ms) k = Some c /\ nth_error ms c = Some (Var v).
Proof.
  unfold find_all.
  assert (K : forall o, length (map fst (filter (fun p => match snd p with Var _ => true | _ => false end) (combine (seq o (length ms)) ms))) = length (vars_of ms) /\
    forall k v, nth_error (vars_of ms) k = Some v -> exists c, nth_error (map fst (filter (fun p => match snd p with Var _ => true | _ => false end) (combine (seq o (length ms)) ms))) k = Some (o + c) /\ nth_error ms c = Some (Var v)).
  { induction ms as [|m ms IH]; intros o; simpl; [split; auto; intros [|k] v H; discriminate|]. destruct (IH (S o)) as [L H].
    assert (G : forall k v, nth_error (vars_of ms) k = Some v ->
      exists c, nth_error (map fst (filter (fun p => match snd p with Var _ => true | _ => false end) (combine (seq (S o) (length ms)) ms))) k = Some (o + c) /\ nth_error (m :: ms) c = Some (Var v)).
    { intros k v Hk. destruct (H k v Hk) as (c & Hc & Hm). exists (S c). split; auto. rewrite Hc. f_equal. lia. }
    destruct m as [u| |]; simpl; auto. split; [rewrite L; auto|]. intros [|k] v Hk; simpl in *; [|auto]. injection Hk as <-. exists 0. rewrite Nat.add_0_r. auto. }
  apply (K 0).
Qed.
Lemma index_of_iff l c k : NoDup l -> (index_of c l = Some k <-> nth_error l k = Some c).
Proof.
  intros N. split; [apply index_of_spec|]. intros H. destruct (index_of_In c l) as [i Hi]; [eapply nth_error_In; eauto|]. rewrite Hi. f_equal. apply index_of_spec in Hi.
  eapply NoDup_nth_error; eauto; [apply nth_error_Some; congruence|congruence].
Qed.

(** ** Sublattice of a site *)
Lemma write_sites_spec i sites a : (forall s, In s sites -> s < length a) ->
  exists a', write_sites i sites a = Some a' /\ length a' = length a /\
    forall s, nth_error a' s = if memb s sites then (if s <? length a then Some (Some i) else None) else nth_error a s.
Proof.
  revert a. induction sites as [|s0 sites IH]; intros a H; simpl; [exists a; auto|]. destruct (Nat.ltb_spec s0 (length a)) as [L|L]; [|specialize (H s0 (or_introl eq_refl)); lia].
  destruct (IH (upd a s0 (Some i))) as (a' & E & L' & G); [intros s Hs; rewrite length_upd; apply H; simpl; auto|]. rewrite length_upd in *. exists a'. split; auto. split; auto.
  intros s. rewrite G. destruct (Nat.eqb_spec s s0) as [->|N]; simpl.
  - rewrite nth_error_upd_eq by auto. destruct (memb s0 sites); auto. destruct (Nat.ltb_spec s0 (length a)); auto. lia.
  - rewrite nth_error_upd_neq by auto. auto.
Qed.
Lemma write_sublattices_spec sls i a : NoDup (concat (map sl_sites sls)) -> (forall sl s, In sl sls -> In s (sl_sites sl) -> s < length a) ->
  exists a', write_sublattices i sls a = Some a' /\ length a' = length a /\
    (forall k sl s, nth_error sls k = Some sl -> In s (sl_sites sl) -> nth_error a' s = Some (Some (i + k))) /\
    (forall s, ~ In s (concat (map sl_sites sls)) -> nth_error a' s = nth_error a s).
Proof.
  revert i a. induction sls as [|sl0 sls IH]; intros i a N H; simpl; [exists a; repeat split; auto; intros [|k]; discriminate|].
  destruct (@write_sites_spec i (sl_sites sl0) a) as (a1 & E1 & L1 & G1); [intros s Hs; eapply H; simpl; eauto|]. rewrite E1. cbn [option_bind].
  simpl in N. destruct (IH (S i) a1) as (a2 & E2 & L2 & G2 & O2).
  { clear - N. induction (sl_sites sl0); simpl in N; auto. apply NoDup_cons_iff in N as [_ N]. auto. }
  { intros sl s Hsl Hs. rewrite L1. eapply H; simpl; eauto. }
  exists a2. split; auto. split; [congruence|]. split.
  - intros [|k] sl s Hk Hs; simpl in Hk.
    + injection Hk as <-. rewrite O2.
      * rewrite G1. destruct (memb_reflect s (sl_sites sl0)) as [I|I]; [|contradiction]. assert (s < length a) by (eapply H; simpl; eauto). destruct (Nat.ltb_spec s (length a)); [f_equal; f_equal; lia|lia].
      * intros C. assert (0 = 1); [|discriminate]. apply in_concat in C as (l & Hl & Hsl). apply In_nth_error in Hl as [j Hj].
        assert (X : 0 = S j); [|discriminate X]. eapply (@concat_same_pos _ (map sl_sites (sl0 :: sls)) 0 (S j)); simpl; eauto.
    + rewrite (G2 k sl s Hk Hs). f_equal. f_equal. lia.
  - intros s Hs. rewrite in_app_iff in Hs. rewrite O2 by tauto. rewrite G1. destruct (memb_reflect s (sl_sites sl0)); auto. tauto.
Qed.
Lemma list_sum_concat {A} (f : A -> list nat) l : list_sum (map (fun x => length (f x)) l) = length (concat (map f l)).
Proof. induction l as [|x l IH]; simpl; auto. rewrite app_length, IH. auto. Qed.

Section Layout.
Variables (origs : list (list species)) (sls : list sublattice) (init : option (list nat)).
Hypothesis LAY : var_layout origs sls.
Hypothesis INIT : initial_ok sls init.
Hypothesis NE : origs <> [].
Let N := length origs.

Lemma sites_nodup : NoDup (concat (map sl_sites sls)).
Proof using LAY. eapply Permutation_NoDup; [apply Permutation_sym, (lay_sites LAY)|apply seq_NoDup]. Qed.
Lemma site_lt sl s : In sl sls -> In s (sl_sites sl) -> s < N.
Proof using LAY.
  intros H1 H2. assert (In s (seq 0 N)); [|apply in_seq in H; lia]. eapply Permutation_in; [apply (lay_sites LAY)|]. apply in_concat. exists (sl_sites sl). split; auto. apply in_map; auto.
Qed.
Lemma ids_ok : exists ids, sublattice_ids sls = Some ids /\ length ids = N /\
  forall s, s < N -> exists k sl, nth_error ids s = Some k /\ nth_error sls k = Some sl /\ In s (sl_sites sl).
Proof using LAY.
  unfold sublattice_ids. rewrite list_sum_concat. assert (L : length (concat (map sl_sites sls)) = N) by (rewrite (Permutation_length (lay_sites LAY)), seq_length; auto). rewrite L.
  destruct (@write_sublattices_spec sls 0 (repeat None N)) as (a & E & La & G & _); [apply sites_nodup|intros sl s H1 H2; rewrite repeat_length; eapply site_lt; eauto|].
  rewrite E. cbn [option_bind]. rewrite repeat_length in La.
  assert (G' : forall s, s < N -> exists k sl, nth_error a s = Some (Some k) /\ nth_error sls k = Some sl /\ In s (sl_sites sl)).
  { intros s Hs. assert (I : In s (concat (map sl_sites sls))) by (eapply Permutation_in; [apply Permutation_sym, (lay_sites LAY)|apply in_seq; unfold N in Hs; lia]).
    apply in_concat in I as (l & Hl & Hs'). apply in_map_iff in Hl as (sl & <- & Hsl). apply In_nth_error in Hsl as [k Hk]. exists k, sl. split; auto. rewrite (G k sl s Hk Hs'). auto. }
  destruct (opt_map (fun x => x) a) as [ids|] eqn:EI.
  - exists ids. split; auto. split; [rewrite (opt_map_length _ _ EI); auto|]. intros s Hs. destruct (G' s Hs) as (k & sl & H1 & H2 & H3). exists k, sl. split; auto.
    destruct (opt_map_nth _ _ _ EI H1) as (y & Hy & Ey). congruence.
  - exfalso. destruct (@opt_map_all _ _ (fun x : option nat => x) a) as [ys Ey]; [|congruence]. intros x Hx. apply In_nth_error in Hx as [s Hs].
    assert (s < N) by (rewrite <- La; apply nth_error_Some; congruence). destruct (G' s H) as (k & sl & H1 & _). congruence.
Qed.

(** ** Marks *)
Definition is_var (m : mark) : bool := match m with Var _ => true | _ => false end.
Definition is_always (m : mark) : bool := match m with Always => true | _ => false end.

Lemma free_dec sl s : free_site sl s \/ ~ free_site sl s.
Proof. unfold free_site. destruct (in_dec Nat.eq_dec s (sl_active sl)); destruct (le_lt_dec (length (sl_species sl)) 1); intuition lia. Qed.

(** The marks of one site. *)
Record site_ok (sl : sublattice) (s : nat) (n n' : nat) (ms : list mark) : Prop := {
  so_free : free_site sl s -> n' = n + length (sl_encoding sl) /\ vars_of ms = seq n (length (sl_encoding sl)) /\ find_all is_var ms = sl_encoding sl /\ ~ In Always ms;
  so_fixed : ~ free_site sl s -> n' = n /\ vars_of ms = [] /\ exists c, find_all is_always ms = [c] /\ In c (sl_encoding sl) /\
     (length (sl_species sl) = 1 \/ exists o, init = Some o /\ nth_error o s = Some c)
}.
Lemma index_species sl s orig c sp : In sl sls -> In s (sl_sites sl) -> nth_error origs s = Some orig -> nth_error orig c = Some sp ->
  species_index sp (sl_species sl) = index_of c (sl_encoding sl).
Proof using LAY.
  intros H1 H2 H3 H4. assert (ND : NoDup orig) by (apply (lay_nodup LAY); eapply nth_error_In; eauto).
  assert (NE' : NoDup (sl_encoding sl)) by (apply sorted_NoDup, (lay_sorted LAY H1)).
  destruct (species_index sp (sl_species sl)) as [k|] eqn:Ek.
  - symmetry. apply index_of_iff; auto. apply species_index_spec in Ek.
    destruct (nth_error (sl_encoding sl) k) as [c'|] eqn:Ec.
    + destruct (lay_codes LAY H1 H2 H3 Ec) as (sp' & Hs & Ho). assert (sp' = sp) by congruence. subst sp'. rewrite NoDup_nth_error in ND. rewrite (ND c' c); auto; [apply nth_error_Some; congruence|congruence].
    + apply nth_error_None in Ec. rewrite (proj1 (lay_len LAY H1)) in Ec. assert (k < length (sl_species sl)) by (apply nth_error_Some; congruence). lia.
  - destruct (index_of c (sl_encoding sl)) as [k|] eqn:Ec; auto. apply index_of_spec in Ec. destruct (lay_codes LAY H1 H2 H3 Ec) as (sp' & Hs & Ho). assert (sp' = sp) by congruence. subst sp'.
    apply nth_error_In in Hs. destruct (species_index_In Hs) as (i & Ei & _). congruence.
Qed.
Lemma site_marks_free sl s orig n : free_site sl s ->
  (forall c sp, nth_error orig c = Some sp -> species_index sp (sl_species sl) = None \/ exists k, species_index sp (sl_species sl) = Some k) -> exists ms,
  site_marks sl s init orig n = Some (ms, n + length (vars_of ms)) /\ vars_of ms = seq n (length (vars_of ms)) /\ length ms = length orig /\ ~ In Always ms /\
  forall c sp, nth_error orig c = Some sp -> exists m, nth_error ms c = Some m /\ is_var m = match species_index sp (sl_species sl) with Some _ => true | None => false end.
Proof.
  intros [F1 F2] _. revert n. induction orig as [|sp orig IH]; intros n; cbn [site_marks].
  - exists []. simpl. rewrite Nat.add_0_r. repeat split; auto. intros [|c]; discriminate.
  - destruct (species_index sp (sl_species sl)) as [k|] eqn:Es.
    + destruct (Nat.ltb_spec 1 (length (sl_species sl))) as [L|L]; [|lia]. destruct (memb_reflect s (sl_active sl)) as [A|A]; [|contradiction].
      destruct (IH (S n)) as (ms & E & V & Lm & NA & H). rewrite E. cbn [option_bind fst snd]. exists (Var n :: ms). cbn [vars_of length seq]. rewrite <- V. split; [f_equal; f_equal; lia|].
      split; auto. split; auto. split; [intros [X|X]; [discriminate|contradiction]|]. intros [|c] sp' Hc; simpl in *; auto. injection Hc as <-. rewrite Es. eauto.
    + destruct (IH n) as (ms & E & V & Lm & NA & H). rewrite E. cbn [option_bind fst snd]. exists (Never :: ms). cbn [vars_of length seq]. split; auto.
      split; auto. split; auto. split; [intros [X|X]; [discriminate|contradiction]|]. intros [|c] sp' Hc; simpl in *; auto. injection Hc as <-. rewrite Es. eauto.
Qed.
Lemma site_marks_fixed sl s orig n (fixed : nat -> bool) : ~ free_site sl s -> length (sl_encoding sl) = length (sl_species sl) ->
  (1 < length (sl_species sl) -> exists o c, init = Some o /\ nth_error o s = Some c /\ forall k e, nth_error (sl_encoding sl) k = Some e -> fixed k = (c =? e)) ->
  (length (sl_species sl) = 1 -> fixed 0 = true) -> exists ms,
  site_marks sl s init orig n = Some (ms, n) /\ vars_of ms = [] /\ length ms = length orig /\
  forall c sp, nth_error orig c = Some sp -> exists m, nth_error ms c = Some m /\ is_always m = match species_index sp (sl_species sl) with Some k => fixed k | None => false end.
Proof.
  intros NF HL HI H1. induction orig as [|sp orig IH]; cbn [site_marks].
  - exists []. repeat split; auto. intros [|c]; discriminate.
  - destruct IH as (ms & E & V & Lm & H). destruct (species_index sp (sl_species sl)) as [k|] eqn:Es.
    + assert (Hk : k < length (sl_species sl)) by (apply species_index_spec in Es; apply nth_error_Some; congruence).
      destruct (Nat.ltb_spec 1 (length (sl_species sl))) as [L|L].
      * destruct (memb_reflect s (sl_active sl)) as [A|A]; [exfalso; apply NF; split; auto|]. destruct (HI L) as (o & c & -> & Hc & Hf). cbn [option_bind]. rewrite Hc. cbn [option_bind].
        destruct (nth_error (sl_encoding sl) k) as [e|] eqn:Ee; [|apply nth_error_None in Ee; lia]. cbn [option_bind]. rewrite E. cbn [option_bind fst snd].
        exists ((if c =? e then Always else Never) :: ms). split; auto. split; [destruct (c =? e); auto|]. split; [simpl; auto|]. intros [|c'] sp' Hc'; simpl in *; auto. injection Hc' as <-. rewrite Es.
        eexists. split; [reflexivity|]. rewrite (Hf k e Ee). destruct (c =? e); auto.
      * rewrite E. cbn [option_bind fst snd]. exists (Always :: ms). split; auto. split; auto. split; [simpl; auto|]. intros [|c'] sp' Hc'; simpl in *; auto. injection Hc' as <-. rewrite Es.
        eexists. split; [reflexivity|]. assert (k = 0) by lia. subst k. rewrite H1; auto. lia.
    + rewrite E. cbn [option_bind fst snd]. exists (Never :: ms). split; auto. split; auto. split; [simpl; auto|]. intros [|c'] sp' Hc'; simpl in *; auto. injection Hc' as <-. rewrite Es. eauto.
Qed.
Lemma index_not_none c l : In c l <-> match index_of c l with Some _ => true | None => false end = true.
Proof.
  split; intros H; [destruct (index_of_In c l H) as [i ->]; auto|]. destruct (index_of c l) as [i|] eqn:E; [|discriminate]. apply index_of_spec in E. eapply nth_error_In; eauto.
Qed.
Lemma site_marks_ok sl s orig n : In sl sls -> In s (sl_sites sl) -> nth_error origs s = Some orig ->
  exists ms n', site_marks sl s init orig n = Some (ms, n') /\ length ms = length orig /\ site_ok sl s n n' ms.
Proof using LAY INIT.
  intros H1 H2 H3. destruct (lay_len LAY H1) as [HL HN].
  assert (LT : forall c, In c (sl_encoding sl) -> c < length orig).
  { intros c Hc. apply In_nth_error in Hc as [k Hk]. destruct (lay_codes LAY H1 H2 H3 Hk) as (sp & _ & Hs). apply nth_error_Some. congruence. }
  destruct (free_dec sl s) as [F|F].
  - destruct (@site_marks_free sl s orig n F) as (ms & E & V & Lm & NA & H).
    { intros c sp _. destruct (species_index sp (sl_species sl)); eauto. }
    assert (P : find_all is_var ms = sl_encoding sl).
    { apply sorted_ext; [apply find_all_sorted|apply (lay_sorted LAY H1)|]. intros c. rewrite find_all_In, index_not_none. split.
      - intros (m & Hm & Hv). assert (c < length orig) by (rewrite <- Lm; apply nth_error_Some; congruence). destruct (nth_error orig c) as [sp|] eqn:Ec; [|apply nth_error_None in Ec; lia].
        destruct (H c sp Ec) as (m' & Hm' & Hv'). rewrite <- (index_species H1 H2 H3 Ec). congruence.
      - intros Hi. assert (c < length orig) by (apply LT, index_not_none; auto). destruct (nth_error orig c) as [sp|] eqn:Ec; [|apply nth_error_None in Ec; lia].
        destruct (H c sp Ec) as (m & Hm & Hv). exists m. split; auto. rewrite Hv, (index_species H1 H2 H3 Ec). auto. }
    assert (LV : length (vars_of ms) = length (sl_encoding sl)) by (rewrite <- P; symmetry; apply vars_find_all).
    exists ms, (n + length (vars_of ms)). split; auto. split; auto. split; [intros _|contradiction]. rewrite <- LV. auto.
  - assert (exists c0, In c0 (sl_encoding sl) /\ (length (sl_species sl) = 1 \/ exists o, init = Some o /\ nth_error o s = Some c0) /\
       (1 < length (sl_species sl) -> exists o, init = Some o /\ nth_error o s = Some c0)) as (c0 & I0 & A0 & B0).
    { destruct (le_lt_dec (length (sl_species sl)) 1) as [L|L].
      - destruct (sl_encoding sl) as [|c0 [|]] eqn:Ee; simpl in HL; [destruct (sl_species sl); [congruence|simpl in HL; lia]| |lia]. exists c0. split; [left; auto|]. split; [left; auto|]. lia.
      - destruct (INIT H1 H2 L) as (o & c & E1 & E2 & E3); [intros A; apply F; split; auto|]. exists c. split; auto. split; [|intros _]; eauto. }
    destruct (@site_marks_fixed sl s orig n (fun k => match nth_error (sl_encoding sl) k with Some e => c0 =? e | None => false end) F HL) as (ms & E & V & Lm & H).
    { intros L. destruct (B0 L) as (o & E1 & E2). exists o, c0. split; auto. split; auto. intros k e ->. auto. }
    { intros L1. destruct (sl_encoding sl) as [|e [|]]; simpl in HL; try lia. simpl. destruct I0 as [->|[]]. apply Nat.eqb_refl. }
    exists ms, n. split; auto. split; auto. split; [contradiction|]. intros _. split; auto. split; auto. exists c0. split; [|auto].
    apply sorted_single; [apply find_all_sorted|]. intros c. rewrite find_all_In. split.
    + intros (m & Hm & Ha). assert (c < length orig) by (rewrite <- Lm; apply nth_error_Some; congruence). destruct (nth_error orig c) as [sp|] eqn:Ec; [|apply nth_error_None in Ec; lia].
      destruct (H c sp Ec) as (m' & Hm' & Hv'). assert (m' = m) by congruence. subst m'. rewrite (index_species H1 H2 H3 Ec) in Hv'. rewrite Ha in Hv'.
      destruct (index_of c (sl_encoding sl)) as [k|] eqn:Ek; [|discriminate]. apply index_of_spec in Ek. rewrite Ek in Hv'. symmetry in Hv'. apply Nat.eqb_eq in Hv'. auto.
    + intros ->. destruct (nth_error orig c0) as [sp|] eqn:Ec; [|apply nth_error_None in Ec; specialize (LT c0 I0); lia].
      destruct (H c0 sp Ec) as (m & Hm & Hv). exists m. split; auto. rewrite Hv, (index_species H1 H2 H3 Ec). destruct (index_of_In c0 (sl_encoding sl) I0) as [k Hk]. rewrite Hk.
      apply index_of_spec in Hk. rewrite Hk. apply Nat.eqb_refl.
Qed.

Lemma all_marks_ok ids origs' site n : sublattice_ids sls = Some ids -> (forall j, nth_error origs' j = nth_error origs (site + j)) ->
  exists marks n', all_marks sls init ids site origs' n = Some (marks, n') /\ length marks = length origs' /\ n <= n' /\ concat (map vars_of marks) = seq n (n' - n) /\
  forall j ms, nth_error marks j = Some ms -> exists k sl a b orig, nth_error ids (site + j) = Some k /\ nth_error sls k = Some sl /\ In sl sls /\ In (site + j) (sl_sites sl) /\
     nth_error origs (site + j) = Some orig /\ length ms = length orig /\ site_ok sl (site + j) a b ms.
Proof using LAY INIT.
  intros EI. destruct ids_ok as (ids' & EI' & LI & HI). assert (ids' = ids) by congruence. subst ids'. revert site n.
  induction origs' as [|orig origs' IH]; intros site n H; cbn [all_marks].
  - exists [], n. repeat split; auto; [simpl; rewrite Nat.sub_diag; auto|]. intros [|j]; discriminate.
  - pose proof (H 0) as H0. rewrite Nat.add_0_r in H0. simpl in H0. symmetry in H0. assert (Hs : site < N) by (apply nth_error_Some; congruence).
    destruct (HI site Hs) as (k & sl & Hk & Hsl & Hin). rewrite Hk. cbn [option_bind]. rewrite Hsl. cbn [option_bind].
    assert (Hsl' : In sl sls) by (eapply nth_error_In; eauto). destruct (@site_marks_ok sl site orig n Hsl' Hin H0) as (ms & n1 & E1 & L1 & O1). rewrite E1. cbn [option_bind fst snd].
    destruct (IH (S site) n1) as (marks & n' & E2 & L2 & LE & C2 & G); [intros j; rewrite (H (S j) : nth_error origs' j = _); f_equal; lia|]. rewrite E2. cbn [option_bind fst snd].
    assert (V : n <= n1 /\ vars_of ms = seq n (n1 - n)).
    { destruct (free_dec sl site) as [F|F]; [destruct (so_free O1 F) as (-> & -> & _); split; [lia|f_equal; lia]|destruct (so_fixed O1 F) as (-> & -> & _); rewrite Nat.sub_diag; auto]. }
    destruct V as [V1 V2]. exists (ms :: marks), n'. split; auto. split; [simpl; auto|]. split; [lia|]. split.
    + simpl. rewrite V2, C2. replace (n' - n) with ((n1 - n) + (n' - n1)) by lia. rewrite seq_app. do 2 f_equal. lia.
    + intros [|j] ms' Hj; simpl in Hj.
      * injection Hj as <-. rewrite Nat.add_0_r. exists k, sl, n, n1, orig. auto 10.
      * destruct (G j ms' Hj) as (k' & sl' & a & b & orig' & Q). replace (S site + j) with (site + S j) in Q by lia. exists k', sl', a, b, orig'. exact Q.
Qed.

(** What the variables are. *)
Record marks_ok (ids : list nat) (marks : list (list mark)) (n : nat) : Prop := {
  mo_ids : sublattice_ids sls = Some ids;
  mo_len : length marks = N;
  mo_vars : concat (map vars_of marks) = seq 0 n;
  mo_site : forall s, s < N -> exists ms k sl a b orig, nth_error marks s = Some ms /\ nth_error ids s = Some k /\ nth_error sls k = Some sl /\ In sl sls /\ In s (sl_sites sl) /\
     nth_error origs s = Some orig /\ length ms = length orig /\ site_ok sl s a b ms
}.
Lemma get_variables_ok : exists ids marks n, get_variables sls init origs = Some (marks, n) /\ marks_ok ids marks n.
Proof using LAY INIT.
  destruct ids_ok as (ids & EI & LI & HI). destruct (@all_marks_ok ids origs 0 0 EI) as (marks & n & E & L & _ & C & G); [auto|].
  exists ids, marks, n. split; [unfold get_variables; rewrite EI; exact E|]. split; auto.
  - rewrite C, Nat.sub_0_r. auto.
  - intros s Hs. destruct (nth_error marks s) as [ms|] eqn:Em; [|apply nth_error_None in Em; unfold N in Hs; lia]. destruct (G s ms Em) as (k & sl & a & b & orig & Q). exists ms, k, sl, a, b, orig. split; auto.
Qed.
Lemma sl_unique s sl sl' : In sl sls -> In sl' sls -> In s (sl_sites sl) -> In s (sl_sites sl') -> sl = sl'.
Proof using LAY.
  intros H1 H2 H3 H4. apply In_nth_error in H1 as [i Hi], H2 as [j Hj]. assert (i = j); [|subst; congruence].
  apply (@concat_same_pos _ (map sl_sites sls) i j (sl_sites sl) (sl_sites sl') s); auto using sites_nodup; rewrite nth_error_map; [rewrite Hi|rewrite Hj]; auto.
Qed.

Section Marks.
Variables (ids : list nat) (marks : list (list mark)) (n : nat).
Hypothesis MO : marks_ok ids marks n.

Lemma vars_nodup : NoDup (concat (map vars_of marks)).
Proof using MO. rewrite (mo_vars MO). apply seq_NoDup. Qed.
Lemma var_lt ms v : In ms marks -> In v (vars_of ms) -> v < n.
Proof using MO.
  intros H1 H2. assert (I : In v (seq 0 n)); [|apply in_seq in I; lia]. rewrite <- (mo_vars MO). apply in_concat. exists (vars_of ms). split; auto. apply in_map; auto.
Qed.
Lemma var_site v : v < n -> exists s ms k, nth_error marks s = Some ms /\ nth_error (vars_of ms) k = Some v /\ s < N.
Proof using MO.
  intros H. assert (I : In v (concat (map vars_of marks))) by (rewrite (mo_vars MO); apply in_seq; lia). apply in_concat in I as (l & Hl & Hv). apply in_map_iff in Hl as (ms & <- & Hm).
  apply In_nth_error in Hm as [s Hs]. apply In_nth_error in Hv as [k Hk]. exists s, ms, k. split; auto. split; auto. rewrite <- (mo_len MO). apply nth_error_Some. congruence.
Qed.
Lemma var_same s s' ms ms' v : nth_error marks s = Some ms -> nth_error marks s' = Some ms' -> In v (vars_of ms) -> In v (vars_of ms') -> s = s'.
Proof using MO.
  intros H1 H2 H3 H4. apply (@concat_same_pos _ (map vars_of marks) s s' (vars_of ms) (vars_of ms') v); auto using vars_nodup; rewrite nth_error_map; [rewrite H1|rewrite H2]; auto.
Qed.

(** *** One variable of a site is one *)
Lemma one_hot ys : boolean ys -> qsum ys = 1%Qc -> exists k, find_all (Z.eqb 1) (map qround ys) = [k] /\ nth_error ys k = Some 1%Qc /\ forall j y, nth_error ys j = Some y -> y = if j =? k then 1%Qc else 0%Qc.
Proof.
  intros B HS.
  assert (Z0 : forall l, boolean l -> qsum l = 0%Qc -> forall j y, nth_error l j = Some y -> y = 0%Qc).
  { assert (P : forall l, boolean l -> (0 <= qsum l)%Qc).
    { induction l as [|y l IH]; intros Bl; cbn [qsum]; [qclra|]. assert (0 <= qsum l)%Qc by (apply IH; intros q Hq; apply Bl; right; auto).
      destruct (Bl y (or_introl eq_refl)) as [->| ->]; qclra. }
    induction l as [|y l IH]; intros Bl Hl [|j] z Hz; simpl in Hz; try discriminate; cbn [qsum] in Hl;
      assert (Bl' : boolean l) by (intros q Hq; apply Bl; right; auto); pose proof (P l Bl') as Pl.
    - injection Hz as <-. destruct (Bl y (or_introl eq_refl)) as [->| ->]; auto. exfalso. qclra.
    - eapply IH; eauto. destruct (Bl y (or_introl eq_refl)) as [->| ->]; qclra. }
  assert (exists k, nth_error ys k = Some 1%Qc /\ forall j y, nth_error ys j = Some y -> y = if j =? k then 1%Qc else 0%Qc) as (k & H1 & H2).
  { induction ys as [|y ys IH]; [cbn [qsum] in HS; discriminate|]. cbn [qsum] in HS.
    assert (B' : boolean ys) by (intros q Hq; apply B; right; auto). destruct (B y (or_introl eq_refl)) as [->| ->].
    - destruct (IH B') as (k & K1 & K2); [rewrite Qcplus_0_l in HS; auto|]. exists (S k). split; auto. intros [|j] y Hj; simpl in *; [congruence|auto].
    - exists 0. split; auto. intros [|j] y Hj; simpl in *; [congruence|]. eapply Z0; eauto. apply (f_equal (fun q => q - 1)%Qc) in HS. ring_simplify in HS. auto. }
  exists k. split; [|split; auto]. apply sorted_single; [apply find_all_sorted|]. intros j. rewrite find_all_In. split.
  - intros (z & Hz & Hq). rewrite nth_error_map in Hz. destruct (nth_error ys j) as [y|] eqn:Ej; [|discriminate]. injection Hz as <-. rewrite (H2 j y Ej) in Hq. destruct (Nat.eqb_spec j k); auto. vm_compute in Hq. discriminate.
  - intros ->. exists 1%Z. rewrite nth_error_map, H1. split; auto.
Qed.
Lemma values_of x vs : (forall v, In v vs -> v < length x) -> opt_map (nth_error (map qround x)) vs = Some (map qround (map (fun v => nth v x 0%Qc) vs)).
Proof.
  intros H. rewrite map_map. apply opt_map_map. intros v Hv. rewrite nth_error_map, (nth_error_nth' x 0%Qc) by auto. auto.
Qed.
Lemma nth_error_site_vars (x : list Qc) vs k v : nth_error vs k = Some v -> nth_error (map (fun v => nth v x 0%Qc) vs) k = Some (nth v x 0%Qc).
Proof. intros H. rewrite nth_error_map, H. auto. Qed.
Lemma enc_nodup sl : In sl sls -> NoDup (sl_encoding sl).
Proof using LAY. intros H. apply sorted_NoDup, (lay_sorted LAY H). Qed.
Lemma free_enc_pos sl s : In sl sls -> free_site sl s -> 1 < length (sl_encoding sl).
Proof using LAY. intros H [F _]. rewrite (proj1 (lay_len LAY H)). auto. Qed.

(** *** Decoding *)
Definition site_of (x : list Qc) (s c : nat) : Prop := exists ms k sl a b, nth_error marks s = Some ms /\ nth_error ids s = Some k /\ nth_error sls k = Some sl /\ In sl sls /\ In s (sl_sites sl) /\
   site_ok sl s a b ms /\ site_code sl (map qround x) ms = Some c /\ allowed_code sl init s c /\
   (free_site sl s -> exists i v, nth_error (sl_encoding sl) i = Some c /\ nth_error (vars_of ms) i = Some v /\ forall j w, nth_error (vars_of ms) j = Some w -> nth w x 0%Qc = if j =? i then 1%Qc else 0%Qc).
Lemma decode_site x s : feasible marks n x -> s < N -> exists c, site_of x s c.
Proof using LAY INIT MO.
  intros (Lx & Bx & Cx) Hs. destruct (mo_site MO Hs) as (ms & k & sl & a & b & orig & Hm & Hk & Hsl & Hin & Hsite & Ho & Lm & OK).
  destruct (free_dec sl s) as [F|F].
  - destruct (so_free OK F) as (_ & V & P & NA). pose proof (free_enc_pos Hin F) as LE.
    assert (LV : forall v, In v (vars_of ms) -> v < length x) by (intros v Hv; rewrite Lx; eapply var_lt; eauto; eapply nth_error_In; eauto).
    destruct (@one_hot (map (fun v => nth v x 0%Qc) (vars_of ms))) as (i & P1 & P2 & P3).
    { intros q Hq. apply in_map_iff in Hq as (v & <- & Hv). apply Bx, nth_In, LV, Hv. }
    { apply Cx. unfold normalization. apply filter_In. split; [apply in_map; eapply nth_error_In; eauto|]. rewrite V, seq_length. apply Nat.ltb_lt. lia. }
    assert (Hi : i < length (sl_encoding sl)) by (assert (i < length (map (fun v => nth v x 0%Qc) (vars_of ms))) by (apply nth_error_Some; congruence); rewrite map_length, V, seq_length in H; auto).
    destruct (nth_error (sl_encoding sl) i) as [c|] eqn:Ec; [|apply nth_error_None in Ec; lia].
    exists c, ms, k, sl, a, b. do 6 (split; auto). split; [|split].
    + pose proof (values_of LV) as VO. unfold site_code. destruct (vars_of ms) as [|v0 vs] eqn:EV; [rewrite <- (seq_length (length (sl_encoding sl)) a), <- V in LE; simpl in LE; lia|].
      rewrite VO. cbn [option_bind]. rewrite P1. auto.
    + split; [eapply nth_error_In; eauto|auto].
    + intros _. destruct (nth_error (vars_of ms) i) as [v|] eqn:Ev; [|apply nth_error_None in Ev; rewrite V, seq_length in Ev; lia]. exists i, v. split; auto. split; auto.
      intros j w Hj. apply (P3 j). apply nth_error_site_vars; auto.
  - destruct (so_fixed OK F) as (_ & V & c & P & Hc & Hor). exists c, ms, k, sl, a, b. do 6 (split; auto). split; [|split].
    + unfold site_code. rewrite V. change (find_all (fun m => match m with Always => true | _ => false end) ms) with (find_all is_always ms). rewrite P. auto.
    + split; auto.
    + contradiction.
Qed.
Lemma combine_seq_nth {A} (l : list A) o s y : nth_error (combine (seq o (length l)) l) s = Some y <-> fst y = o + s /\ nth_error l s = Some (snd y).
Proof.
  revert o s. induction l as [|x l IH]; intros o [|s]; simpl; try (split; [discriminate|intros [_ H]; discriminate]).
  - destruct y as [i z]. simpl. split; [intros [= <- <-]; split; auto|intros [-> [= ->]]; rewrite Nat.add_0_r; auto].
  - rewrite IH. replace (S o + s) with (o + S s) by lia. tauto.
Qed.
Lemma decode_ok x : feasible marks n x -> exists occu, decode sls x marks = Some occu /\ length occu = N /\ forall s c, nth_error occu s = Some c -> site_of x s c.
Proof using LAY INIT MO.
  intros HF. unfold decode. rewrite (mo_ids MO). cbn [option_bind].
  destruct (@opt_map_all _ _ (fun p => let? i := nth_error ids (fst p) in let? sl := nth_error sls i in site_code sl (map qround x) (snd p)) (combine (seq 0 (length marks)) marks)) as [occu E].
  { intros [s ms] Hp. apply In_nth_error in Hp as [s' Hs]. apply combine_seq_nth in Hs as [Hs1 Hs2]. simpl in *. subst s'.
    destruct (@decode_site x s HF) as (c & ms' & k & sl & a & b & Hm & Hk & Hsl & _ & _ & _ & Hc & _); [rewrite <- (mo_len MO); apply nth_error_Some; congruence|].
    rewrite Hk. cbn [option_bind]. rewrite Hsl. cbn [option_bind]. congruence. }
  exists occu. split; auto. assert (LO : length occu = N) by (rewrite (opt_map_length _ _ E), combine_length, seq_length, Nat.min_id; apply (mo_len MO)). split; auto.
  intros s c Hs. assert (HsN : s < N) by (rewrite <- LO; apply nth_error_Some; congruence). destruct (@decode_site x s HF HsN) as (c' & D). assert (c' = c); [|subst; auto].
  destruct D as (ms & k & sl & a & b & Hm & Hk & Hsl & _ & _ & _ & Hc & _).
  assert (Hn : nth_error (combine (seq 0 (length marks)) marks) s = Some (s, ms)) by (apply combine_seq_nth; auto).
  destruct (opt_map_nth _ _ _ E Hn) as (y & Hy & Hys). simpl in Hy. rewrite Hk in Hy. cbn [option_bind] in Hy. rewrite Hsl in Hy. cbn [option_bind] in Hy. congruence.
Qed.
Lemma decode_allowed x occu : feasible marks n x -> decode sls x marks = Some occu -> allowed sls init N occu.
Proof using LAY INIT MO.
  intros HF E. destruct (decode_ok HF) as (occu' & E' & L & H). assert (occu' = occu) by congruence. subst occu'. split; auto. intros sl s c H1 H2 H3.
  destruct (H s c H3) as (ms & k & sl' & a & b & _ & _ & _ & H4 & H5 & _ & _ & H6 & _). rewrite (sl_unique H1 H4 H2 H5). auto.
Qed.

(** *** Encoding *)
Lemma fold_max_spec l x : (forall z, In z l -> (z <= fold_left Z.max l x)%Z) /\ (x <= fold_left Z.max l x)%Z /\ (fold_left Z.max l x = x \/ In (fold_left Z.max l x) l).
Proof.
  revert x. induction l as [|y l IH]; intros x; simpl; [repeat split; auto; [intros z []|lia]|]. destruct (IH (Z.max x y)) as (H1 & H2 & H3). repeat split.
  - intros z [<-|Hz]; auto. lia.
  - lia.
  - destruct H3 as [H3|H3]; auto. rewrite H3. destruct (Z.max_spec x y) as [[_ ->]|[_ ->]]; auto.
Qed.
Lemma zmax_spec l m : zmax l = Some m <-> In m l /\ forall z, In z l -> (z <= m)%Z.
Proof.
  destruct l as [|x l]; simpl; [split; [discriminate|intros [[] _]]|]. destruct (fold_max_spec l x) as (H1 & H2 & H3). set (f := fold_left Z.max l x) in *. split.
  - intros [= <-]. split; [destruct H3; auto|]. intros z [<-|Hz]; auto.
  - intros [Hm Hz]. f_equal. apply Z.le_antisymm; [destruct H3 as [->|H3]; apply Hz; simpl; auto|destruct Hm as [<-|Hm]; auto].
Qed.
Lemma num_variables_ok : num_variables marks = Some n.
Proof using LAY INIT MO NE.
  unfold num_variables.
  assert (HM : forall ms, In ms marks -> ms <> [] /\ (vars_of ms = [] -> In Always ms)).
  { intros ms Hms. apply In_nth_error in Hms as [s Hs]. assert (Hs' : s < N) by (rewrite <- (mo_len MO); apply nth_error_Some; congruence).
    destruct (mo_site MO Hs') as (ms' & k & sl & a & b & orig & Hm & _ & _ & Hin & _ & _ & _ & OK). assert (ms' = ms) by congruence. subst ms'.
    destruct (free_dec sl s) as [F|F].
    - destruct (so_free OK F) as (_ & V & _). pose proof (free_enc_pos Hin F). split; [intros ->; simpl in V; destruct (sl_encoding sl); simpl in *; [lia|discriminate]|].
      intros E. rewrite E in V. destruct (sl_encoding sl); simpl in *; [lia|discriminate].
    - destruct (so_fixed OK F) as (_ & _ & c & P & _). assert (I : In c (find_all is_always ms)) by (rewrite P; left; auto). apply find_all_In in I as (m & Hmm & Ha). destruct m; try discriminate.
      apply nth_error_In in Hmm. split; [intros ->; contradiction|auto]. }
  assert (HZ : forall ms, In ms marks -> exists z, zmax (map mark_z ms) = Some z).
  { intros [|m ms] H; [destruct (proj1 (HM [] H)); auto|]. simpl. eauto. }
  destruct (@opt_map_all _ _ (fun m => zmax (map mark_z m)) marks) as [zs EZ]; [intros ms Hms; destruct (HZ ms Hms) as [z ->]; discriminate|]. rewrite EZ. cbn [option_bind].
  assert (HI : forall z, In z zs <-> exists ms, In ms marks /\ zmax (map mark_z ms) = Some z).
  { intros z. split.
    - intros Hz. apply In_nth_error in Hz as [i Hi]. destruct (nth_error marks i) as [ms|] eqn:Em; [|apply nth_error_None in Em; rewrite <- (opt_map_length _ _ EZ) in Em; apply nth_error_None in Em; congruence].
      destruct (opt_map_nth _ _ _ EZ Em) as (y & Hy & Hyi). exists ms. split; [eapply nth_error_In; eauto|congruence].
    - intros (ms & Hms & Hz). apply In_nth_error in Hms as [i Hi]. destruct (opt_map_nth _ _ _ EZ Hi) as (y & Hy & Hyi). assert (y = z) by congruence. subst. eapply nth_error_In; eauto. }
  assert (EM : zmax zs = Some (Z.of_nat n - 1)%Z).
  { apply zmax_spec. assert (UB : forall ms z, In ms marks -> In z (map mark_z ms) -> (z <= Z.of_nat n - 1)%Z).
    { intros ms z Hms Hz. apply in_map_iff in Hz as (m & <- & Hm). destruct m as [v| |]; simpl; try lia. assert (v < n) by (eapply var_lt; eauto; apply vars_of_In; auto). lia. }
    split.
    - apply HI. destruct (Nat.eq_dec n 0) as [Hn|Hn].
      + assert (NM : 0 < length marks) by (rewrite (mo_len MO); unfold N; clear - NE; destruct origs; [congruence|simpl; lia]).
        destruct (nth_error marks 0) as [ms|] eqn:E0; [|apply nth_error_None in E0; lia]. apply nth_error_In in E0. exists ms. split; auto. apply zmax_spec.
        split; [|intros z; apply UB; auto]. apply in_map_iff. exists Always. split; [simpl; lia|]. apply (HM ms E0).
        destruct (vars_of ms) as [|v vs] eqn:EV; auto. assert (v < n); [|lia]. apply (@var_lt ms v E0). rewrite EV. left; auto.
      + destruct (@var_site (n - 1)) as (s & ms & k & Hs & Hk & _); [lia|]. exists ms. split; [eapply nth_error_In; eauto|]. apply zmax_spec. split; [|intros z; apply UB; eapply nth_error_In; eauto].
        apply in_map_iff. exists (Var (n - 1)). split; [simpl; lia|]. apply vars_of_In. eapply nth_error_In; eauto.
    - intros z Hz. apply HI in Hz as (ms & Hms & Hz). apply zmax_spec in Hz as [Hz _]. eauto. }
  rewrite EM. cbn [option_bind]. destruct (Z.ltb_spec (Z.of_nat n - 1 + 1) 0); [lia|]. f_equal. lia.
Qed.
(** The variable that is set for a site. *)
Definition chosen (occu : list nat) (s v : nat) : Prop := exists ms k sl c i, nth_error marks s = Some ms /\ nth_error ids s = Some k /\ nth_error sls k = Some sl /\ nth_error occu s = Some c /\
   nth_error (sl_encoding sl) i = Some c /\ nth_error (vars_of ms) i = Some v.
Lemma encode_sites_ok occu site marks' vals : allowed sls init N occu -> (forall j, nth_error marks' j = nth_error marks (site + j)) -> length vals = n ->
  exists r, encode_sites sls ids occu site marks' vals = Some r /\ length r = n /\
    forall v, v < n -> (nth v r 0%Qc = 1%Qc /\ exists s, site <= s /\ chosen occu s v) \/ (nth v r 0%Qc = nth v vals 0%Qc /\ forall s, site <= s -> ~ chosen occu s v).
Proof using LAY INIT MO.
  intros [LO HA]. revert site vals. induction marks' as [|ms marks' IH]; intros site vals H LV; cbn [encode_sites].
  - exists vals. split; auto. split; auto. intros v Hv. right. split; auto. intros s Hs (ms & k & sl & c & i & Hm & _). specialize (H (s - site)). replace (site + (s - site)) with s in H by lia. rewrite Hm in H. destruct (s - site); discriminate.
  - pose proof (H 0) as H0. rewrite Nat.add_0_r in H0. simpl in H0. symmetry in H0. assert (Hs : site < N) by (rewrite <- (mo_len MO); apply nth_error_Some; congruence).
    destruct (mo_site MO Hs) as (ms' & k & sl & a & b & orig & Hm & Hk & Hsl & Hin & Hsite & _ & _ & OK). assert (ms' = ms) by congruence. subst ms'. rewrite Hk. cbn [option_bind]. rewrite Hsl. cbn [option_bind].
    assert (H' : forall j, nth_error marks' j = nth_error marks (S site + j)) by (intros j; rewrite (H (S j) : nth_error marks' j = _); f_equal; lia).
    destruct (free_dec sl site) as [F|F].
    + destruct (so_free OK F) as (_ & V & _ & _). pose proof (free_enc_pos Hin F) as LE. destruct (vars_of ms) as [|v0 vs] eqn:EV; [destruct (sl_encoding sl); simpl in *; [lia|discriminate]|]. rewrite <- EV in *.
      destruct (nth_error occu site) as [c|] eqn:Ec; [|apply nth_error_None in Ec; lia]. cbn [option_bind]. destruct (HA sl site c Hin Hsite Ec) as [HC _].
      destruct (index_of_In c (sl_encoding sl) HC) as [i Hi]. rewrite Hi. cbn [option_bind]. assert (Hi' := Hi). apply index_of_spec in Hi'.
      assert (Li : i < length (sl_encoding sl)) by (apply nth_error_Some; congruence). destruct (nth_error (vars_of ms) i) as [v|] eqn:Ev; [|apply nth_error_None in Ev; rewrite V, seq_length in Ev; lia]. cbn [option_bind].
      assert (Hv : v < n) by (eapply var_lt; [eapply nth_error_In; eauto|eapply nth_error_In; eauto]).
      destruct (IH (S site) (upd vals v 1%Qc) H') as (r & Er & Lr & G); [rewrite length_upd; auto|]. exists r. split; auto. split; auto.
      assert (CH : chosen occu site v) by (exists ms, k, sl, c, i; auto 10).
      intros w Hw. destruct (G w Hw) as [(G1 & s & Hs1 & Hs2)|[G1 G2]].
      * left. split; auto. exists s. split; auto. lia.
      * destruct (Nat.eq_dec w v) as [->|Nw].
        -- left. split; [|exists site; auto]. rewrite G1. apply nth_error_nth. apply nth_error_upd_eq. lia.
        -- right. split; [rewrite G1; rewrite <- !nth_default_eq; unfold nth_default; rewrite nth_error_upd_neq by auto; auto|].
           intros s Hs1 Hs2. destruct (Nat.eq_dec s site) as [->|Ns]; [|apply (G2 s); auto; lia].
           destruct Hs2 as (ms2 & k2 & sl2 & c2 & i2 & Q1 & Q2 & Q3 & Q4 & Q5 & Q6). assert (ms2 = ms) by congruence. assert (k2 = k) by congruence. subst ms2 k2. assert (sl2 = sl) by congruence. subst sl2. assert (c2 = c) by congruence. subst c2.
           assert (i2 = i); [|subst; congruence]. pose proof (enc_nodup Hin) as ND. rewrite NoDup_nth_error in ND. apply ND; [apply nth_error_Some; congruence|congruence].
    + destruct (so_fixed OK F) as (_ & V & _). rewrite V. destruct (IH (S site) vals H' LV) as (r & Er & Lr & G). exists r. split; auto. split; auto. intros w Hw.
      destruct (G w Hw) as [(G1 & s & Hs1 & Hs2)|[G1 G2]]; [left; split; auto; exists s; split; auto; lia|]. right. split; auto. intros s Hs1 Hs2.
      destruct (Nat.eq_dec s site) as [->|Ns]; [|apply (G2 s); auto; lia]. destruct Hs2 as (ms2 & k2 & sl2 & c2 & i2 & Q1 & _ & _ & _ & _ & Q6). assert (ms2 = ms) by congruence. subst. rewrite V in Q6. destruct i2; discriminate.
Qed.
Lemma encode_ok occu : allowed sls init N occu -> exists x, encode sls occu marks = Some x /\ length x = n /\
  forall v, v < n -> (nth v x 0%Qc = 1%Qc /\ exists s, chosen occu s v) \/ (nth v x 0%Qc = 0%Qc /\ forall s, ~ chosen occu s v).
Proof using LAY INIT MO NE.
  intros HA. unfold encode. rewrite num_variables_ok. cbn [option_bind]. rewrite (mo_ids MO). cbn [option_bind].
  destruct (@encode_sites_ok occu 0 marks (repeat 0%Qc n) HA) as (x & E & L & G); [auto|apply repeat_length|]. exists x. split; auto. split; auto. intros v Hv.
  destruct (G v Hv) as [(G1 & s & _ & Hs)|[G1 G2]]; [left; eauto|right]. split; [rewrite G1; apply nth_repeat|]. intros s. apply G2. lia.
Qed.
(** The values of the variables of a site. *)
Lemma encode_site occu x s ms k sl c i w j : allowed sls init N occu -> encode sls occu marks = Some x -> nth_error marks s = Some ms -> nth_error ids s = Some k -> nth_error sls k = Some sl -> In sl sls ->
  nth_error occu s = Some c -> nth_error (sl_encoding sl) i = Some c -> nth_error (vars_of ms) j = Some w -> nth w x 0%Qc = if j =? i then 1%Qc else 0%Qc.
Proof using LAY INIT MO NE.
  intros HA E Hm Hk Hsl Hin Hc Hi Hj. destruct (encode_ok HA) as (x' & E' & L & G). assert (x' = x) by congruence. subst x'.
  assert (Hw : w < n) by (eapply var_lt; [eapply nth_error_In; eauto|eapply nth_error_In; eauto]).
  assert (U : forall s', chosen occu s' w -> j = i).
  { intros s' (ms2 & k2 & sl2 & c2 & i2 & Q1 & Q2 & Q3 & Q4 & Q5 & Q6). assert (s' = s) by (eapply var_same; eauto; eapply nth_error_In; eauto). subst s'.
    assert (ms2 = ms) by congruence. assert (k2 = k) by congruence. subst ms2 k2. assert (sl2 = sl) by congruence. subst sl2. assert (c2 = c) by congruence. subst c2.
    assert (i2 = i) by (pose proof (enc_nodup Hin) as ND; rewrite NoDup_nth_error in ND; apply ND; [apply nth_error_Some; congruence|congruence]). subst i2.
    assert (ND : NoDup (vars_of ms)).
    { pose proof vars_nodup as VN. apply nth_error_In in Hm. clear - VN Hm. induction marks as [|m l IH]; [contradiction|]. simpl in VN. destruct Hm as [->|Hm].
      - clear IH. induction (vars_of ms) as [|y l' IH]; [constructor|]. simpl in VN. apply NoDup_cons_iff in VN as [V1 V2]. constructor; auto. intros I. apply V1, in_or_app. auto.
      - apply IH; auto. induction (vars_of m); simpl in VN; auto. apply NoDup_cons_iff in VN as [_ VN]. auto. }
    rewrite NoDup_nth_error in ND. apply ND; [apply nth_error_Some; congruence|congruence]. }
  destruct (G w Hw) as [(G1 & s' & Hs')|[G1 G2]].
  - rewrite G1, (U s' Hs'), Nat.eqb_refl. auto.
  - destruct (Nat.eqb_spec j i) as [->|]; auto. exfalso. apply (G2 s). exists ms, k, sl, c, i. auto 10.
Qed.
Lemma qsum_one_hot i : forall l : list Qc, i < length l -> (forall j y, nth_error l j = Some y -> y = if j =? i then 1%Qc else 0%Qc) -> qsum l = 1%Qc.
Proof.
  induction i as [|i IH]; intros [|y l] L H; simpl in L; try lia.
  - pose proof (H 0 y eq_refl) as H0. simpl in H0. subst y. cbn [qsum].
    assert (Z : forall y, In y l -> y = 0%Qc) by (intros y Hy; apply In_nth_error in Hy as [j Hj]; apply (H (S j) y Hj)).
    assert (Q : qsum l = 0%Qc); [|rewrite Q; ring]. clear - Z.
    induction l as [|y l IH]; auto. cbn [qsum]. rewrite IH, (Z y); [ring|left; auto|intros; apply Z; right; auto].
  - pose proof (H 0 y eq_refl) as H0. simpl in H0. subst y. cbn [qsum]. rewrite IH; [ring|lia|]. intros j y Hj. apply (H (S j) y Hj).
Qed.
Lemma encode_feasible occu x : allowed sls init N occu -> encode sls occu marks = Some x -> feasible marks n x.
Proof using LAY INIT MO NE.
  intros HA E. destruct (encode_ok HA) as (x' & E' & L & G). assert (x' = x) by congruence. subst x'. split; auto. split.
  - intros q Hq. apply In_nth with (d := 0%Qc) in Hq as (v & Hv & <-). destruct (G v) as [[-> _]|[-> _]]; auto. lia.
  - intros vs Hvs. unfold normalization in Hvs. apply filter_In in Hvs as [Hvs Hl]. apply Nat.ltb_lt in Hl. apply in_map_iff in Hvs as (ms & <- & Hms). apply In_nth_error in Hms as [s Hs].
    assert (Hs' : s < N) by (rewrite <- (mo_len MO); apply nth_error_Some; congruence). destruct (mo_site MO Hs') as (ms' & k & sl & a & b & orig & Hm & Hk & Hsl & Hin & Hsite & _ & _ & OK).
    assert (ms' = ms) by congruence. subst ms'. destruct (free_dec sl s) as [F|F]; [|destruct (so_fixed OK F) as (_ & V & _); rewrite V in Hl; simpl in Hl; lia].
    destruct (so_free OK F) as (_ & V & _). destruct HA as [LO HA]. destruct (nth_error occu s) as [c|] eqn:Ec; [|apply nth_error_None in Ec; lia].
    destruct (HA sl s c Hin Hsite Ec) as [HC _]. apply In_nth_error in HC as [i Hi]. unfold sum_vars. apply (@qsum_one_hot i).
    + rewrite map_length, V, seq_length. apply nth_error_Some. congruence.
    + intros j y Hj. rewrite nth_error_map in Hj. destruct (nth_error (vars_of ms) j) as [w|] eqn:Ew; [|discriminate]. injection Hj as <-.
      eapply (@encode_site occu x s ms k sl c i w j); eauto. split; auto.
Qed.
Lemma decode_encode occu x : allowed sls init N occu -> encode sls occu marks = Some x -> decode sls x marks = Some occu.
Proof using LAY INIT MO NE.
  intros HA E. pose proof (encode_feasible HA E) as HF. destruct (decode_ok HF) as (occu' & E' & L & H). rewrite E'. f_equal. destruct HA as [LO HA].
  apply nth_ext with (d := 0) (d' := 0); [congruence|]. intros s Hs. rewrite L in Hs.
  destruct (nth_error occu' s) as [c'|] eqn:Ec'; [|apply nth_error_None in Ec'; lia]. destruct (nth_error occu s) as [c|] eqn:Ec; [|apply nth_error_None in Ec; lia].
  rewrite (nth_error_nth _ _ 0 Ec'), (nth_error_nth _ _ 0 Ec). destruct (H s c' Ec') as (ms & k & sl & a & b & Hm & Hk & Hsl & Hin & Hsite & OK & SC & _ & HV).
  destruct (HA sl s c Hin Hsite Ec) as [HC Hor]. destruct (free_dec sl s) as [F|F].
  - destruct (HV F) as (i & v & Hi & Hv & Hw). apply In_nth_error in HC as [i' Hi']. assert (HA' : allowed sls init N occu) by (split; auto).
    pose proof (@encode_site occu x s ms k sl c i' v i HA' E Hm Hk Hsl Hin Ec Hi' Hv) as E1. rewrite (Hw i v Hv), Nat.eqb_refl in E1. destruct (Nat.eqb_spec i i') as [->|]; [congruence|discriminate].
  - destruct (so_fixed OK F) as (_ & V & c0 & P & Hc0 & Hor0). unfold site_code in SC. rewrite V in SC. change (find_all (fun m => match m with Always => true | _ => false end) ms) with (find_all is_always ms) in SC. rewrite P in SC. injection SC as <-.
    destruct Hor0 as [L1|(o & Eo & Ho)].
    + rewrite <- (proj1 (lay_len LAY Hin)) in L1. destruct (sl_encoding sl) as [|e [|]]; simpl in L1; try lia. destruct HC as [->|[]], Hc0 as [->|[]]. auto.
    + destruct Hor as [X|[L1|(o' & Eo' & Ho')]]; [contradiction| |congruence].
      rewrite <- (proj1 (lay_len LAY Hin)) in L1. destruct (sl_encoding sl) as [|e [|]]; simpl in L1; try lia. destruct HC as [->|[]], Hc0 as [->|[]]. auto.
Qed.
Lemma encode_decode x occu : feasible marks n x -> decode sls x marks = Some occu -> encode sls occu marks = Some x.
Proof using LAY INIT MO NE.
  intros HF E. pose proof (decode_allowed HF E) as HA. destruct (encode_ok HA) as (x' & E' & L & G). rewrite E'. f_equal.
  destruct (decode_ok HF) as (occu' & E2 & LO & H). assert (occu' = occu) by congruence. subst occu'. destruct HF as (Lx & Bx & Cx).
  apply nth_ext with (d := 0%Qc) (d' := 0%Qc); [congruence|]. intros v Hv. rewrite L in Hv. destruct (var_site Hv) as (s & ms & j & Hm & Hj & Hs).
  destruct (nth_error occu s) as [c|] eqn:Ec; [|apply nth_error_None in Ec; lia]. destruct (H s c Ec) as (ms' & k & sl & a & b & Hm' & Hk & Hsl & Hin & Hsite & OK & SC & AC & HV).
  assert (ms' = ms) by congruence. subst ms'. destruct (free_dec sl s) as [F|F]; [|destruct (so_fixed OK F) as (_ & V & _); rewrite V in Hj; destruct j; discriminate].
  destruct (HV F) as (i & v' & Hi & Hv' & Hw). rewrite (Hw j v Hj). eapply (@encode_site occu x' s ms k sl c i v j); eauto.
Qed.
End Marks.
End Layout.

(** ** C50 *)
(** C50.  The variables exist, every allowed occupancy encodes to a feasible assignment that decodes to it, and every
    feasible assignment decodes to an allowed occupancy that encodes to it. *)
Theorem C50_round_trip : forall origs sls init, var_layout origs sls -> initial_ok sls init -> origs <> [] ->
  exists marks n, get_variables sls init origs = Some (marks, n) /\
    (forall occu, allowed sls init (length origs) occu -> exists x, encode sls occu marks = Some x /\ feasible marks n x /\ decode sls x marks = Some occu) /\
    (forall x, feasible marks n x -> exists occu, decode sls x marks = Some occu /\ allowed sls init (length origs) occu /\ encode sls occu marks = Some x).
Proof.
  intros origs sls init LAY INIT NE. destruct (get_variables_ok LAY INIT) as (ids & marks & n & E & MO). exists marks, n. split; auto. split.
  - intros occu HA. destruct (encode_ok LAY INIT NE MO HA) as (x & Ex & _). exists x. split; auto. split; [eapply encode_feasible; eauto|eapply decode_encode; eauto].
  - intros x HF. destruct (decode_ok LAY INIT MO HF) as (occu & Eo & _). exists occu. split; auto. split; [eapply decode_allowed; eauto|eapply encode_decode; eauto].
Qed.
Print Assumptions C50_round_trip.

(** Every species that a site can take has its own variable, in the order of the site space; a site that cannot change has
    none and carries one fixed species; all variables belong to some site, each to one. *)
Theorem C50_variables : forall origs sls init marks n, var_layout origs sls -> initial_ok sls init -> get_variables sls init origs = Some (marks, n) ->
  length marks = length origs /\ concat (map vars_of marks) = seq 0 n /\
  forall sl s orig, In sl sls -> In s (sl_sites sl) -> nth_error origs s = Some orig -> exists ms, nth_error marks s = Some ms /\ length ms = length orig /\
    (free_site sl s -> forall c, (exists v, nth_error ms c = Some (Var v)) <-> In c (sl_encoding sl)) /\
    (~ free_site sl s -> vars_of ms = [] /\ exists c, (forall c', nth_error ms c' = Some Always <-> c' = c) /\ allowed_code sl init s c).
Proof.
  intros origs sls init marks n LAY INIT E. destruct (get_variables_ok LAY INIT) as (ids & marks' & n' & E' & MO). assert (marks' = marks) by congruence. assert (n' = n) by congruence. subst marks' n'.
  split; [apply (mo_len MO)|]. split; [apply (mo_vars MO)|]. intros sl s orig Hin Hs Ho. assert (HsN : s < length origs) by (apply nth_error_Some; congruence).
  destruct (mo_site MO HsN) as (ms & k & sl' & a & b & orig' & Hm & _ & _ & Hin' & Hs' & Ho' & L & OK). assert (sl' = sl) by (eapply sl_unique; eauto). assert (orig' = orig) by congruence. subst sl' orig'.
  exists ms. split; auto. split; auto. split.
  - intros F c. destruct (so_free OK F) as (_ & _ & P & _). rewrite <- P, find_all_In. split; [intros [v Hv]; exists (Var v); auto|]. intros (m & Hc & Hv). destruct m; try discriminate. eauto.
  - intros F. destruct (so_fixed OK F) as (_ & V & c & P & Hc & Hor). split; auto. exists c. split; [|split; auto].
    intros c'. assert (Q : In c' (find_all is_always ms) <-> c' = c) by (rewrite P; simpl; intuition). rewrite <- Q, find_all_In. split; [intros H; exists Always; auto|]. intros (m & H1 & H2). destruct m; try discriminate. auto.
Qed.
Print Assumptions C50_variables.

(** Values that a solver returns close to an assignment decode to the same occupancy. *)
Theorem C50_rounding : forall sls marks x y, boolean x -> length y = length x -> (forall i, i < length x -> within (Qc_frac 1 2) (nth i y 0%Qc) (nth i x 0%Qc)) ->
  decode sls y marks = decode sls x marks.
Proof.
  intros sls marks x y B L H. unfold decode. assert (R : map qround y = map qround x); [|rewrite R; auto].
  apply nth_ext with (d := qround 0%Qc) (d' := qround 0%Qc); [rewrite !map_length; auto|]. intros i Hi. rewrite map_length in Hi. rewrite !map_nth. rewrite L in Hi. specialize (H i Hi).
  destruct (B _ (nth_In x 0%Qc Hi)) as [E|E]; rewrite E in *.
  - transitivity 0%Z; [apply qround_unique; exact H|reflexivity].
  - transitivity 1%Z; [apply qround_unique; exact H|reflexivity].
Qed.
Print Assumptions C50_rounding.

(** An assignment that puts no species, or several, on a site is not decoded. *)
Lemma length_find_all {A} (f : A -> bool) l : length (find_all f l) = length (filter f l).
Proof.
  unfold find_all. rewrite map_length. generalize 0. induction l as [|x l IH]; intros o; simpl; auto. destruct (f x); simpl; rewrite IH; auto.
Qed.
Theorem C50_rejects : forall sls marks x occu, boolean x -> decode sls x marks = Some occu -> forall vs, In vs (normalization marks) -> sum_vars x vs = 1%Qc.
Proof.
  intros sls marks x occu B E vs Hvs. unfold normalization in Hvs. apply filter_In in Hvs as [Hvs Hl]. apply in_map_iff in Hvs as (ms & <- & Hms).
  unfold decode in E. destruct (sublattice_ids sls) as [ids|]; [|discriminate]. cbn [option_bind] in E.
  apply In_nth_error in Hms as (s & Hs). assert (Hn : nth_error (combine (seq 0 (length marks)) marks) s = Some (s, ms)) by (apply (proj2 (combine_seq_nth [] marks 0 s (s, ms))); split; [reflexivity|exact Hs]).
  destruct (opt_map_nth _ _ _ E Hn) as (c & Hc & _). cbn [fst snd] in Hc. destruct (nth_error ids s) as [i|]; [|discriminate]. cbn [option_bind] in Hc.
  destruct (nth_error sls i) as [sl|]; [|discriminate]. cbn [option_bind] in Hc. unfold site_code in Hc.
  destruct (opt_map (nth_error (map qround x)) (vars_of ms)) as [xs|] eqn:Ex; [|destruct (vars_of ms); [discriminate Hl|rewrite Ex in Hc; discriminate Hc]].
  assert (L : length (filter (Z.eqb 1) xs) = 1).
  { rewrite <- length_find_all. destruct (vars_of ms) as [|v vs]; [discriminate Hl|]. rewrite Ex in Hc. cbn [option_bind] in Hc. destruct (find_all (Z.eqb 1) xs) as [|k [|]]; try discriminate. auto. }
  clear - B Ex L. unfold sum_vars. rewrite <- (Qc_of_nat_S 0 : Qc_of_nat 1 = (1 + 0)%Qc) || idtac. transitivity (Qc_of_nat (length (filter (Z.eqb 1) xs))); [|rewrite L; apply Qc_is_canon; reflexivity]. clear L.
  revert xs Ex. induction (vars_of ms) as [|v vs IH]; intros xs Ex; simpl in Ex.
  - injection Ex as <-. apply Qc_is_canon. reflexivity.
  - destruct (nth_error (map qround x) v) as [z|] eqn:Ez; [|discriminate]. cbn [option_bind] in Ex. destruct (opt_map (nth_error (map qround x)) vs) as [zs|]; [|discriminate].
    injection Ex as <-. cbn [map qsum filter]. rewrite (IH zs eq_refl). rewrite nth_error_map in Ez. destruct (nth_error x v) as [q|] eqn:Eq; [|discriminate]. injection Ez as <-.
    rewrite (nth_error_nth x v 0%Qc Eq). destruct (B q (nth_error_In _ _ Eq)) as [-> | ->].
    + change (1 =? qround 0)%Z with false. cbn iota. ring.
    + change (1 =? qround 1)%Z with true. cbn [length]. rewrite Qc_of_nat_S. ring.
Qed.
Print Assumptions C50_rejects.

(** *** Layouts that occur *)
Lemma in_get_sublattices allowed spaces sl : In sl (get_sublattices allowed spaces) -> exists sp, In sp spaces /\ sl = mk_sublattice sp (sites_of_space allowed sp).
Proof. unfold get_sublattices. intros H. apply in_map_iff in H as (sp & <- & H). eauto. Qed.
Lemma mk_sublattice_fields sp sites : sl_space (mk_sublattice sp sites) = sp /\ sl_sites (mk_sublattice sp sites) = np_unique sites /\ sl_encoding (mk_sublattice sp sites) = seq 0 (length sp).
Proof. unfold mk_sublattice. destruct (length sp <=? 1); simpl; auto. Qed.
Lemma seq_sorted o n : StronglySorted lt (seq o n).
Proof. revert o. induction n as [|n IH]; intros o; simpl; constructor; auto. apply Forall_forall. intros x Hx. apply in_seq in Hx. lia. Qed.

(** The default sublattices of a structure. *)
Theorem C50_default_layout : forall origs spaces, origs <> [] -> NoDup (map (map fst) spaces) -> (forall sps, In sps origs -> In sps (map (map fst) spaces)) ->
  (forall sp : site_space, In sp spaces -> sp <> []) -> (forall orig, In orig origs -> NoDup orig) -> var_layout origs (get_sublattices origs spaces).
Proof.
  intros origs spaces NE ND COV NES NDO. destruct (C61_default_layout_partial _ _ NE ND COV NES) as (L1 & L2 & _). split; auto.
  - apply L1.
  - intros sl H. apply in_get_sublattices in H as (sp & _ & ->). destruct (mk_sublattice_fields sp (sites_of_space origs sp)) as (_ & _ & ->). apply seq_sorted.
  - intros sl H. apply in_get_sublattices in H as (sp & Hsp & ->). unfold sl_species. destruct (mk_sublattice_fields sp (sites_of_space origs sp)) as (-> & _ & ->). rewrite seq_length, map_length. split; auto.
    intros E. apply map_eq_nil in E. apply (NES _ Hsp E).
  - intros sl s orig k c Hin Hs Ho Hk. pose proof (L2 sl s Hin Hs) as H2. assert (orig = sl_species sl) by congruence. subst orig.
    apply in_get_sublattices in Hin as (sp & Hsp & ->). revert Hk. unfold sl_species. destruct (mk_sublattice_fields sp (sites_of_space origs sp)) as (-> & _ & ->). intros Hk.
    assert (k < length sp) by (rewrite <- (seq_length (length sp) 0); apply nth_error_Some; congruence). rewrite nth_error_seq in Hk. destruct (Nat.ltb_spec k (length sp)); [|lia]. injection Hk as <-. simpl.
    destruct (nth_error (map fst sp) k) as [q|] eqn:E; [eauto|]. apply nth_error_None in E. rewrite map_length in E. lia.
Qed.
Print Assumptions C50_default_layout.
(** Restricting and resetting sites. *)
Theorem C50_restricted_layout : forall origs pre sl post o, var_layout origs (pre ++ sl :: post) -> var_layout origs (pre ++ sl_step sl o :: post).
Proof.
  intros origs pre sl post o [A B C D F]. assert (Q : exists a, sl_step sl o = set_active sl a).
  { destruct o; simpl; unfold restrict_sites, reset_restricted_sites; [eauto|]. destruct (1 <? length (sl_space sl)); eauto. exists (sl_active sl). destruct sl; auto. }
  destruct Q as [a ->].
  assert (I : forall sl', In sl' (pre ++ set_active sl a :: post) -> exists sl'', In sl'' (pre ++ sl :: post) /\ sl_encoding sl'' = sl_encoding sl' /\ sl_sites sl'' = sl_sites sl' /\ sl_species sl'' = sl_species sl').
  { intros sl' H. apply in_app_or in H as [H|[<-|H]].
    - exists sl'. split; auto. apply in_or_app; auto.
    - exists sl. split; auto. apply in_or_app; simpl; auto.
    - exists sl'. split; auto. apply in_or_app; simpl; auto. }
  split; auto.
  - rewrite map_app in *. simpl in *. auto.
  - intros sl' H. destruct (I sl' H) as (sl'' & H' & <- & _). auto.
  - intros sl' H. destruct (I sl' H) as (sl'' & H' & <- & _ & <-). auto.
  - intros sl' s orig k c H Hs Ho Hk. destruct (I sl' H) as (sl'' & H' & E1 & E2 & <-). rewrite <- E1 in Hk. rewrite <- E2 in Hs. eauto.
Qed.
Print Assumptions C50_restricted_layout.
(** Splitting a sublattice by groups that hold the codes of its sites. *)
Theorem C50_split_layout_partial : forall leb origs pre sl post occu groups parts, var_layout origs (pre ++ sl :: post) -> wf_sublattice leb sl -> (forall s, In s (sl_sites sl) -> s < length occu) ->
  (forall g, In g groups -> NoDup g /\ g <> [] /\ forall c, In c g -> In c (sl_encoding sl)) ->
  (forall i j gi gj c, nth_error groups i = Some gi -> nth_error groups j = Some gj -> In c gi -> In c gj -> i = j) ->
  (forall g, In g groups -> vacancy_weighty sl g) ->
  (forall s c, In s (sl_sites sl) -> nth_error occu s = Some c -> exists g, In g groups /\ In c g) ->
  split_by_species leb sl occu groups = Some parts -> var_layout origs (pre ++ parts ++ post).
Proof.
  intros leb origs pre sl post occu groups parts LAY WF RNG GOK DISJ VW COV E.
  destruct (C04_disjoint_cover _ _ _ _ _ WF RNG GOK DISJ E) as [DJ CV]. pose proof (C04_codes_keep_species_partial _ _ _ _ _ WF RNG GOK VW E) as KS. rewrite Forall_forall in KS.
  destruct (C04_split _ _ _ _ WF RNG GOK) as (parts' & E' & FP). assert (parts' = parts) by congruence. subst parts'.
  assert (PG : forall i p, nth_error parts i = Some p -> exists g, nth_error groups i = Some g /\ is_part_of sl occu g p).
  { clear - FP. induction FP; intros [|i] p Hp; simpl in Hp; try discriminate; [injection Hp as <-; simpl; eauto|apply IHFP; auto]. }
  assert (GP : forall i g, nth_error groups i = Some g -> exists p, nth_error parts i = Some p).
  { clear - FP. induction FP; intros [|i] g Hg; simpl in Hg; try discriminate; [simpl; eauto|eapply IHFP; eauto]. }
  assert (SUB : forall p, In p parts -> exists g, In g groups /\ is_part_of sl occu g p).
  { intros p Hp. apply In_nth_error in Hp as [i Hi]. destruct (PG i p Hi) as (g & Hg & Q). exists g. split; auto. eapply nth_error_In; eauto. }
  assert (SS : forall p s, In p parts -> In s (sl_sites p) -> In s (sl_sites sl)).
  { intros p s Hp Hs. destruct (SUB p Hp) as (g & _ & _ & Es & _). rewrite Es in Hs. apply filter_In in Hs. tauto. }
  assert (SITES : Permutation (concat (map sl_sites parts)) (sl_sites sl)).
  { apply NoDup_Permutation.
    - assert (DJ' := DJ). clear - DJ' KS. induction parts as [|p parts IH]; simpl; [constructor|]. apply NoDup_app_intro.
      + apply sorted_NoDup, (wf_sites (proj1 (KS p (or_introl eq_refl)))).
      + apply IH; [intros q Hq; apply KS; right; auto|]. intros i j pi pj s Hi Hj Si Sj. apply (DJ' (S i) (S j) pi pj s) in Sj; auto.
      + intros s H1 H2. apply in_concat in H2 as (l & Hl & H2). apply in_map_iff in Hl as (q & <- & Hq). apply In_nth_error in Hq as [j Hj]. assert (0 = S j) by (apply (DJ' 0 (S j) p q s); auto). discriminate.
    - apply sorted_NoDup, (wf_sites WF).
    - intros s. split.
      + intros H. apply in_concat in H as (l & Hl & H2). apply in_map_iff in Hl as (q & <- & Hq). eauto.
      + intros Hs. destruct (nth_error occu s) as [c|] eqn:Ec; [|apply nth_error_None in Ec; specialize (RNG s Hs); lia]. destruct (COV s c Hs Ec) as (g & Hg & Hc). apply In_nth_error in Hg as [i Hi].
        destruct (GP i g Hi) as [p Hp]. destruct (CV i g p s c Hi Hp Hs Ec) as [Q _]. apply in_concat. exists (sl_sites p). split; [apply in_map; eapply nth_error_In; eauto|]. apply Q; auto. }
  destruct LAY as [A B C D F].
  assert (IN : forall sl', In sl' (pre ++ parts ++ post) -> In sl' parts \/ In sl' (pre ++ sl :: post)).
  { intros sl' H. apply in_app_or in H as [H|H]; [right; apply in_or_app; auto|]. apply in_app_or in H as [H|H]; auto. right. apply in_or_app. right. right. auto. }
  split; auto.
  - rewrite <- A. rewrite !map_app, !concat_app. simpl. rewrite SITES. auto.
  - intros sl' H. apply IN in H as [H|H]; auto. apply (wf_enc (proj1 (KS sl' H))).
  - intros sl' H. apply IN in H as [H|H]; auto. destruct (KS sl' H) as [W _]. unfold sl_species. rewrite map_length. split; [apply (wf_enc_len W)|].
    intros Q. apply map_eq_nil in Q. pose proof (wf_enc_len W) as WL. rewrite Q in WL. destruct (SUB sl' H) as (g & Hg & Eg & _). rewrite Eg in WL. simpl in WL.
    rewrite <- (Permutation_length (sort_by_perm Nat.leb g)) in WL. destruct g; [apply (GOK [] Hg); auto|discriminate].
  - intros sl' s orig k c H Hs Ho Hk. apply IN in H as [H|H]; [|eauto]. destruct (KS sl' H) as [W HK]. destruct (HK k c Hk) as (sp & x & y & H1 & H2).
    exists sp. split; [unfold sl_species; rewrite nth_error_map, H1; auto|]. unfold item_of_code in H2. destruct (index_of c (sl_encoding sl)) as [i|] eqn:Ei; [|discriminate]. cbn [option_bind] in H2.
    apply index_of_spec in Ei. destruct (D sl s orig i c) as (sp' & H3 & H4); auto; [apply in_or_app; simpl; auto|eauto|]. unfold sl_species in H3. rewrite nth_error_map, H2 in H3. simpl in H3. congruence.
Qed.
Print Assumptions C50_split_layout_partial.

(** Case: three sites, the second restricted, the third of one species; the first sublattice is a split part with codes 0 and 2. *)
Definition ex_origs : list (list species) := [[Sp 1; Sp 2; Sp 3]; [Sp 1; Sp 2; Sp 3]; [Sp 4]].
Definition ex_sls : list sublattice :=
  [mkSL [(Sp 1, Qc_frac 1 2); (Sp 3, Qc_frac 1 2)] [0; 1] [0] [0; 2]; mkSL [(Sp 4, 1%Qc)] [2] [] [0]].
Definition ex_init : option (list nat) := Some [0; 2; 0].
Example C50_case : var_layout ex_origs ex_sls /\ initial_ok ex_sls ex_init /\
  get_variables ex_sls ex_init ex_origs = Some ([[Var 0; Never; Var 1]; [Never; Never; Always]; [Always]], 2) /\
  allowed ex_sls ex_init 3 [2; 2; 0] /\ encode ex_sls [2; 2; 0] [[Var 0; Never; Var 1]; [Never; Never; Always]; [Always]] = Some [0%Qc; 1%Qc] /\
  decode ex_sls [Qc_frac 1 10; Qc_frac 9 10] [[Var 0; Never; Var 1]; [Never; Never; Always]; [Always]] = Some [2; 2; 0].
Proof.
  split; [split|split; [|split; [|split; [|split]]]].
  - simpl. apply Permutation_refl.
  - intros sl [<-|[<-|[]]]; repeat constructor.
  - intros sl [<-|[<-|[]]]; split; simpl; auto; discriminate.
  - intros sl s orig k c [<-|[<-|[]]] Hs Ho Hk; simpl in Hs.
    + destruct Hs as [<-|[<-|[]]]; injection Ho as <-; destruct k as [|[|[|k]]]; simpl in Hk; try discriminate; injection Hk as <-; simpl; eauto.
    + destruct Hs as [<-|[]]. injection Ho as <-. destruct k as [|[|k]]; simpl in Hk; try discriminate. injection Hk as <-. simpl. eauto.
  - intros orig [<-|[<-|[<-|[]]]]; repeat constructor; simpl; intuition discriminate.
  - intros sl s [<-|[<-|[]]] Hs HL HA; simpl in *; [|lia]. destruct Hs as [<-|[<-|[]]]; [destruct HA; auto|]. exists [0; 2; 0], 2. simpl. auto.
  - reflexivity.
  - split; auto. intros sl s c [<-|[<-|[]]] Hs Hc; simpl in Hs.
    + destruct Hs as [<-|[<-|[]]]; injection Hc as <-; split; simpl; auto; [left; split; simpl; auto|right; right; exists [0; 2; 0]; auto].
    + destruct Hs as [<-|[]]. injection Hc as <-. split; simpl; auto.
  - reflexivity.
  - vm_compute. reflexivity.
Qed.

(** Splitting off a group with a light vacancy (C04) loses it here too: the occupancy that was split does not come back. *)
Theorem C50_light_vacancy_refuted : exists part marks x, split_by_species (fun _ _ => true) light_vac [0; 1] [[0; 1]] = Some [part] /\ In 1 (sl_encoding part) /\ sl_active part = [0; 1] /\
  get_variables [part] (Some [0; 1]) [[Sp 0; Vac]; [Sp 0; Vac]] = Some (marks, 0) /\ encode [part] [0; 1] marks = Some x /\ decode [part] x marks = Some [0; 0].
Proof. do 3 eexists. split; [vm_compute; reflexivity|]. split; [simpl; auto|]. split; [reflexivity|]. split; [vm_compute; reflexivity|]. split; vm_compute; reflexivity. Qed.
Print Assumptions C50_light_vacancy_refuted.
