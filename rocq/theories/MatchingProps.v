(** C108 and C110: structures and occupancies. *)
From Verif Require Import LibProofs.
From Verif Require Export Matching.
From Coq Require Import Permutation Lia.
Set Implicit Arguments.
Unset Strict Implicit.
Open Scope nat_scope.

(** ** Specification *)
(** A structure placed on a supercell: pairs of a site of the supercell and the species there.  Sites without a pair are vacant. *)
Definition placed := list (nat * specie).
Definition holds (s : placed) (i : nat) (sp : specie) : Prop := In (i, sp) s \/ (forall sp', ~ In (i, sp') s) /\ sp = Vacancy 0.
Definition one_each (s : placed) : Prop := NoDup (map fst s).
(** Codes of species in range, and species lists without repetition. *)
Definition codes_ok (allowed : list (list specie)) (codes : list nat) : Prop := Forall2 (fun sps c => c < length sps) allowed codes.
Definition distinct_species (allowed : list (list specie)) : Prop := Forall (fun sps => NoDup sps) allowed.
(** The species that the codes mean. *)
Definition means (allowed : list (list specie)) (codes : list nat) (i : nat) (sp : specie) : Prop :=
  exists sps c, nth_error allowed i = Some sps /\ nth_error codes i = Some c /\ nth_error sps c = Some sp.

(** ** Proofs *)
Lemma specie_eqb_spec a b : reflect (a = b) (specie_eqb a b).
Proof. destruct a as [x|x], b as [y|y]; cbn; try (constructor; discriminate); destruct (Nat.eqb_spec x y); constructor; congruence. Qed.
Lemma index_where_some A (f : A -> bool) l j : index_where f l = Some j -> exists x, nth_error l j = Some x /\ f x = true.
Proof.
  revert j. induction l as [|x l IH]; intros j; cbn [index_where]; [discriminate|]. destruct (f x) eqn:E.
  - intros [= <-]. exists x. auto.
  - destruct (index_where f l) as [k|]; [|discriminate]. intros [= <-]. apply (IH k eq_refl).
Qed.
Lemma index_where_none A (f : A -> bool) l : index_where f l = None <-> forall x, In x l -> f x = false.
Proof.
  induction l as [|x l IH]; cbn [index_where]; [split; [intros _ x []|auto]|]. destruct (f x) eqn:E.
  - split; [discriminate|]. intros H. rewrite (H x (or_introl eq_refl)) in E. discriminate.
  - destruct (index_where f l); cbn [option_map].
    + split; [discriminate|]. intros H. pose proof (proj2 IH (fun y Hy => H y (or_intror Hy))) as X. discriminate X.
    + split; auto. intros _ y [<-|Hy]; auto. apply IH; auto.
Qed.
Lemma nth_combine A B (l : list A) (m : list B) i a b : nth_error (combine l m) i = Some (a, b) <-> nth_error l i = Some a /\ nth_error m i = Some b.
Proof.
  revert m i. induction l as [|x l IH]; intros [|y m] [|i]; cbn; try (split; [discriminate|intros (? & ?); discriminate]); [|apply IH].
  split; [intros [= -> ->]; auto|intros ([= ->] & [= ->]); auto].
Qed.
Lemma map_fst_combine A B (l : list A) (m : list B) : length l = length m -> map fst (combine l m) = l.
Proof. revert m. induction l as [|x l IH]; intros [|y m] H; cbn in *; try discriminate; auto. f_equal. auto. Qed.
Lemma map_snd_combine A B (l : list A) (m : list B) : length l = length m -> map snd (combine l m) = m.
Proof. revert m. induction l as [|x l IH]; intros [|y m] H; cbn in *; try discriminate; auto. f_equal. auto. Qed.
Lemma combine_maps A B (s : list (A * B)) : combine (map fst s) (map snd s) = s.
Proof. induction s as [|[a b] s IH]; cbn; congruence. Qed.

Section Placed.
Variables (str : list specie) (mapping : list nat).
Hypotheses (HL : length str = length mapping) (HN : NoDup mapping).
Lemma spec_at_iff i sp : spec_at str mapping i = Some sp <-> holds (combine mapping str) i sp.
Proof using HL HN.
  unfold spec_at, holds. destruct (index_where (Nat.eqb i) mapping) as [j|] eqn:E.
  - apply index_where_some in E as (x & E & Ex). apply Nat.eqb_eq in Ex. subst x.
    assert (Hj : j < length str) by (rewrite HL; apply nth_error_Some; congruence). split.
    + intros H. left. apply (nth_error_In _ j). apply nth_combine. auto.
    + intros [H|(H & _)].
      * apply In_nth_error in H as (k & H). apply nth_combine in H as (Hk1 & Hk2). assert (j = k) as ->; auto. apply (proj1 (NoDup_nth_error mapping) HN); [lia|congruence].
      * exfalso. apply nth_error_Some in Hj. destruct (nth_error str j) as [sp'|] eqn:Es; [|congruence]. apply (H sp'). apply (nth_error_In _ j). apply nth_combine. auto.
  - pose proof (proj1 (index_where_none _ _) E) as H0. split.
    + intros [= <-]. right. split; auto. intros sp' H. apply in_combine_l in H. apply H0 in H. rewrite Nat.eqb_refl in H. discriminate.
    + intros [H|(_ & ->)]; auto. apply in_combine_l in H. apply H0 in H. rewrite Nat.eqb_refl in H. discriminate.
Qed.
Lemma spec_at_total i : exists sp, spec_at str mapping i = Some sp.
Proof using HL.
  unfold spec_at. destruct (index_where (Nat.eqb i) mapping) as [j|] eqn:E; [|eauto]. apply index_where_some in E as (x & E & _).
  assert (Hj : j < length str) by (rewrite HL; apply nth_error_Some; congruence). apply nth_error_Some in Hj. destruct (nth_error str j); [eauto|congruence].
Qed.
Lemma site_specie_iff i sps sp : site_specie str mapping (i, sps) = Some sp <-> In sp sps /\ holds (combine mapping str) i sp.
Proof using HL HN.
  unfold site_specie. cbn [fst snd]. destruct (spec_at_total i) as (sp0 & E). rewrite E. cbn [option_bind].
  pose proof (proj1 (spec_at_iff i sp0) E) as H0. destruct (existsb (specie_eqb sp0) sps) eqn:X.
  - apply existsb_exists in X as (y & Hy & Hyy). destruct (specie_eqb_spec sp0 y) as [<-|]; [|discriminate]. split; [intros [= <-]; auto|]. intros (_ & H). apply spec_at_iff in H. congruence.
  - split; [discriminate|]. intros (H1 & H2). apply spec_at_iff in H2. assert (sp = sp0) as -> by congruence. exfalso. assert (existsb (specie_eqb sp0) sps = true); [|congruence].
    apply existsb_exists. exists sp0. split; auto. destruct (specie_eqb_spec sp0 sp0); congruence.
Qed.
End Placed.
Lemma numbered_nth A (l : list A) i : nth_error (numbered l) i = option_map (pair i) (nth_error l i).
Proof.
  unfold numbered. enough (H : forall k, nth_error (combine (seq k (length l)) l) i = option_map (pair (k + i)) (nth_error l i)) by apply (H 0).
  revert i. induction l as [|x l IH]; intros [|i] k; cbn [length seq combine nth_error option_map]; auto; [rewrite Nat.add_0_r; auto|]. rewrite IH. destruct (nth_error l i); cbn; auto. repeat f_equal. lia.
Qed.
Lemma numbered_length A (l : list A) : length (numbered l) = length l.
Proof. unfold numbered. rewrite combine_length, seq_length. lia. Qed.
Lemma opt_map_iff A B (f : A -> option B) l ys : opt_map f l = Some ys <-> length ys = length l /\ forall i x y, nth_error l i = Some x -> nth_error ys i = Some y -> f x = Some y.
Proof.
  revert ys. induction l as [|x l IH]; intros ys; cbn [opt_map].
  - split; [intros [= <-]; split; auto; intros [|i] ? ? H; discriminate|]. intros (H & _). destruct ys; [auto|discriminate].
  - split.
    + destruct (f x) as [y|] eqn:E; [|discriminate]. destruct (opt_map f l) as [zs|] eqn:El; [|discriminate]. intros [= <-]. destruct (proj1 (IH zs) eq_refl) as (A1 & A2). split; [cbn; lia|].
      intros [|i] u v; cbn [nth_error]; [intros [= <-] [= <-]; auto|apply A2].
    + destruct ys as [|y ys]; intros (H1 & H2); [discriminate|]. rewrite (H2 0 x y eq_refl eq_refl). assert (K : opt_map f l = Some ys) by (apply IH; split; [cbn in H1; lia|]; intros i u v; apply (H2 (S i))). rewrite K. auto.
Qed.
Lemma opt_map_none A B (f : A -> option B) l : opt_map f l = None <-> exists x, In x l /\ f x = None.
Proof.
  induction l as [|x l IH]; cbn [opt_map]; [split; [discriminate|intros (x & [] & _)]|]. destruct (f x) eqn:E.
  - destruct (opt_map f l); split; try discriminate; auto.
    + intros (y & [<-|Hy] & Ey); [congruence|]. pose proof (proj2 IH (ex_intro _ y (conj Hy Ey))) as X. discriminate X.
    + intros _. destruct (proj1 IH eq_refl) as (y & Hy & Ey). exists y. simpl. auto.
  - split; auto. intros _. exists x. simpl. auto.
Qed.
Lemma opt_map_ext A B (f g : A -> option B) l : (forall x, In x l -> f x = g x) -> opt_map f l = opt_map g l.
Proof. intros H. induction l as [|x l IH]; cbn; auto. rewrite (H x (or_introl eq_refl)), IH; auto. intros y Hy. apply H. simpl. auto. Qed.

(** The occupancy has, at every site, the species of the structure matched to it, or [Vacancy()], and this species is allowed there;
    matching fails exactly when some site would get a species that is not allowed. *)
Theorem C108_occupancy allowed str mapping : length str = length mapping -> NoDup mapping ->
  (forall occu, occupancy_from_structure allowed str mapping = Some occu <->
     length occu = length allowed /\ forall i sps sp, nth_error allowed i = Some sps -> nth_error occu i = Some sp -> In sp sps /\ holds (combine mapping str) i sp) /\
  (occupancy_from_structure allowed str mapping = None <-> exists i sps sp, nth_error allowed i = Some sps /\ holds (combine mapping str) i sp /\ ~ In sp sps).
Proof.
  intros HL HN. unfold occupancy_from_structure. split.
  - intros occu. rewrite opt_map_iff, numbered_length. split; intros (A & B); split; auto.
    + intros i sps sp H1 H2. apply (site_specie_iff HL HN). apply (B i); auto. rewrite numbered_nth, H1. auto.
    + intros i [k sps] sp H1 H2. rewrite numbered_nth in H1. destruct (nth_error allowed i) eqn:E; [|discriminate]. injection H1 as <- ->. apply (site_specie_iff HL HN). eapply B; eauto.
  - rewrite opt_map_none. split.
    + intros ([k sps] & H & E). apply In_nth_error in H as (i & H). rewrite numbered_nth in H. destruct (nth_error allowed i) eqn:Ei; [|discriminate]. injection H as <- ->.
      destruct (spec_at_total HL i) as (sp & Es). exists i, sps, sp. split; auto. pose proof (proj1 (spec_at_iff HL HN i sp) Es) as Hh. split; auto. intros Hs.
      rewrite (proj2 (site_specie_iff HL HN i sps sp) (conj Hs Hh)) in E. discriminate.
    + intros (i & sps & sp & H1 & H2 & H3). exists (i, sps). split; [apply (nth_error_In _ i); rewrite numbered_nth, H1; auto|].
      destruct (site_specie str mapping (i, sps)) as [sp'|] eqn:E; auto. exfalso. apply (site_specie_iff HL HN) in E as (E1 & E2). apply (spec_at_iff HL HN) in E2, H2. congruence.
Qed.
Lemma index_nth sp sps c : index_where (specie_eqb sp) sps = Some c -> nth_error sps c = Some sp.
Proof. intros H. apply index_where_some in H as (x & H & E). destruct (specie_eqb_spec sp x) as [->|]; [auto|discriminate]. Qed.
Lemma index_in sp sps : In sp sps -> exists c, index_where (specie_eqb sp) sps = Some c.
Proof. intros H. destruct (index_where (specie_eqb sp) sps) as [c|] eqn:E; [eauto|]. pose proof (proj1 (index_where_none _ _) E sp H) as X. destruct (specie_eqb_spec sp sp); [discriminate|congruence]. Qed.
Lemma index_unique sp sps c : NoDup sps -> nth_error sps c = Some sp -> index_where (specie_eqb sp) sps = Some c.
Proof.
  intros N H. destruct (index_in (nth_error_In _ _ H)) as (k & E). rewrite E. f_equal. apply (proj1 (NoDup_nth_error sps) N); [apply nth_error_Some; rewrite (index_nth E); discriminate|]. rewrite (index_nth E). auto.
Qed.
Lemma processor_same allowed str mapping : processor_occupancy allowed str mapping = encoded_from_structure allowed str mapping.
Proof.
  unfold processor_occupancy, encoded_from_structure, encode_occupancy, occupancy_from_structure, numbered. generalize 0. induction allowed as [|sps allowed IH]; intros k; cbn [length seq combine opt_map]; auto.
  unfold site_code at 1. destruct (site_specie str mapping (k, sps)) as [sp|]; cbn [option_bind]; auto. specialize (IH (S k)).
  destruct (opt_map (site_specie str mapping) _) as [occu|] eqn:E; cbn [option_bind combine opt_map] in *; [|rewrite <- IH; destruct (index_where _ _); auto]. cbn [fst snd]. rewrite IH. auto.
Qed.
(** Codes mean the species of the occupancy; they are given whenever the occupancy is, by the subspace and the processor alike. *)
Theorem C108_codes allowed str mapping : distinct_species allowed ->
  processor_occupancy allowed str mapping = encoded_from_structure allowed str mapping /\
  forall codes, encoded_from_structure allowed str mapping = Some codes <->
    exists occu, occupancy_from_structure allowed str mapping = Some occu /\ length codes = length allowed /\ forall i sp, nth_error occu i = Some sp <-> means allowed codes i sp.
Proof.
  intros D. split; [apply processor_same|]. intros codes. unfold encoded_from_structure, occupancy_from_structure. rewrite opt_map_iff, numbered_length. split.
  - intros (L & H). destruct (opt_map (site_specie str mapping) (numbered allowed)) as [occu|] eqn:E.
    + exists occu. split; auto. split; auto. apply opt_map_iff in E as (Lo & Ho). rewrite numbered_length in Lo. intros i sp. split.
      * intros Hi. assert (Hl : i < length allowed) by (rewrite <- Lo; apply nth_error_Some; congruence). destruct (nth_error allowed i) as [sps|] eqn:Ea; [|apply nth_error_None in Ea; lia].
        destruct (nth_error codes i) as [c|] eqn:Ec; [|apply nth_error_None in Ec; lia]. exists sps, c. split; auto. split; auto.
        specialize (H i (i, sps) c). specialize (Ho i (i, sps) sp). rewrite numbered_nth, Ea in H, Ho. specialize (H eq_refl Ec). specialize (Ho eq_refl Hi). unfold site_code in H. rewrite Ho in H. apply index_nth. auto.
      * intros (sps & c & Ea & Ec & Es). destruct (nth_error occu i) as [sp'|] eqn:Eo; [|apply nth_error_None in Eo; rewrite Lo in Eo; apply nth_error_None in Eo; congruence].
        specialize (H i (i, sps) c). specialize (Ho i (i, sps) sp'). rewrite numbered_nth, Ea in H, Ho. specialize (H eq_refl Ec). specialize (Ho eq_refl Eo). unfold site_code in H. rewrite Ho in H. apply index_nth in H. cbn [snd] in H. congruence.
    + exfalso. apply opt_map_none in E as ([k sps] & Hin & E). apply In_nth_error in Hin as (i & Hin). pose proof Hin as Hin'. rewrite numbered_nth in Hin. destruct (nth_error allowed i) eqn:Ea; [|discriminate].
      destruct (nth_error codes i) as [c|] eqn:Ec; [|apply nth_error_None in Ec; rewrite L in Ec; apply nth_error_None in Ec; congruence]. specialize (H i _ c Hin' Ec). unfold site_code in H. rewrite E in H. discriminate.
  - intros (occu & E & L & H). split; auto. intros i [k sps] c Hi Hc. pose proof Hi as Hi'. rewrite numbered_nth in Hi. destruct (nth_error allowed i) as [sps'|] eqn:Ea; [|discriminate]. injection Hi as <- ->.
    apply opt_map_iff in E as (Lo & Ho). rewrite numbered_length in Lo. destruct (nth_error occu i) as [sp|] eqn:Eo; [|apply nth_error_None in Eo; rewrite Lo in Eo; apply nth_error_None in Eo; congruence].
    pose proof (Ho i _ sp Hi' Eo) as Hs. unfold site_code. rewrite Hs. cbn [option_bind snd]. apply H in Eo as (sps2 & c2 & A1 & A2 & A3). rewrite Ea in A1. injection A1 as <-. rewrite Hc in A2. injection A2 as <-.
    apply index_unique; auto. unfold distinct_species in D. rewrite Forall_forall in D. apply D. apply (nth_error_In _ i). auto.
Qed.
Lemma holds_perm s s' i sp : Permutation s s' -> holds s i sp -> holds s' i sp.
Proof. intros P [H|(H & E)]; [left; apply (Permutation_in _ P); auto|]. right. split; auto. intros sp' X. apply (H sp'). apply (Permutation_in _ (Permutation_sym P)). auto. Qed.
Lemma spec_at_perm str mapping str' mapping' i : length str = length mapping -> NoDup mapping -> length str' = length mapping' -> Permutation (combine mapping str) (combine mapping' str') -> spec_at str mapping i = spec_at str' mapping' i.
Proof.
  intros HL HN HL' P. assert (HN' : NoDup mapping'). { rewrite <- (map_fst_combine (l := mapping') (m := str')) by auto. eapply Permutation_NoDup; [apply Permutation_map; exact P|]. rewrite map_fst_combine; auto. }
  destruct (spec_at_total HL i) as (sp & E). rewrite E. symmetry. apply (spec_at_iff HL' HN'). eapply holds_perm; [exact P|]. apply (spec_at_iff HL HN). auto.
Qed.
Lemma encoded_perm allowed str mapping str' mapping' : length str = length mapping -> NoDup mapping -> length str' = length mapping' -> Permutation (combine mapping str) (combine mapping' str') ->
  occupancy_from_structure allowed str mapping = occupancy_from_structure allowed str' mapping' /\ encoded_from_structure allowed str mapping = encoded_from_structure allowed str' mapping'.
Proof.
  intros HL HN HL' P. assert (X : forall p, site_specie str mapping p = site_specie str' mapping' p) by (intros [i sps]; unfold site_specie; cbn [fst snd]; rewrite (spec_at_perm i HL HN HL' P); auto).
  split; apply opt_map_ext; intros p _; unfold site_code; rewrite ?X; auto.
Qed.
(** The order in which the structure lists its sites does not matter, and correlations are scaled by the number of cells when they are not normalised. *)
Theorem C108_order evaluate terms size normalized allowed str mapping str' mapping' : length str = length mapping -> NoDup mapping -> length str' = length mapping' -> Permutation (combine mapping str) (combine mapping' str') ->
  occupancy_from_structure allowed str mapping = occupancy_from_structure allowed str' mapping' /\ refine_structure allowed str mapping = refine_structure allowed str' mapping' /\
  corr_from_structure evaluate terms size normalized allowed str mapping = corr_from_structure evaluate terms size normalized allowed str' mapping'.
Proof.
  intros HL HN HL' P. destruct (encoded_perm allowed HL HN HL' P) as (A & B). split; auto. unfold refine_structure, corr_from_structure. rewrite A, B. auto.
Qed.
Theorem C108_scale evaluate terms size allowed str mapping : (0 < size)%nat ->
  corr_from_structure evaluate terms size false allowed str mapping = option_map (map (fun x => (x * Qc_of_nat size)%Qc)) (corr_from_structure evaluate terms size true allowed str mapping) /\
  forall codes, encoded_from_structure allowed str mapping = Some codes ->
    corr_from_structure evaluate terms size false allowed str mapping = Some (map (fun x => (x * Qc_of_nat size)%Qc) (evaluate codes) ++ concat (map (fun t => t codes) terms)).
Proof.
  intros Hs. assert (Z : Qc_of_nat size <> 0%Qc) by (apply Qc_of_nat_nz; lia).
  unfold corr_from_structure. split; [destruct (encoded_from_structure _ _ _); auto|]. intros codes ->. cbn [option_bind]. f_equal. rewrite map_app. f_equal. rewrite concat_map, map_map. f_equal. apply map_ext. intros t. rewrite map_map. rewrite <- (map_id (t codes)) at 2. apply map_ext. intros x. field. auto.
Qed.
Lemma filter_numbered (f : specie -> bool) occu i sp : In (i, sp) (filter (fun p => f (snd p)) (numbered occu)) <-> nth_error occu i = Some sp /\ f sp = true.
Proof.
  rewrite filter_In. cbn [snd]. split; intros (A & B); split; auto.
  - apply In_nth_error in A as (k & A). rewrite numbered_nth in A. destruct (nth_error occu k) eqn:E; [|discriminate]. injection A as -> ->. auto.
  - apply (nth_error_In _ i). rewrite numbered_nth, A. auto.
Qed.
Lemma filter_numbered_one (f : specie -> bool) occu : one_each (filter (fun p => f (snd p)) (numbered occu)).
Proof.
  unfold one_each, numbered. generalize 0. induction occu as [|x occu IH]; intros k; cbn [length seq combine filter map]; [constructor|]. destruct (f (snd (k, x))); auto. cbn [map fst]. constructor; auto.
  intros H. apply in_map_iff in H as ([j y] & E & H). apply filter_In in H as (H & _). apply in_combine_l in H. apply in_seq in H. cbn in E. lia.
Qed.
(** A structure that keeps the sites of an allowed occupancy, without sites that are [Vacancy()], gives the occupancy back. *)
Lemma kept_back allowed occu (f : specie -> bool) s : length occu = length allowed -> (forall i sps sp, nth_error allowed i = Some sps -> nth_error occu i = Some sp -> In sp sps) ->
  (forall sp, In sp occu -> f sp = false -> sp = Vacancy 0) -> Permutation (filter (fun p => f (snd p)) (numbered occu)) s -> occupancy_from_structure allowed (map snd s) (map fst s) = Some occu.
Proof.
  intros L Ha Hf P. assert (N : NoDup (map fst s)) by (eapply Permutation_NoDup; [apply Permutation_map; exact P|apply filter_numbered_one]).
  assert (HL : length (map snd s) = length (map fst s)) by (rewrite !map_length; auto). apply (proj1 (C108_occupancy allowed HL N)). split; auto. intros i sps sp H1 H2. split; [eauto|]. rewrite combine_maps. destruct (f sp) eqn:E.
  - left. apply (Permutation_in _ P). apply filter_numbered. auto.
  - right. split; [|apply Hf; auto; apply (nth_error_In _ i); auto]. intros sp' X. apply (Permutation_in _ (Permutation_sym P)) in X. apply filter_numbered in X as (X1 & X2). congruence.
Qed.
Lemma decode_ok allowed codes : codes_ok allowed codes -> exists occu, decode_occupancy allowed codes = Some occu /\ length occu = length allowed /\ (forall i sp, nth_error occu i = Some sp <-> means allowed codes i sp).
Proof.
  intros H. unfold decode_occupancy. induction H as [|sps c allowed codes Hc H IH]; cbn [combine opt_map].
  - exists []. split; auto. split; auto. intros [|i] sp; split; try discriminate; intros (a & b & X & _); discriminate.
  - destruct IH as (occu & -> & L & IH). cbn [fst snd]. destruct (nth_error sps c) as [sp0|] eqn:E; [|apply nth_error_None in E; lia]. exists (sp0 :: occu). split; auto. split; [cbn; lia|]. intros [|i] sp.
    + unfold means. cbn [nth_error]. split; [intros [= <-]; eauto|]. intros (a & b & [= <-] & [= <-] & X). congruence.
    + cbn [nth_error]. rewrite IH. reflexivity.
Qed.
Lemma codes_length allowed codes : codes_ok allowed codes -> length codes = length allowed.
Proof. intros H. induction H; cbn; auto. Qed.
(** The structure made from any valid codes, its sites in any order, gives back the codes. *)
Theorem C108_round_trip allowed codes : distinct_species allowed -> codes_ok allowed codes ->
  exists kept, structure_from_occupancy allowed codes = Some kept /\ (forall i sp, In (i, sp) kept <-> means allowed codes i sp /\ sp <> Vacancy 0) /\
    forall s, Permutation kept s -> processor_occupancy allowed (map snd s) (map fst s) = Some codes.
Proof.
  intros D H. destruct (decode_ok H) as (occu & E & L & M). unfold structure_from_occupancy. rewrite E. cbn [option_bind]. eexists. split; [reflexivity|]. split.
  - intros i sp. rewrite (filter_numbered (fun sp => negb (specie_eqb sp (Vacancy 0)))), M. destruct (specie_eqb_spec sp (Vacancy 0)); cbn; intuition congruence.
  - intros s P. rewrite processor_same. apply (C108_codes (map snd s) (map fst s) D). exists occu. split; [|split; [apply codes_length; auto|auto]].
    apply (kept_back (f := fun sp => negb (specie_eqb sp (Vacancy 0)))); auto.
    + intros i sps sp H1 H2. apply M in H2 as (a & c & A1 & _ & A3). rewrite H1 in A1. injection A1 as <-. apply (nth_error_In _ c). auto.
    + intros sp _ X. destruct (specie_eqb_spec sp (Vacancy 0)); [auto|discriminate].
Qed.
(** Sampled structures give back the sampled occupancies that the indices select, of all walkers in order or walker by walker. *)
Theorem C108_sampled allowed samples indices : distinct_species allowed -> (forall walkers codes, In walkers samples -> In codes walkers -> codes_ok allowed codes) ->
  ((forall i, In i indices -> i < length (concat samples)) -> exists structures, sampled_structures allowed samples indices = Some structures /\ length structures = length indices /\
     forall k i s codes, nth_error indices k = Some i -> nth_error structures k = Some s -> nth_error (concat samples) i = Some codes -> processor_occupancy allowed (map snd s) (map fst s) = Some codes) /\
  ((forall i, In i indices -> i < length samples) -> exists structures, sampled_structures_by_walker allowed samples indices = Some structures /\ length structures = length indices /\
     forall k i ss walkers w s codes, nth_error indices k = Some i -> nth_error structures k = Some ss -> nth_error samples i = Some walkers ->
       nth_error ss w = Some s -> nth_error walkers w = Some codes -> processor_occupancy allowed (map snd s) (map fst s) = Some codes).
Proof.
  intros D V. assert (Q : forall codes s, codes_ok allowed codes -> structure_from_occupancy allowed codes = Some s -> processor_occupancy allowed (map snd s) (map fst s) = Some codes).
  { intros codes s Hc E. destruct (C108_round_trip D Hc) as (kept & E2 & _ & R). rewrite E in E2. injection E2 as <-. apply R. auto. }
  assert (T : forall codes, codes_ok allowed codes -> structure_from_occupancy allowed codes <> None) by (intros codes Hc; destruct (C108_round_trip D Hc) as (kept & -> & _); discriminate).
  split; intros Hi.
  - unfold sampled_structures. destruct (@opt_map_all _ _ (nth_error (concat samples)) indices) as (occus & Eo); [intros i Hin; apply nth_error_Some; auto|]. rewrite Eo. cbn [option_bind].
    pose proof (proj1 (opt_map_iff _ _ _) Eo) as (Lo & Ho). assert (VO : forall codes, In codes occus -> codes_ok allowed codes).
    { intros codes Hin. apply In_nth_error in Hin as (k & Hk). destruct (nth_error indices k) as [i|] eqn:Ei; [|apply nth_error_None in Ei; rewrite <- Lo in Ei; apply nth_error_None in Ei; congruence].
      specialize (Ho k i codes Ei Hk). apply nth_error_In in Ho. apply in_concat in Ho as (w & H1 & H2). eauto. }
    destruct (@opt_map_all _ _ (structure_from_occupancy allowed) occus) as (ss & Es); [auto|]. rewrite Es. exists ss. split; auto. pose proof (proj1 (opt_map_iff _ _ _) Es) as (Ls & Hs). split; [lia|].
    intros k i s codes E1 E2 E3. destruct (nth_error occus k) as [c|] eqn:Ec; [|apply nth_error_None in Ec; rewrite <- Ls in Ec; apply nth_error_None in Ec; congruence].
    pose proof (Ho k i c E1 Ec) as X. assert (c = codes) as -> by congruence. apply Q; [apply VO; apply (nth_error_In _ k); auto|]. apply (Hs k); auto.
  - unfold sampled_structures_by_walker. destruct (@opt_map_all _ _ (nth_error samples) indices) as (occus & Eo); [intros i Hin; apply nth_error_Some; auto|]. rewrite Eo. cbn [option_bind].
    pose proof (proj1 (opt_map_iff _ _ _) Eo) as (Lo & Ho). assert (VO : forall ws codes, In ws occus -> In codes ws -> codes_ok allowed codes).
    { intros ws codes Hin Hc. apply In_nth_error in Hin as (k & Hk). destruct (nth_error indices k) as [i|] eqn:Ei; [|apply nth_error_None in Ei; rewrite <- Lo in Ei; apply nth_error_None in Ei; congruence].
      specialize (Ho k i ws Ei Hk). apply nth_error_In in Ho. eauto. }
    destruct (@opt_map_all _ _ (opt_map (structure_from_occupancy allowed)) occus) as (ss & Es).
    { intros ws Hin E. apply opt_map_none in E as (codes & H1 & H2). apply (T codes); eauto. }
    rewrite Es. exists ss. split; auto. pose proof (proj1 (opt_map_iff _ _ _) Es) as (Ls & Hs). split; [lia|].
    intros k i sw walkers w s codes E1 E2 E3 E4 E5. destruct (nth_error occus k) as [c|] eqn:Ec; [|apply nth_error_None in Ec; rewrite <- Ls in Ec; apply nth_error_None in Ec; congruence].
    pose proof (Ho k i c E1 Ec) as X. assert (c = walkers) as -> by congruence. pose proof (Hs k walkers sw Ec E2) as Y. apply opt_map_iff in Y as (_ & Y). apply Q; [apply (VO walkers); [apply (nth_error_In _ k); auto|apply (nth_error_In _ w); auto]|]. apply (Y w); auto.
Qed.
(** Refining keeps the occupancy and refining again changes nothing.  Missing: vacancies other than [Vacancy()] (refuted below). *)
Theorem C110_refine_partial allowed str mapping refined : (forall sps l, In sps allowed -> In (Vacancy l) sps -> l = 0) -> length str = length mapping -> NoDup mapping ->
  refine_structure allowed str mapping = Some refined -> forall s, Permutation refined s ->
  occupancy_from_structure allowed (map snd s) (map fst s) = occupancy_from_structure allowed str mapping /\ refine_structure allowed (map snd s) (map fst s) = Some refined.
Proof.
  intros HV HL HN E s P. unfold refine_structure in E. destruct (occupancy_from_structure allowed str mapping) as [occu|] eqn:Eo; [|discriminate]. cbn [option_bind] in E. injection E as <-.
  pose proof (proj1 (proj1 (C108_occupancy allowed HL HN) occu) Eo) as (L & H). assert (K : occupancy_from_structure allowed (map snd s) (map fst s) = Some occu).
  { apply (kept_back (f := fun sp => negb (is_vacancy sp))); auto; [intros i sps sp H1 H2; apply (H i); auto|]. intros sp Hin X. destruct sp as [|l]; [discriminate|]. f_equal. apply In_nth_error in Hin as (i & Hi).
    destruct (nth_error allowed i) as [sps|] eqn:Ea; [|apply nth_error_None in Ea; rewrite <- L in Ea; apply nth_error_None in Ea; congruence]. apply (HV sps); [apply (nth_error_In _ i); auto|]. apply (H i); auto. }
  split; auto. unfold refine_structure. rewrite K. auto.
Qed.
(** A charged vacancy is a site of a structure, but refining removes it, and the refined structure does not match any more. *)
Theorem C110_refine_refuted : let allowed := [[Atom 0; Vacancy 1]; [Atom 0; Vacancy 1]] in let str := [Atom 0; Vacancy 1] in let mapping := [0; 1] in
  distinct_species allowed /\ NoDup mapping /\ occupancy_from_structure allowed str mapping = Some str /\
  structure_from_occupancy allowed [0; 1] = Some [(0, Atom 0); (1, Vacancy 1)] /\
  exists refined, refine_structure allowed str mapping = Some refined /\ occupancy_from_structure allowed (map snd refined) (map fst refined) = None.
Proof.
  cbv zeta. split; [repeat constructor; cbn; intuition congruence|]. split; [repeat constructor; cbn; intuition congruence|]. repeat split; auto. eexists. split; reflexivity.
Qed.

(** Non-vacuity: four sites; two may be vacant; the structure lists three atoms in another order. *)
Definition ex_allowed := [[Atom 0; Atom 1]; [Atom 0; Vacancy 0]; [Atom 2]; [Atom 0; Atom 1; Vacancy 0]].
Example C108_case : distinct_species ex_allowed /\ codes_ok ex_allowed [1; 1; 0; 0] /\
  structure_from_occupancy ex_allowed [1; 1; 0; 0] = Some [(0, Atom 1); (2, Atom 2); (3, Atom 0)] /\
  processor_occupancy ex_allowed [Atom 2; Atom 0; Atom 1] [2; 3; 0] = Some [1; 1; 0; 0] /\
  occupancy_from_structure ex_allowed [Atom 2; Atom 0] [2; 3] = None /\
  refine_structure ex_allowed [Atom 2; Atom 0; Atom 1] [2; 3; 0] = Some [(0, Atom 1); (2, Atom 2); (3, Atom 0)].
Proof. split; [repeat constructor; cbn; intuition congruence|]. split; [repeat constructor; cbn; lia|]. repeat split. Qed.
Print Assumptions C108_occupancy.
Print Assumptions C108_codes.
Print Assumptions C108_order.
Print Assumptions C108_scale.
Print Assumptions C108_round_trip.
Print Assumptions C108_sampled.
Print Assumptions C110_refine_partial.
Print Assumptions C110_refine_refuted.
