(** Properties C144 and C145: the sublattices of a processor come from the compositions of its sites. *)
From Verif Require Import ProcessorSpaces LibProofs DomainProofs SublatticeProofs OccuUtilsSpec EncodingProofs.
From Coq Require Import Lia Permutation Sorted.
Set Implicit Arguments.
Unset Strict Implicit.
Local Open Scope nat_scope.

(** ** Specification *)
(** The order of species, total. *)
Record ordered (leb : species -> species -> bool) : Prop := {
  or_total : forall a b, leb a b = true \/ leb b a = true;
  or_trans : forall a b c, leb a b = true -> leb b c = true -> leb a c = true;
  or_anti : forall a b, leb a b = true -> leb b a = true -> a = b
}.
(** Compositions of sites: distinct species with positive amounts that add up to one, or to less when vacancies are not written. *)
Record site_ok (c : composition) : Prop := {
  so_keys : NoDup (map fst c);
  so_pos : forall sp x, In (sp, x) c -> (0 < x)%Qc;
  so_total : num_atoms c = 1%Qc \/ (num_atoms c < Qc_frac 99 100)%Qc /\ ~ In Vac (map fst c);
  so_few : length c < 99
}.
(** Species that may be at a site, and with which measure. *)
Definition may_have (c : composition) (x : species) : Prop := In x (map fst c) \/ x = Vac /\ (num_atoms c < Qc_frac 99 100)%Qc.
Definition has_measure (c : composition) (x : species) (m : Qc) : Prop :=
  In (x, m) c \/ x = Vac /\ (num_atoms c < Qc_frac 99 100)%Qc /\ m = (1 - num_atoms c)%Qc.
(** Sites that may have the same species have the same composition, written in any order. *)
Definition sites_agree (comps : list composition) : Prop :=
  forall c c', In c comps -> In c' comps -> (forall x, may_have c x <-> may_have c' x) -> Permutation c c'.
(** Hashes of equal compositions are equal; iteration of a set gives all its elements once. *)
Definition fair_hash (h : composition -> nat) : Prop := forall c c', Permutation c c' -> h c = h c'.
Definition fair_iter (iter : list space_obj -> list space_obj) : Prop := forall l, Permutation (iter l) l.

(** ** Sorting *)
Lemma sorted_unique {A} (R : A -> A -> Prop) l : forall l', StronglySorted R l -> StronglySorted R l' -> Permutation l l' ->
  (forall a b, In a l -> In b l -> R a b -> R b a -> a = b) -> l = l'.
Proof.
  induction l as [|a l IH]; intros l' S1 S2 P H; [apply Permutation_nil in P; auto|].
  destruct l' as [|b l']; [apply Permutation_sym, Permutation_nil in P; discriminate|].
  inversion S1 as [|? ? S1' F1]; inversion S2 as [|? ? S2' F2]; subst. rewrite Forall_forall in F1, F2.
  assert (E : a = b).
  { assert (A1 : In a (b :: l')) by (eapply Permutation_in; [exact P|left; auto]). assert (B1 : In b (a :: l)) by (eapply Permutation_in; [apply Permutation_sym; exact P|left; auto]).
    destruct A1 as [A1|A1]; [auto|]. destruct B1 as [B1|B1]; [auto|]. apply H; auto; [left; auto|right; auto]. }
  subst b. f_equal. apply IH; auto; [eapply Permutation_cons_inv; eauto|]. intros x y Hx Hy. apply H; right; auto.
Qed.
Lemma sort_by_sorted {A} (leb : A -> A -> bool) l : (forall a b, leb a b = true \/ leb b a = true) -> (forall a b c, leb a b = true -> leb b c = true -> leb a c = true) ->
  StronglySorted (fun a b => leb a b = true) (sort_by leb l).
Proof.
  intros T Tr. induction l as [|x l IH]; cbn [sort_by fold_right]; [constructor|]. fold (sort_by leb l). revert IH. generalize (sort_by leb l) as s. induction 1 as [|z s Hs IH Hz]; cbn [insert_by]; [repeat constructor|].
  destruct (leb x z) eqn:E; [constructor; [constructor; auto|]; constructor; auto; rewrite Forall_forall in *; intros y Hy; eapply Tr; eauto|].
  constructor; auto. rewrite Forall_forall in *. intros y Hy. apply insert_by_In in Hy. destruct Hy as [->|Hy]; auto. destruct (T x z); congruence.
Qed.
Lemma sorted_map {A B} (f : A -> B) (R : B -> B -> Prop) l : StronglySorted (fun a b => R (f a) (f b)) l -> StronglySorted R (map f l).
Proof. induction 1 as [|a l S IH F]; cbn [map]; constructor; auto. apply Forall_map. auto. Qed.

Section Lex.
Context (leb : species -> species -> bool).
Hypothesis O : ordered leb.
Definition sle (a b : list species) : bool := negb (sps_ltb leb b a).
Lemma sle_cons x a y b : sle (x :: a) (y :: b) = if sp_eqb y x then sle a b else leb x y.
Proof. unfold sle. cbn [sps_ltb]. destruct (sp_eqb y x); auto. apply Bool.negb_involutive. Qed.
Lemma sle_nil b : sle [] b = true.
Proof. destruct b; reflexivity. Qed.
Lemma sle_total a : forall b, sle a b = true \/ sle b a = true.
Proof.
  induction a as [|x a IH]; intros [|y b]; try (left; apply sle_nil); [right; apply sle_nil|]. rewrite !sle_cons. destruct (sp_eqb_spec y x) as [->|N].
  - destruct (sp_eqb_spec x x); [|congruence]. apply IH.
  - destruct (sp_eqb_spec x y); [congruence|]. apply (or_total O).
Qed.
Lemma sle_trans a : forall b c, sle a b = true -> sle b c = true -> sle a c = true.
Proof.
  induction a as [|x a IH]; intros [|y b] [|z c] H1 H2; try apply sle_nil; try discriminate. rewrite sle_cons in *.
  destruct (sp_eqb_spec y x) as [E1|N1].
  - subst y. destruct (sp_eqb_spec z x) as [E2|N2]; [eapply IH; eauto|auto].
  - destruct (sp_eqb_spec z y) as [E2|N2].
    + subst z. destruct (sp_eqb_spec y x); [congruence|auto].
    + destruct (sp_eqb_spec z x) as [E3|N3]; [|eapply (or_trans O); eauto]. subst z. exfalso. apply N1. apply (or_anti O); auto.
Qed.
Lemma sle_anti a : forall b, sle a b = true -> sle b a = true -> a = b.
Proof.
  induction a as [|x a IH]; intros [|y b] H1 H2; auto; try discriminate. rewrite sle_cons in *. destruct (sp_eqb_spec y x) as [E|N].
  - subst y. destruct (sp_eqb_spec x x); [f_equal; auto|congruence].
  - destruct (sp_eqb_spec x y); [congruence|]. exfalso. apply N. apply (or_anti O); auto.
Qed.
End Lex.

(** ** Site spaces *)
Lemma keys_sorted (leb : species -> species -> bool) (c : list (species * Qc)) : map fst (sort_by (fun p q => leb (fst p) (fst q)) c) = sort_by leb (map fst c).
Proof.
  induction c as [|p c IH]; [reflexivity|]. cbn [map sort_by fold_right]. fold (sort_by (fun p q : species * Qc => leb (fst p) (fst q)) c). fold (sort_by leb (map fst c)). rewrite <- IH. generalize (sort_by (fun p q : species * Qc => leb (fst p) (fst q)) c) as s.
  induction s as [|q s IHs]; [reflexivity|]. cbn [insert_by map]. destruct (leb (fst p) (fst q)); cbn [map]; [reflexivity|]. rewrite IHs. reflexivity.
Qed.
Lemma total_bounds c : site_ok c -> (0 <= num_atoms c)%Qc /\ (num_atoms c <= 1)%Qc.
Proof.
  intros [K P T F]. split.
  - unfold num_atoms. apply qsum_nonneg. intros x Hx. apply in_map_iff in Hx as ([sp y] & <- & Hy). apply Qclt_le_weak. eapply P. exact Hy.
  - destruct T as [-> |[T _]]; [apply Qcle_refl|]. apply Qclt_le_weak. eapply Qclt_trans; [exact T|reflexivity].
Qed.
Lemma mk_some leb c : site_ok c -> mk_site_space leb c =
  Some (if Qcltb (num_atoms c) q099 then sort_by (fun p q => leb (fst p) (fst q)) c ++ [(Vac, (1 - num_atoms c)%Qc)] else sort_by (fun p q => leb (fst p) (fst q)) c).
Proof.
  intros K. destruct (total_bounds K) as [B0 B1]. unfold mk_site_space. destruct (Qcltb_spec (num_atoms c) 0) as [H|_]; [exfalso; apply (Qclt_not_le _ _ H); auto|].
  destruct (Qcltb_spec 1 (num_atoms c)) as [H|_]; [exfalso; apply (Qclt_not_le _ _ H); auto|]. cbn [orb].
  destruct (existsb (fun p => is_vac (fst p)) c && negb (Qceqb (num_atoms c) 1)) eqn:E; [|reflexivity]. exfalso. apply andb_true_iff in E as [E1 E2].
  apply existsb_exists in E1 as (p & Hp & Hv). destruct (so_total K) as [T|[_ T]]; [rewrite T in E2; destruct (Qceqb_spec 1 1); [discriminate|congruence]|].
  apply T. destruct p as [[n|] x]; [discriminate|]. change Vac with (fst (Vac, x)). apply in_map. auto.
Qed.
Lemma mk_species leb c s x : site_ok c -> mk_site_space leb c = Some s -> (In x (map fst s) <-> may_have c x).
Proof.
  intros K E. rewrite (mk_some leb K) in E. injection E as <-. unfold may_have. fold q099.
  assert (P : forall y, In y (map fst (sort_by (fun p q => leb (fst p) (fst q)) c)) <-> In y (map fst c)).
  { intros y. split; intros H; eapply Permutation_in; try exact H; apply Permutation_map; [apply Permutation_sym|]; apply sort_by_perm. }
  destruct (Qcltb_spec (num_atoms c) q099) as [H|H].
  - rewrite map_app, in_app_iff, P. cbn. intuition congruence.
  - rewrite P. intuition.
Qed.
Lemma mk_measure leb c s x m : site_ok c -> mk_site_space leb c = Some s -> (In (x, m) s <-> has_measure c x m).
Proof.
  intros K E. rewrite (mk_some leb K) in E. injection E as <-. unfold has_measure. fold q099.
  assert (P : forall y, In y (sort_by (fun p q => leb (fst p) (fst q)) c) <-> In y c).
  { intros y. split; intros H; eapply Permutation_in; try exact H; [apply Permutation_sym|]; apply sort_by_perm. }
  destruct (Qcltb_spec (num_atoms c) q099) as [H|H].
  - rewrite in_app_iff, P. cbn [In]. split; [intros [A|[A|[]]]|intros [A|(A & _ & B)]]; [auto|injection A as <- <-; auto|auto|subst; auto].
  - rewrite P. intuition.
Qed.
Lemma same_sorted leb (c c' : composition) : ordered leb -> NoDup (map fst c) -> Permutation c c' ->
  sort_by (fun p q => leb (fst p) (fst q)) c = sort_by (fun p q => leb (fst p) (fst q)) c'.
Proof.
  intros O N P. apply (sorted_unique (R := fun p q => leb (fst p) (fst q) = true)).
  - apply (sort_by_sorted (leb := fun p q : species * Qc => leb (fst p) (fst q))); intros; [apply (or_total O)|eapply (or_trans O); eauto].
  - apply (sort_by_sorted (leb := fun p q : species * Qc => leb (fst p) (fst q))); intros; [apply (or_total O)|eapply (or_trans O); eauto].
  - rewrite <- (sort_by_perm (fun p q => leb (fst p) (fst q)) c), P. apply sort_by_perm.
  - intros a b Ha Hb H1 H2. assert (E : fst a = fst b) by (apply (or_anti O); auto).
    assert (N' : NoDup (map fst (sort_by (fun p q => leb (fst p) (fst q)) c))) by (eapply Permutation_NoDup; [apply Permutation_map, sort_by_perm|auto]).
    clear - Ha Hb E N'. induction (sort_by (fun p q => leb (fst p) (fst q)) c) as [|z l IH]; [destruct Ha|]. cbn [map] in N'. inversion N' as [|? ? X Y]; subst. destruct Ha as [->|Ha], Hb as [->|Hb]; auto.
    + exfalso. apply X. rewrite E. apply in_map. auto.
    + exfalso. apply X. rewrite <- E. apply in_map. auto.
Qed.
Lemma mk_same leb c c' : ordered leb -> site_ok c -> site_ok c' -> Permutation c c' -> mk_site_space leb c = mk_site_space leb c'.
Proof.
  intros O K K' P. rewrite (mk_some leb K), (mk_some leb K'). rewrite (same_sorted O (so_keys K) P).
  replace (num_atoms c') with (num_atoms c) by (unfold num_atoms; apply qsum_perm, Permutation_map; auto). reflexivity.
Qed.
Lemma inv_pos x : (0 < x -> 0 < / x)%Qc.
Proof. intros H. unfold Qclt in *. cbn [this Qcinv Q2Qc] in *. apply (Qlt_le_trans _ (/ this x)); [apply Qinv_lt_0_compat; exact H|]. apply Qle_lteq. right. symmetry. apply Qred_correct. Qed.
(** Without measure the species are the same, in the same order. *)
Lemma uniform_species leb c s : site_ok c -> mk_site_space leb c = Some s -> exists u, uniform_site_space leb c = Some u /\ map fst u = map fst s.
Proof.
  intros K E. rewrite (mk_some leb K) in E. injection E as <-. unfold uniform_site_space. set (k := length c + if Qcltb (num_atoms c) q099 then 1 else 0).
  set (d := map (fun p => (fst p, (1 / Qc_of_nat k)%Qc)) c).
  assert (Ek : map fst d = map fst c) by (unfold d; rewrite map_map; apply map_ext; auto).
  assert (En : num_atoms d = (Qc_of_nat (length c) * (1 / Qc_of_nat k))%Qc) by (unfold num_atoms, d; rewrite map_map; cbn [snd]; apply qsum_const).
  assert (Tn : if Qcltb (num_atoms c) q099 then (num_atoms d < q099)%Qc else num_atoms d = 1%Qc).
  { rewrite En. unfold k. destruct (Qcltb_spec (num_atoms c) q099) as [H|H].
    - rewrite Nat.add_comm. change (1 + length c) with (S (length c)). assert (Hp : (0 < Qc_of_nat (S (length c)))%Qc) by (apply Qc_of_nat_pos; lia).
      replace (Qc_of_nat (length c) * (1 / Qc_of_nat (S (length c))))%Qc with (Qc_of_nat (length c) / Qc_of_nat (S (length c)))%Qc by (unfold Qcdiv; ring).
      apply Qcdiv_lt_iff; auto. rewrite Qc_of_nat_S in *.
      assert (H99 : (Qc_of_nat (length c) <= Qc_of_nat 98)%Qc) by (apply (Qc_of_Z_le (Z.of_nat (length c)) (Z.of_nat 98)); pose proof (so_few K); lia).
      set (x := Qc_of_nat (length c)) in *. clearbody x. unfold q099, Qc_frac. change (Qc_of_nat 98) with (Q2Qc (98#1)) in H99. qclra.
    - rewrite Nat.add_0_r. assert (length c <> 0). { intros Z. apply H. destruct c; [reflexivity|discriminate]. } unfold Qcdiv. rewrite Qcmult_1_l. apply Qcmult_inv_r. apply Qc_of_nat_nz; auto. }
  assert (D : site_ok d).
  { constructor.
    - rewrite Ek. apply (so_keys K).
    - intros sp x Hx. unfold d in Hx. apply in_map_iff in Hx as ([sp' y] & E & Hy). injection E as _ <-. assert (length c <> 0) by (destruct c; [destruct Hy|discriminate]).
      unfold Qcdiv. rewrite Qcmult_1_l. apply inv_pos. apply Qc_of_nat_pos. unfold k. lia.
    - rewrite Ek. destruct (Qcltb_spec (num_atoms c) q099) as [H|H]; [|left; auto]. right. split; [exact Tn|]. destruct (so_total K) as [T|[_ T]]; auto. exfalso. rewrite T in H. discriminate H.
    - unfold d. rewrite map_length. apply (so_few K). }
  rewrite (mk_some leb D). eexists. split; [reflexivity|].
  assert (B : Qcltb (num_atoms d) q099 = Qcltb (num_atoms c) q099).
  { destruct (Qcltb (num_atoms c) q099) eqn:Ec.
    - destruct (Qcltb_spec (num_atoms d) q099); congruence.
    - rewrite Tn. reflexivity. }
  rewrite B. destruct (Qcltb (num_atoms c) q099); rewrite ?map_app, !keys_sorted, Ek; reflexivity.
Qed.

Section Processor.
Context (leb : species -> species -> bool) (comps : list composition).
Hypothesis O : ordered leb.
Hypothesis K : Forall site_ok comps.
Hypothesis A : sites_agree comps.
Hypothesis NE : comps <> [].

Definition key (x : space_obj) : list species := map fst (snd x).
Definition obj (x : space_obj) : Prop := In (fst x) comps /\ mk_site_space leb (fst x) = Some (snd x).
Lemma ok_in c : In c comps -> site_ok c.
Proof. rewrite Forall_forall in K. apply K. Qed.
Lemma same_key x y : obj x -> obj y -> key x = key y -> Permutation (fst x) (fst y) /\ snd x = snd y.
Proof.
  intros [I1 E1] [I2 E2] Ek. assert (P : Permutation (fst x) (fst y)).
  { apply A; auto. intros z. rewrite <- (mk_species z (ok_in I1) E1), <- (mk_species z (ok_in I2) E2). unfold key in Ek. rewrite Ek. tauto. }
  split; auto. rewrite (mk_same O (ok_in I1) (ok_in I2) P), E2 in E1. injection E1 as <-. auto.
Qed.
Lemma objects : exists objs, site_objects leb comps = Some objs /\ forall x, In x objs <-> obj x.
Proof.
  unfold obj, site_objects. pose proof K as F. clear - F. induction F as [|c cs H F IH]; [exists []; split; auto; intros x; cbn; tauto|].
  destruct IH as (objs & E & IH). cbn [opt_map]. rewrite (mk_some leb H), E. cbn [option_bind]. eexists. split; [reflexivity|].
  intros [c1 s1]. cbn [In]. rewrite IH. cbn [fst snd]. split.
  - intros [E1|[I1 I2]]; [injection E1 as <- <-; split; [auto|apply (mk_some leb H)]|auto].
  - intros [[<-|I1] I2]; [left|auto]. rewrite (mk_some leb H) in I2. injection I2 as <-. reflexivity.
Qed.
Lemma allowed_list : exists al, allowed_species leb comps = Some al /\ Forall2 (fun c sps => exists s, mk_site_space leb c = Some s /\ sps = map fst s) comps al.
Proof.
  unfold allowed_species. pose proof K as F. clear - F. induction F as [|c cs H F IH]; [exists []; split; auto|]. destruct IH as (al & E & IH).
  destruct (uniform_species (leb := leb) H (mk_some leb H)) as (u & Eu & Ef). cbn [opt_map]. rewrite Eu. cbn [option_bind]. rewrite E. cbn [option_bind]. eexists. split; [reflexivity|]. constructor; auto.
  eexists. split; [apply (mk_some leb H)|auto].
Qed.
Lemma set_facts h xs : fair_hash h -> (forall x, In x xs -> obj x) -> forall acc, (forall x, In x acc -> obj x) -> NoDup (map key acc) ->
  let r := fold_left (fun l x => set_add h x l) xs acc in
  (forall x, In x r -> obj x) /\ NoDup (map key r) /\ forall x, In x acc \/ In x xs -> exists y, In y r /\ snd y = snd x.
Proof.
  intros FH. induction xs as [|x xs IH]; intros Hx acc HA N; cbn [fold_left].
  - split; auto. split; auto. intros y [Hy|[]]. exists y. auto.
  - set (acc' := set_add h x acc). assert (Ox : obj x) by (apply Hx; left; auto).
    assert (S : (forall z, In z acc' -> obj z) /\ NoDup (map key acc') /\ (forall z, In z acc -> In z acc') /\ exists y, In y acc' /\ snd y = snd x).
    { unfold acc', set_add. destruct (existsb (fun y => (h (fst y) =? h (fst x)) && site_space_eqb (snd y) (snd x)) acc) eqn:E.
      - apply existsb_exists in E as (y & Hy & E). apply andb_true_iff in E as [_ E]. split; auto. split; auto. split; auto. exists y. split; auto.
        destruct (HA _ Hy) as [I1 E1], Ox as [I2 E2]. pose proof (ok_in I1) as K1. pose proof (ok_in I2) as K2.
        assert (Q : forall c, site_ok c -> Forall (fun p => (0 < snd p)%Qc) c) by (intros c [? P ? ?]; apply Forall_forall; intros [sp q] Hq; eapply P; exact Hq).
        assert (T : forall c, site_ok c -> (num_atoms c < q099)%Qc \/ num_atoms c = 1%Qc) by (intros c [? ? [T|[T _]] ?]; auto).
        apply (eqb_constructed E1 E2); auto.
      - split; [|split; [|split]].
        + intros z Hz. apply in_app_iff in Hz as [Hz|[<-|[]]]; auto.
        + rewrite map_app. cbn [map]. apply (Permutation_NoDup (l := key x :: map key acc)); [rewrite Permutation_app_comm; reflexivity|]. constructor; auto.
          intros Hk. apply in_map_iff in Hk as (y & Ey & Hy). destruct (same_key (HA _ Hy) Ox Ey) as [P Es].
          rewrite <- Bool.not_true_iff_false in E. apply E. apply existsb_exists. exists y. split; auto. rewrite (FH _ _ P), Nat.eqb_refl, Es. cbn [andb].
          apply eqb_prefix. exists []. left. rewrite app_nil_r. auto.
        + intros z Hz. apply in_app_iff. auto.
        + exists x. split; auto. apply in_app_iff. right. left. auto. }
    destruct S as (S1 & S2 & S3 & y & Hy & Ey). destruct (IH ltac:(intros z Hz; apply Hx; right; auto) acc' S1 S2) as (R1 & R2 & R3). split; [exact R1|]. split; [exact R2|].
    intros z [Hz|[<-|Hz]]; [apply R3; auto| |apply R3; auto]. destruct (R3 y (or_introl Hy)) as (w & Hw & Ew). exists w. split; auto. congruence.
Qed.
(** The site spaces: those of the sites, each once, in the order of their species. *)
Lemma spaces_facts h iter : fair_hash h -> fair_iter iter -> exists l, unique_spaces leb h iter comps = Some l /\
  (forall s, In s l <-> exists c, In c comps /\ mk_site_space leb c = Some s) /\ NoDup (map (map fst) l) /\ StronglySorted (fun a b => sle leb (map fst a) (map fst b) = true) l.
Proof.
  intros FH FI. destruct objects as (objs & E & Ho). unfold unique_spaces. rewrite E. cbn [option_bind]. eexists. split; [reflexivity|].
  destruct (@set_facts h objs FH (fun x Hx => proj1 (Ho x) Hx) [] (fun x (F : In x []) => match F with end) (NoDup_nil _)) as (R1 & R2 & R3). fold (py_set h objs) in R1, R2, R3.
  set (l := sort_by (fun a b => negb (sps_ltb leb (map fst (snd b)) (map fst (snd a)))) (iter (py_set h objs))).
  assert (P : Permutation (py_set h objs) l) by (unfold l; rewrite <- sort_by_perm; symmetry; apply FI).
  split; [|split].
  - intros s. split.
    + intros Hs. apply in_map_iff in Hs as (x & <- & Hx). apply (Permutation_in _ (Permutation_sym P)) in Hx. destruct (R1 _ Hx) as [I1 I2]. eauto.
    + intros (c & Hc & Es). destruct (R3 (c, s)) as (y & Hy & Ey); [right; apply Ho; split; auto|]. cbn in Ey. subst s. apply in_map. apply (Permutation_in _ P). auto.
  - rewrite map_map. eapply Permutation_NoDup; [apply Permutation_map; exact P|exact R2].
  - apply (sorted_map (f := @snd composition site_space)). apply (sort_by_sorted (leb := fun a b : space_obj => sle leb (map fst (snd a)) (map fst (snd b)))); intros; [apply sle_total; auto|eapply sle_trans; eauto].
Qed.
(** The sublattices have every site exactly once, and the species and measure of a sublattice are those of each of its sites. *)
Theorem C144_partition h iter : fair_hash h -> fair_iter iter -> exists sls, proc_sublattices leb h iter comps = Some sls /\
  layout sls (length comps) /\ NoDup (map (fun sl => map fst (sl_space sl)) sls) /\
  forall sl s, In sl sls -> In s (sl_sites sl) -> exists c, nth_error comps s = Some c /\ forall x m, In (x, m) (sl_space sl) <-> has_measure c x m.
Proof.
  intros FH FI. destruct (spaces_facts FH FI) as (l & E & L1 & L2 & L3). destruct allowed_list as (al & Ea & F). unfold proc_sublattices. rewrite E, Ea. cbn [option_bind]. eexists. split; [reflexivity|].
  assert (La : length al = length comps) by (symmetry; eapply Forall2_length; eauto).
  assert (H1 : al <> []) by (intros ->; inversion F; congruence).
  assert (H3 : forall sps, In sps al -> In sps (map (map fst) l)).
  { intros sps Hs. clear - F Hs L1. assert (Q : exists c s, In c comps /\ mk_site_space leb c = Some s /\ sps = map fst s).
    { clear L1. induction F as [|c a cs al (s & E & Ea) F IH]; [destruct Hs|]. destruct Hs as [->|Hs]; [exists c, s; split; [left|]; auto|]. destruct (IH Hs) as (c' & s' & I & R). exists c', s'. split; [right|]; auto. }
    destruct Q as (c & s & I & E & ->). apply in_map. apply L1. eauto. }
  assert (H4 : forall sp : site_space, In sp l -> sp <> []).
  { intros sp Hs ->. apply L1 in Hs as (c & Hc & Ec). pose proof (ok_in Hc) as Kc. rewrite (mk_some leb Kc) in Ec. injection Ec as Ec. destruct (Qcltb_spec (num_atoms c) q099) as [H|H]; [apply app_eq_nil in Ec as [_ Ec]; discriminate|].
    assert (c = []) as -> by (pose proof (sort_by_perm (fun p q : species * Qc => leb (fst p) (fst q)) c) as P; rewrite Ec in P; apply Permutation_sym, Permutation_nil in P; auto). apply H. reflexivity. }
  rewrite <- La. destruct (default_layout H1 L2 H3 H4) as [D1 D2]. split; [exact D1|]. split.
  - unfold get_sublattices. rewrite map_map. erewrite map_ext; [exact L2|]. intros sp. cbn. unfold mk_sublattice. destruct (_ <=? _); reflexivity.
  - intros sl s Hl Hs. pose proof (D2 _ _ Hl Hs) as Hn. assert (Q : exists c sp, nth_error comps s = Some c /\ mk_site_space leb c = Some sp /\ sl_species sl = map fst sp).
    { clear - F Hn. revert s Hn. induction F as [|c a cs al (s & E & Ea) F IH]; intros [|i] Hn; cbn in Hn; try discriminate; [|apply IH in Hn; exact Hn]. injection Hn as <-. exists c, s. auto. }
    destruct Q as (c & sp & Hc & Ec & Es). exists c. split; auto. assert (Ic : In c comps) by (eapply nth_error_In; eauto).
    assert (El : In (sl_space sl) l). { unfold get_sublattices in Hl. apply in_map_iff in Hl as (sp' & <- & Hsp). unfold mk_sublattice. destruct (_ <=? _); exact Hsp. }
    apply L1 in El as (c' & Hc' & Ec'). destruct (@same_key (c', sl_space sl) (c, sp)) as [_ Eq]; [split; auto|split; auto|exact Es|]. cbn in Eq. rewrite Eq. intros x m. apply (mk_measure x m (ok_in Ic) Ec).
Qed.
(** They are the same, in the same order, for all hash functions and orders of iteration of sets. *)
Theorem C144_order h iter h' iter' : fair_hash h -> fair_iter iter -> fair_hash h' -> fair_iter iter' ->
  proc_sublattices leb h iter comps = proc_sublattices leb h' iter' comps.
Proof.
  intros FH FI FH' FI'. destruct (spaces_facts FH FI) as (l & E & L1 & L2 & L3). destruct (spaces_facts FH' FI') as (l' & E' & L1' & L2' & L3').
  unfold proc_sublattices. rewrite E, E'. cbn [option_bind]. assert (Eq : l = l'); [|rewrite Eq; reflexivity].
  apply (sorted_unique (R := fun a b => sle leb (map fst a) (map fst b) = true)); auto.
  - apply NoDup_Permutation; [eapply NoDup_map_inv; exact L2|eapply NoDup_map_inv; exact L2'|]. intros s. rewrite L1, L1'. tauto.
  - intros a b Ha Hb S1 S2. apply L1 in Ha as (c & Hc & Ec). apply L1 in Hb as (c' & Hc' & Ec').
    destruct (@same_key (c, a) (c', b)) as [_ Eq]; [split; auto|split; auto| |exact Eq]. unfold key. cbn. apply (sle_anti O); auto.
Qed.
End Processor.

(** ** C145: vacancies that are written or not *)
(** Sites that may have the same species have them with the same measure. *)
Definition measures_agree (comps : list composition) : Prop :=
  forall c c', In c comps -> In c' comps -> (forall x, may_have c x <-> may_have c' x) -> forall x m, has_measure c x m <-> has_measure c' x m.
Definition vacancies_agree (comps : list composition) : Prop :=
  forall c c', In c comps -> In c' comps -> (forall x, may_have c x <-> may_have c' x) -> (In Vac (map fst c) <-> In Vac (map fst c')).
Lemma measures_perm comps : Forall site_ok comps -> measures_agree comps -> vacancies_agree comps -> sites_agree comps.
Proof.
  intros K M V c c' Hc Hc' H. rewrite Forall_forall in K.
  assert (S : forall c c', site_ok c -> site_ok c' -> (forall x m, has_measure c x m <-> has_measure c' x m) -> (In Vac (map fst c) <-> In Vac (map fst c')) -> forall p, In p c -> In p c').
  { clear. intros c c' K K' M V [x m] Hp. assert (Q : has_measure c x m) by (left; auto). apply M in Q as [Q|(-> & L & _)]; auto. exfalso.
    assert (Hv : In Vac (map fst c)) by (change Vac with (fst (Vac, m)); apply in_map; auto). apply V in Hv. destruct (so_total K') as [T|[_ T]]; [rewrite T in L; discriminate L|auto]. }
  apply NoDup_Permutation; [eapply NoDup_map_inv; apply (so_keys (K _ Hc))|eapply NoDup_map_inv; apply (so_keys (K _ Hc'))|].
  intros p. split; intros Hp.
  - exact (S c c' (K _ Hc) (K _ Hc') (M c c' Hc Hc' H) (V c c' Hc Hc' H) p Hp).
  - refine (S c' c (K _ Hc') (K _ Hc) _ _ p Hp); [intros x m; symmetry; apply (M c c' Hc Hc' H)|symmetry; apply (V c c' Hc Hc' H)].
Qed.
Theorem C145_partition_partial leb comps h iter : ordered leb -> Forall site_ok comps -> comps <> [] -> measures_agree comps -> vacancies_agree comps -> fair_hash h -> fair_iter iter ->
  exists sls, proc_sublattices leb h iter comps = Some sls /\ layout sls (length comps).
Proof. intros O K NE M V FH FI. destruct (C144_partition O K (measures_perm K M V) NE FH FI) as (sls & E & L & _). eauto. Qed.

Definition ex_leb (a b : species) : bool := match a, b with Sp m, Sp n => m <=? n | Sp _, Vac => true | Vac, Sp _ => false | Vac, Vac => true end.
Lemma ex_ordered : ordered ex_leb.
Proof.
  constructor.
  - intros [m|] [n|]; cbn; auto. destruct (Nat.leb_spec m n); [auto|right; apply Nat.leb_le; lia].
  - intros [m|] [n|] [k|]; cbn; auto; try discriminate. rewrite !Nat.leb_le. lia.
  - intros [m|] [n|]; cbn; auto; try discriminate. rewrite !Nat.leb_le. intros; f_equal; lia.
Qed.
(** The same site space, once with vacancies that are implied and once with vacancies that are written. *)
Definition implied : composition := [(Sp 1, Qc_frac 1 2)].
Definition written : composition := [(Sp 1, Qc_frac 1 2); (Vac, Qc_frac 1 2)].
Lemma two_ok : Forall site_ok [implied; written].
Proof.
  assert (Z1 : num_atoms written = 1%Qc) by (apply Qc_is_canon; reflexivity).
  constructor; [|constructor; [|constructor]]; constructor.
  - repeat constructor; cbn; intuition discriminate.
  - intros sp x [H|[]]. injection H as <- <-. reflexivity.
  - right. split; [reflexivity|]. cbn. intuition discriminate.
  - cbn; lia.
  - repeat constructor; cbn; intuition discriminate.
  - intros sp x [H|[H|[]]]; injection H as <- <-; reflexivity.
  - left; auto.
  - cbn; lia.
Qed.
Lemma two_agree : measures_agree [implied; written].
Proof.
  assert (Q : forall x m, has_measure implied x m <-> has_measure written x m).
  { intros x m. unfold has_measure. assert (E : (1 - num_atoms implied)%Qc = Qc_frac 1 2) by (apply Qc_is_canon; reflexivity). rewrite E.
    assert (W : ~ (num_atoms written < Qc_frac 99 100)%Qc) by (intros H; discriminate H). assert (I : (num_atoms implied < Qc_frac 99 100)%Qc) by reflexivity.
    cbn [implied written In]. split.
    - intros [[H|[]]|(-> & _ & ->)]; [left; auto|left; right; left; auto].
    - intros [[H|[H|[]]]|(_ & H & _)]; [left; left; auto|injection H as <- <-; right; auto|contradiction]. }
  intros c c' [<-|[<-|[]]] [<-|[<-|[]]] _ x m; try tauto; [apply Q|symmetry; apply Q].
Qed.
(** Both are equal as site spaces; unless their hashes collide, the set keeps both and every site is in two sublattices. *)
Theorem C145_partition_refuted : ordered ex_leb /\ Forall site_ok [implied; written] /\ measures_agree [implied; written] /\
  forall h iter, fair_iter iter -> h implied <> h written ->
    exists sls, proc_sublattices ex_leb h iter [implied; written] = Some sls /\ map sl_sites sls = [[0; 1]; [0; 1]] /\ ~ layout sls 2.
Proof.
  split; [apply ex_ordered|]. split; [apply two_ok|]. split; [apply two_agree|]. intros h iter FI Hh.
  pose proof two_ok as T. inversion T as [|? ? K1 T']; subst. inversion T' as [|? ? K2 _]; subst.
  assert (E1 : mk_site_space ex_leb implied = Some [(Sp 1, Qc_frac 1 2); (Vac, (1 - num_atoms implied)%Qc)]) by (rewrite (mk_some ex_leb K1); reflexivity).
  assert (E2 : mk_site_space ex_leb written = Some written) by (rewrite (mk_some ex_leb K2); reflexivity).
  assert (Ea : allowed_species ex_leb [implied; written] = Some [[Sp 1; Vac]; [Sp 1; Vac]]) by (vm_compute; reflexivity).
  unfold proc_sublattices, unique_spaces, site_objects. cbn [opt_map]. rewrite E1, E2. cbn [option_bind]. rewrite Ea. cbn [option_bind].
  unfold py_set. cbn [fold_left set_add existsb app fst snd]. unfold set_add. cbn [existsb fst snd app]. destruct (Nat.eqb_spec (h implied) (h written)) as [X|_]; [contradiction|]. cbn [andb orb].
  eexists. split; [reflexivity|].
  match goal with |- map sl_sites ?x = _ /\ _ => assert (Es : map sl_sites x = [[0; 1]; [0; 1]]) end.
  { match goal with |- context [iter ?l] => pose proof (FI l) as P; revert P; generalize (iter l) end. intros w P. apply Permutation_sym, Permutation_length_2_inv in P as [-> | ->]; reflexivity. }
  split; [exact Es|]. intros L. pose proof (lay_sites L) as P. apply Permutation_length in P. rewrite seq_length in P. rewrite Es in P. discriminate P.
Qed.

(** Two kinds of sites, one of them with a vacancy that is implied, written in different orders. *)
Definition ex_sites : list composition := [[(Sp 2, Qc_frac 1 4); (Sp 1, Qc_frac 1 2)]; [(Sp 3, 1%Qc)]; [(Sp 1, Qc_frac 1 2); (Sp 2, Qc_frac 1 4)]].
Lemma ex_sites_ok : Forall site_ok ex_sites /\ sites_agree ex_sites.
Proof.
  split.
  - constructor; [|constructor; [|constructor; [|constructor]]]; constructor.
    + repeat constructor; cbn; intuition discriminate.
    + intros sp x [H|[H|[]]]; injection H as <- <-; reflexivity.
    + right. split; [reflexivity|]. cbn. intuition discriminate.
    + cbn; lia.
    + repeat constructor; cbn; intuition discriminate.
    + intros sp x [H|[]]; injection H as <- <-; reflexivity.
    + left. apply Qc_is_canon. reflexivity.
    + cbn; lia.
    + repeat constructor; cbn; intuition discriminate.
    + intros sp x [H|[H|[]]]; injection H as <- <-; reflexivity.
    + right. split; [reflexivity|]. cbn. intuition discriminate.
    + cbn; lia.
  - intros c c' [<-|[<-|[<-|[]]]] [<-|[<-|[<-|[]]]] H; try reflexivity; try apply perm_swap.
    all: exfalso; pose proof (proj1 (H (Sp 1))) as H1; pose proof (proj2 (H (Sp 1))) as H2; unfold may_have in H1, H2; cbn in H1, H2; intuition discriminate.
Qed.
Example C144_case : exists sls, proc_sublattices ex_leb (@length _) (fun l => l) ex_sites = Some sls /\ map sl_sites sls = [[0; 2]; [1]] /\
  map sl_species sls = [[Sp 1; Sp 2; Vac]; [Sp 3]] /\ layout sls 3 /\
  forall h iter, fair_hash h -> fair_iter iter -> proc_sublattices ex_leb h iter ex_sites = Some sls.
Proof.
  destruct ex_sites_ok as [K A]. assert (FH : fair_hash (@length _)) by (intros c c' P; apply Permutation_length; auto). assert (FI : fair_iter (fun l => l)) by (intros l; reflexivity).
  destruct (C144_partition ex_ordered K A ltac:(discriminate) FH FI) as (sls & E & L & _). exists sls. split; auto.
  assert (S : exists sls', proc_sublattices ex_leb (@length _) (fun l => l) ex_sites = Some sls' /\ map sl_sites sls' = [[0; 2]; [1]] /\ map sl_species sls' = [[Sp 1; Sp 2; Vac]; [Sp 3]]).
  { eexists. split; [vm_compute; reflexivity|]. split; reflexivity. }
  destruct S as (sls' & E' & S1 & S2). rewrite E in E'. injection E' as <-. split; auto. split; auto. split; auto. intros h iter FH' FI'. rewrite <- E. apply C144_order; auto. apply ex_ordered.
Qed.
Print Assumptions C144_partition.
Print Assumptions C144_order.
Print Assumptions C145_partition_partial.
Print Assumptions C145_partition_refuted.
