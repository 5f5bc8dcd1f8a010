(** Lemmas about random occupancies. *)
From Verif Require Export RandomOccu TableFlipProofs OccuUtilsSpec EncodingProofs.
From Coq Require Import Reals Lra.
Set Implicit Arguments.
Unset Strict Implicit.
Local Open Scope nat_scope.

Definition occu_eqb (a b : list nat) : bool := if list_eq_dec Nat.eq_dec a b then true else false.
Lemma occu_eqb_iff a b : occu_eqb a b = true <-> a = b.
Proof. unfold occu_eqb. destruct (list_eq_dec Nat.eq_dec a b); split; congruence. Qed.

Lemma outcome_of_opt {A} (o : option A) x : outcome (of_opt o) x <-> o = Some x.
Proof.
  destruct o as [y|]; simpl.
  - rewrite outcome_ret. split; congruence.
  - split; [intros H; apply outcome_fail in H; tauto|discriminate].
Qed.

Lemma prob_bind_opt {A B} (x : A) (f : A -> prog B) P : prob (pbind (of_opt (Some x)) f) P = prob (f x) P.
Proof. rewrite prob_bind. simpl. ring. Qed.

(** ** Assigning several sites *)
Lemma put_defined : forall sites values occu, length sites = length values ->
  (forall s, In s sites -> s < length occu) -> exists o, put occu sites values = Some o.
Proof.
  induction sites as [|s sites IH]; intros [|v values] occu L H; try discriminate; simpl.
  - eauto.
  - destruct (Nat.ltb_spec s (length occu)) as [Hs|Hs]; [|specialize (H s (or_introl eq_refl)); lia].
    apply IH; [simpl in L; lia|]. intros s' H'. rewrite length_upd. apply H. right; auto.
Qed.

Lemma put_spec : forall sites values occu o, NoDup sites -> put occu sites values = Some o ->
  length o = length occu /\ length sites = length values /\
  (forall s, ~ In s sites -> nth_error o s = nth_error occu s) /\
  (forall i s v, nth_error sites i = Some s -> nth_error values i = Some v -> nth_error o s = Some v) /\
  (forall s, In s sites -> s < length occu).
Proof.
  induction sites as [|s sites IH]; intros [|v values] occu o Nd H; simpl in H; try discriminate.
  - injection H as <-. split; auto. split; auto. split; auto. split; [|simpl; tauto].
    intros [|i]; discriminate.
  - destruct (Nat.ltb_spec s (length occu)) as [Hs|Hs]; [|discriminate].
    inversion Nd as [|? ? Ns Nd']; subst. destruct (IH _ _ _ Nd' H) as (L & Lv & F & K & R).
    rewrite length_upd in L, R. split; auto. split; [simpl; lia|]. split; [|split].
    + intros t Ht. rewrite F by (intros X; apply Ht; right; auto).
      apply nth_error_upd_neq. intros ->. apply Ht. left; auto.
    + intros [|i] t w Hi Hw; simpl in *.
      * injection Hi as <-. injection Hw as <-. rewrite F by auto. apply nth_error_upd_eq; auto.
      * eauto.
    + intros t [<-|Ht]; auto.
Qed.

(** ** Independent draws *)
Lemma choose_repeat_outcome {A} k : forall (l : list A) v,
  outcome (choose_repeat k l) v <-> length v = k /\ (forall x, In x v -> In x l).
Proof.
  induction k as [|k IH]; intros l v; simpl.
  - rewrite outcome_ret. split; [intros ->; simpl; tauto|]. intros [L _]. destruct v; auto; discriminate.
  - rewrite outcome_bind. split.
    + intros (x & Hx & H). apply outcome_bind in H as (r & Hr & H). apply outcome_ret in H. subst v.
      apply outcome_uniform in Hx. apply IH in Hr as [L F]. split; [simpl; lia|].
      intros y [<-|Hy]; auto.
    + intros [L F]. destruct v as [|x v]; [discriminate|]. exists x. split.
      * apply outcome_uniform, F. left; auto.
      * apply outcome_bind. exists v. split; [|apply outcome_ret; auto].
        apply IH. split; [simpl in L; lia|]. intros y Hy. apply F. right; auto.
Qed.

Lemma choose_repeat_total {A} k (l : list A) : l <> [] -> never_raises (choose_repeat k l).
Proof.
  intros H. induction k as [|k IH]; simpl; [apply never_raises_ret|].
  apply never_raises_bind; [apply never_raises_uniform; auto|]. intros x _.
  apply never_raises_bind; auto. intros r _. apply never_raises_ret.
Qed.

Lemma prob_uniform_one l (x : nat) : NoDup l -> In x l -> prob (uniform l) (Nat.eqb x) = (1 / Qc_of_nat (length l))%Qc.
Proof.
  intros Nd Hx. rewrite prob_uniform.
  assert (G : forall m : list nat, NoDup m ->
    qsum (map (fun y => if x =? y then (1 / Qc_of_nat (length l))%Qc else 0%Qc) m) = if memb x m then (1 / Qc_of_nat (length l))%Qc else 0%Qc).
  { induction m as [|y m IH]; intros Nm; cbn [map qsum]; auto.
    inversion Nm as [|? ? Ny Nm']; subst. rewrite IH by auto. unfold memb in *. cbn [existsb].
    destruct (Nat.eqb_spec x y) as [->|E]; cbn [orb].
    - destruct (existsb (Nat.eqb y) m) eqn:Ex; [exfalso; apply Ny, memb_In; exact Ex|ring].
    - destruct (existsb (Nat.eqb x) m); ring. }
  rewrite G by auto. destruct (memb_reflect x l); tauto.
Qed.

Lemma choose_repeat_prob l : NoDup l -> l <> [] -> forall t, (forall x, In x t -> In x l) ->
  prob (choose_repeat (length t) l) (fun v => occu_eqb v t) = (1 / Qc_of_nat (length l ^ length t))%Qc.
Proof.
  intros Nd Hl. induction t as [|x t IH]; intros F; cbn [choose_repeat length].
  - rewrite prob_ret. simpl. apply Qc_is_canon. reflexivity.
  - rewrite (@prob_bind_split _ _ _ _ _ (Nat.eqb x) (1 / Qc_of_nat (length l ^ length t))%Qc).
    + rewrite prob_uniform_one by (auto; apply F; left; auto).
      assert (N1 : Qc_of_nat (length l) <> 0%Qc) by (apply Qc_of_nat_nz; destruct l; [congruence|discriminate]).
      assert (N2 : Qc_of_nat (length l ^ length t) <> 0%Qc).
      { apply Qc_of_nat_nz, Nat.pow_nonzero. destruct l; [congruence|discriminate]. }
      change (length l ^ S (length t)) with (length l * length l ^ length t).
      rewrite Qc_of_nat_mul. field. split; auto.
    + intros a Ha E. apply Nat.eqb_eq in E. subst a. rewrite <- IH by (intros; apply F; right; auto).
      rewrite prob_bind. unfold prob. apply qsum_map_ext. intros [w [r|]] _; simpl; auto.
      unfold occu_eqb. destruct (list_eq_dec Nat.eq_dec (x :: r) (x :: t)) as [E|E], (list_eq_dec Nat.eq_dec r t) as [E'|E'];
        try congruence; ring.
    + intros a Ha E. apply prob_false. intros v Hv. apply outcome_bind in Hv as (r & _ & Hv).
      apply outcome_ret in Hv. subst v. unfold occu_eqb. destruct (list_eq_dec Nat.eq_dec (a :: r) (x :: t)) as [E'|]; auto.
      injection E' as -> ->. rewrite Nat.eqb_refl in E. discriminate.
Qed.

(** ** Filling all sublattices *)
Definition all_sites (sls : list sublattice) : list nat := concat (map sl_sites sls).

Lemma nodup_all_cons sl sls : NoDup (all_sites (sl :: sls)) ->
  NoDup (sl_sites sl) /\ NoDup (all_sites sls) /\ (forall s, In s (sl_sites sl) -> ~ In s (all_sites sls)).
Proof.
  unfold all_sites. cbn [map concat]. intros H. split; [eapply NoDup_app_remove_r; eauto|].
  split; [eapply NoDup_app_remove_l; eauto|]. intros s. apply NoDup_app_disj. auto.
Qed.

Lemma in_all_sites sls s : In s (all_sites sls) <-> exists sl, In sl sls /\ In s (sl_sites sl).
Proof.
  unfold all_sites. rewrite in_concat. split.
  - intros (l & Hl & Hs). apply in_map_iff in Hl as (sl & <- & Hsl). eauto.
  - intros (sl & Hsl & Hs). exists (sl_sites sl). split; auto. apply in_map; auto.
Qed.

(** [o] differs from [occu] only on the sites, where it has codes of the sublattice. *)
Definition filled (sls : list sublattice) (occu o : list nat) : Prop :=
  length o = length occu /\ (forall s, ~ In s (all_sites sls) -> nth_error o s = nth_error occu s) /\
  (forall sl s, In sl sls -> In s (sl_sites sl) -> exists c, nth_error o s = Some c /\ In c (sl_encoding sl)).

Lemma fill_sound sls : forall occu o, NoDup (all_sites sls) -> outcome (fill sls occu) o -> filled sls occu o.
Proof.
  induction sls as [|sl sls IH]; intros occu o Nd H; cbn [fill] in H.
  - apply outcome_ret in H. subst. split; auto. split; auto. simpl; tauto.
  - apply nodup_all_cons in Nd as (N1 & N2 & D).
    apply outcome_bind in H as (v & Hv & H). apply outcome_bind in H as (o1 & H1 & H).
    apply outcome_of_opt in H1. apply choose_repeat_outcome in Hv as [Lv Fv].
    destruct (put_spec N1 H1) as (L1 & _ & F1 & K1 & R1). apply IH in H as (L2 & F2 & K2); auto.
    split; [lia|]. split.
    + intros s Hs. unfold all_sites in Hs. cbn [map concat] in Hs. rewrite F2, F1; auto;
        intros X; apply Hs, in_or_app; auto.
    + intros sl' s [<-|Hin] Hs; [|eauto]. rewrite F2 by (apply D; auto).
      apply In_nth_error in Hs as [i Hi].
      destruct (@nth_error_lt _ v i) as [c Hc]; [rewrite Lv; eapply nth_error_Some_lt; eauto|].
      exists c. split; [eauto|]. apply Fv. eapply nth_error_In; eauto.
Qed.

Lemma fill_total sls : forall occu, NoDup (all_sites sls) -> (forall s, In s (all_sites sls) -> s < length occu) ->
  (forall sl, In sl sls -> sl_encoding sl <> []) -> never_raises (fill sls occu).
Proof.
  induction sls as [|sl sls IH]; intros occu Nd R E; cbn [fill]; [apply never_raises_ret|].
  apply nodup_all_cons in Nd as (N1 & N2 & D). unfold all_sites in R. cbn [map concat] in R.
  apply never_raises_bind; [apply choose_repeat_total, E; left; auto|]. intros v Hv.
  apply choose_repeat_outcome in Hv as [Lv _].
  destruct (@put_defined (sl_sites sl) v occu) as [o1 H1]; [lia|intros; apply R, in_or_app; auto|].
  rewrite H1. apply never_raises_bind; [apply never_raises_ret|]. intros o Ho. apply outcome_ret in Ho. subst o.
  destruct (put_spec N1 H1) as (L1 & _). apply IH; auto.
  - intros s Hs. rewrite L1. apply R, in_or_app. auto.
  - intros; apply E; right; auto.
Qed.

(** Number of ways to fill. *)
Definition ways (sls : list sublattice) : nat :=
  fold_right Nat.mul 1 (map (fun sl => length (sl_encoding sl) ^ length (sl_sites sl)) sls).

Lemma fill_prob sls : forall occu t, NoDup (all_sites sls) -> (forall s, In s (all_sites sls) -> s < length occu) ->
  (forall sl, In sl sls -> NoDup (sl_encoding sl) /\ sl_encoding sl <> []) -> filled sls occu t ->
  prob (fill sls occu) (fun o => occu_eqb o t) = (1 / Qc_of_nat (ways sls))%Qc.
Proof.
  induction sls as [|sl sls IH]; intros occu t Nd R E (Lt & Ft & Kt); cbn [fill].
  - rewrite prob_ret. assert (t = occu) as ->.
    { apply list_ext; [auto|]. intros i. apply Ft. simpl; auto. }
    rewrite (proj2 (occu_eqb_iff occu occu) eq_refl). apply Qc_is_canon. reflexivity.
  - pose proof (nodup_all_cons Nd) as (N1 & N2 & D). unfold all_sites in R. cbn [map concat] in R.
    destruct (E sl (or_introl eq_refl)) as [Ne Nn].
    pose (v0 := map (fun s => nth s t 0) (sl_sites sl)).
    assert (Hv0 : forall x, In x v0 -> In x (sl_encoding sl)).
    { intros x Hx. apply in_map_iff in Hx as (s & <- & Hs). destruct (Kt sl s (or_introl eq_refl) Hs) as (c & Hc & Hc').
      rewrite (nth_error_nth _ _ 0 Hc). auto. }
    assert (Lv0 : length v0 = length (sl_sites sl)) by (unfold v0; apply map_length).
    assert (Rt : forall s, In s (sl_sites sl) -> s < length occu) by (intros; apply R, in_or_app; auto).
    rewrite (@prob_bind_split _ _ _ _ _ (fun v => occu_eqb v v0) (1 / Qc_of_nat (ways sls))%Qc).
    + rewrite <- Lv0, (choose_repeat_prob Ne Nn Hv0), Lv0. unfold ways. cbn [map fold_right].
      fold (ways sls). rewrite Qc_of_nat_mul. field. split; apply Qc_of_nat_nz.
      * unfold ways. clear - E. induction sls as [|a sls IHs]; cbn [map fold_right]; [discriminate|].
        intros X. apply Nat.mul_eq_0 in X as [X|X].
        -- revert X. apply Nat.pow_nonzero. destruct (E a) as [_ Na]; [right; left; auto|]. destruct (sl_encoding a); [congruence|discriminate].
        -- revert X. apply IHs. intros b [Hb|Hb]; apply E; [left|right; right]; auto.
      * apply Nat.pow_nonzero. destruct (sl_encoding sl); [congruence|discriminate].
    + intros v Hv Ev. apply occu_eqb_iff in Ev. subst v.
      destruct (@put_defined (sl_sites sl) v0 occu) as [o1 H1]; [lia|auto|].
      rewrite H1, prob_bind_opt. destruct (put_spec N1 H1) as (L1 & _ & F1 & K1 & _). apply IH; auto.
      * intros s Hs. rewrite L1. apply R, in_or_app; auto.
      * intros; apply E; right; auto.
      * split; [lia|]. split; [|intros; apply Kt; [right|]; auto].
        intros s Hs. destruct (in_dec Nat.eq_dec s (sl_sites sl)) as [Hi|Hi].
        -- apply In_nth_error in Hi as [i Hi]. assert (Hs' := nth_error_In _ _ Hi).
           rewrite (K1 i s (nth s t 0) Hi); [|unfold v0; apply map_nth_error with (f := fun s => nth s t 0); auto].
           destruct (Kt sl s (or_introl eq_refl) Hs') as (c & Hc & _). rewrite (nth_error_nth _ _ 0 Hc). auto.
        -- rewrite F1 by auto. apply Ft. unfold all_sites. cbn [map concat]. intros X. apply in_app_or in X as [X|X]; auto.
    + intros v Hv Ev. apply choose_repeat_outcome in Hv as [Lv Fv]. apply prob_false. intros o Ho.
      apply outcome_bind in Ho as (o1 & H1 & Ho). apply outcome_of_opt in H1.
      destruct (put_spec N1 H1) as (L1 & _ & F1 & K1 & _). apply fill_sound in Ho as (L2 & F2 & K2); auto.
      destruct (occu_eqb o t) eqn:Eo; auto. apply occu_eqb_iff in Eo. subst o. exfalso.
      assert (v = v0) as ->; [|rewrite (proj2 (occu_eqb_iff v0 v0) eq_refl) in Ev; discriminate].
      apply list_ext_lt; [lia|]. intros i Hi. rewrite Lv in Hi.
      destruct (nth_error_lt (sl_sites sl) Hi) as [s Hs]. destruct (nth_error_lt v (i := i)) as [c Hc]; [lia|].
      rewrite Hc. unfold v0. rewrite (map_nth_error (fun s => nth s t 0) _ _ Hs). f_equal.
      pose proof (K1 _ _ _ Hs Hc) as X. rewrite <- F2 in X by (apply D; eapply nth_error_In; eauto).
      symmetry. apply (nth_error_nth _ _ 0 X).
Qed.

Lemma layout_nodup sls N : layout sls N -> NoDup (all_sites sls).
Proof. intros L. eapply Permutation_NoDup; [symmetry; apply (lay_sites L)|apply seq_NoDup]. Qed.

Lemma layout_range sls N s : layout sls N -> (In s (all_sites sls) <-> s < N).
Proof.
  intros L. unfold all_sites. split; intros H.
  - eapply Permutation_in in H; [|apply (lay_sites L)]. apply in_seq in H. lia.
  - eapply Permutation_in; [symmetry; apply (lay_sites L)|]. apply in_seq. lia.
Qed.

Lemma zeros_length sls N : layout sls N -> length (zeros sls) = N.
Proof.
  intros L. unfold zeros. rewrite repeat_length.
  assert (E : length (all_sites sls) = N).
  { unfold all_sites. rewrite (Permutation_length (lay_sites L)). apply seq_length. }
  rewrite <- E. unfold all_sites. clear. induction sls as [|sl sls IH]; simpl; auto. rewrite app_length, IH. auto.
Qed.

Lemma filled_valid sls N o : layout sls N -> (filled sls (zeros sls) o <-> valid_occu sls N o).
Proof.
  intros L. unfold filled, valid_occu. rewrite (zeros_length L). split.
  - intros (H & _ & K). auto.
  - intros (H & K). split; auto. split; auto. intros s Hs. rewrite (layout_range s L) in Hs.
    rewrite (proj2 (nth_error_None o s)) by lia. symmetry. apply nth_error_None. rewrite (zeros_length L). lia.
Qed.

(** ** Charges *)
Section Charges.
Variable oxi : species -> Qc.

Lemma charge_sum sls N occu f : layout sls N ->
  (forall sl s, In sl sls -> In s (sl_sites sl) -> site_charge oxi sl occu s = Some (f s)) ->
  charge oxi occu sls = Some (qsum (map f (seq 0 N))).
Proof.
  intros L H. unfold charge.
  rewrite (@opt_map_map _ _ _ (fun sl => qsum (map f (sl_sites sl)))).
  - cbn [option_bind]. f_equal. rewrite <- (qsum_perm (Permutation_map f (lay_sites L))).
    clear. induction sls as [|sl sls IH]; simpl; auto. rewrite map_app, qsum_app, IH. auto.
  - intros sl Hsl. rewrite (@opt_map_map _ _ _ f); auto.
Qed.

Definition coded (sls : list sublattice) : Prop :=
  forall sl, In sl sls -> length (sl_encoding sl) = length (sl_space sl).

Lemma site_charge_defined sls N occu sl s : coded sls -> valid_occu sls N occu -> In sl sls -> In s (sl_sites sl) ->
  exists q, site_charge oxi sl occu s = Some q.
Proof.
  intros C [_ V] Hsl Hs. destruct (V _ _ Hsl Hs) as (c & Hc & Hi). unfold site_charge. rewrite Hc. cbn [option_bind].
  destruct (@index_of_In _ _ Hi) as [i E]. rewrite E. cbn [option_bind]. apply index_of_spec in E.
  destruct (nth_error_lt (sl_species sl) (i := i)) as [sp Hsp]; [|rewrite Hsp; cbn [option_bind]; eauto].
  unfold sl_species. rewrite map_length, <- C by auto. eapply nth_error_Some_lt; eauto.
Qed.

Lemma charge_defined sls N occu : coded sls -> valid_occu sls N occu -> exists q, charge oxi occu sls = Some q.
Proof.
  intros C V. unfold charge.
  assert (X : exists cs, opt_map (fun sl => let? l := opt_map (site_charge oxi sl occu) (sl_sites sl) in Some (qsum l)) sls = Some cs).
  { apply opt_map_all. intros sl Hsl.
    destruct (@opt_map_all _ _ (site_charge oxi sl occu) (sl_sites sl)) as [l Hl].
    - intros s Hs. destruct (site_charge_defined C V Hsl Hs) as [q ->]. discriminate.
    - rewrite Hl. cbn [option_bind]. discriminate. }
  destruct X as [cs ->]. cbn [option_bind]. eauto.
Qed.

Lemma upd_valid sls N occu sl s c : layout sls N -> valid_occu sls N occu -> In sl sls -> In s (sl_sites sl) ->
  In c (sl_encoding sl) -> valid_occu sls N (upd occu s c).
Proof.
  intros L [Lo V] Hsl Hs Hc. split; [rewrite length_upd; auto|]. intros sl' s' Hsl' Hs'.
  destruct (Nat.eq_dec s s') as [<-|E].
  - exists c. destruct (V _ _ Hsl' Hs') as (c' & Hc' & _). split.
    + apply nth_error_upd_eq. eapply nth_error_Some_lt; eauto.
    + assert (sl' = sl) as ->; auto. pose proof (layout_nodup L) as Nd. unfold all_sites in Nd.
      clear - Nd Hsl Hs Hsl' Hs'. induction sls as [|a sls IH]; [destruct Hsl|].
      cbn [map concat] in Nd. destruct Hsl as [->|Hsl], Hsl' as [->|Hsl']; auto.
      * exfalso. eapply NoDup_app_disj; [exact Nd|exact Hs|]. apply in_concat. exists (sl_sites sl'). split; auto. apply in_map; auto.
      * exfalso. eapply NoDup_app_disj; [exact Nd|exact Hs'|]. apply in_concat. exists (sl_sites sl). split; auto. apply in_map; auto.
      * apply IH; auto. eapply NoDup_app_remove_l; eauto.
  - rewrite nth_error_upd_neq by auto. eauto.
Qed.

Lemma flip_sound sls N lam d occu o C : layout sls N -> valid_occu sls N occu -> flip oxi sls lam d occu = Some (o, C) ->
  valid_occu sls N o /\ charge oxi o sls = Some C.
Proof.
  intros L V. unfold flip.
  destruct (nth_error (filter is_active sls) (a_sl d)) as [sl|] eqn:Esl; cbn [option_bind]; [|discriminate].
  destruct (nth_error (sl_sites sl) (a_site d)) as [site|] eqn:Es; cbn [option_bind]; [|discriminate].
  destruct (nth_error occu site) as [cur|] eqn:Ec; cbn [option_bind]; [|discriminate].
  destruct (nth_error (filter _ (np_unique (sl_encoding sl))) (a_code d)) as [code|] eqn:Ed; cbn [option_bind]; [|discriminate].
  destruct (charge oxi occu sls) as [C0|] eqn:E0; cbn [option_bind]; [|discriminate].
  destruct (charge oxi (upd occu site code) sls) as [C1|] eqn:E1; cbn [option_bind]; [|discriminate].
  apply nth_error_In, filter_In in Esl as [Hsl _]. apply nth_error_In in Es.
  apply nth_error_In, filter_In in Ed as [Hd _]. apply (proj1 (np_unique_In _ _)) in Hd.
  destruct (_ && _); intros E; injection E as <- <-; split; auto. eapply upd_valid; eauto.
Qed.

Lemma attempts_returned sls N lam ds : forall occu o, layout sls N -> valid_occu sls N occu ->
  attempts oxi sls lam ds occu = Returned o -> valid_occu sls N o /\ charge oxi o sls = Some 0%Qc.
Proof.
  induction ds as [|d ds IH]; intros occu o L V; cbn [attempts]; [discriminate|].
  destruct (flip oxi sls lam d occu) as [[o1 C]|] eqn:E; [|discriminate].
  destruct (flip_sound L V E) as [V1 E1]. destruct (Qceqb_spec C 0) as [->|]; [intros X; injection X as <-; auto|eauto].
Qed.

(** Draws that the generator can make. *)
Definition legal (sls : list sublattice) (d : attempt) : Prop :=
  exists sl, nth_error (filter is_active sls) (a_sl d) = Some sl /\ a_site d < length (sl_sites sl) /\
             S (a_code d) < length (sl_encoding sl) /\ (0 < a_u d < 1)%R.

Lemma others_length l x : NoDup l -> In x l -> S (length (filter (fun c => negb (c =? x)) (np_unique l))) = length l.
Proof.
  intros Nd Hx.
  assert (P : Permutation (np_unique l) l).
  { apply NoDup_Permutation; auto. apply sorted_NoDup, np_unique_sorted. intros; apply np_unique_In. }
  rewrite <- (Permutation_length P).
  pose proof (countb_negb (fun c => c =? x) (np_unique l)) as K. unfold countb at 1 in K.
  assert (countb (fun c => c =? x) (np_unique l) = 1); [|lia].
  assert (Nu : NoDup (np_unique l)) by (apply sorted_NoDup, np_unique_sorted).
  assert (Hu : In x (np_unique l)) by (apply np_unique_In; auto).
  clear - Nu Hu. induction (np_unique l) as [|a m IH]; [destruct Hu|]. inversion Nu as [|? ? Na Nm]; subst.
  rewrite countb_cons. destruct (Nat.eqb_spec a x) as [->|E].
  - rewrite countb_0; auto. intros y Hy. apply Nat.eqb_neq. intros ->. auto.
  - destruct Hu as [->|Hu]; [congruence|]. simpl. auto.
Qed.

Lemma flip_defined sls N lam d occu : layout sls N -> coded sls -> valid_occu sls N occu -> legal sls d ->
  exists r, flip oxi sls lam d occu = Some r.
Proof.
  intros L C V (sl & Hsl & Hsite & Hcode & _). unfold flip. rewrite Hsl. cbn [option_bind].
  apply nth_error_In, filter_In in Hsl as [Hin _].
  destruct (nth_error_lt _ Hsite) as [site Es]. rewrite Es. cbn [option_bind]. apply nth_error_In in Es.
  destruct (proj2 V _ _ Hin Es) as (cur & Ec & Hcur). rewrite Ec. cbn [option_bind].
  destruct (lay_codes L _ Hin) as [Ne _].
  destruct (nth_error_lt (filter (fun c => negb (c =? cur)) (np_unique (sl_encoding sl))) (i := a_code d)) as [code Ed].
  { pose proof (others_length Ne Hcur). lia. }
  rewrite Ed. cbn [option_bind]. apply nth_error_In, filter_In in Ed as [Hd _]. apply (proj1 (np_unique_In _ _)) in Hd.
  destruct (charge_defined C V) as [c0 ->]. cbn [option_bind].
  destruct (charge_defined C (upd_valid L V Hin Es Hd)) as [c1 ->]. cbn [option_bind]. eauto.
Qed.

Lemma attempts_defined sls N lam ds : forall occu, layout sls N -> coded sls -> valid_occu sls N occu ->
  (forall d, In d ds -> legal sls d) -> attempts oxi sls lam ds occu <> Raised.
Proof.
  induction ds as [|d ds IH]; intros occu L C V Hd; cbn [attempts]; [discriminate|].
  destruct (flip_defined lam L C V (Hd d (or_introl eq_refl))) as [[o c] E]. rewrite E.
  destruct (Qceqb c 0); [discriminate|]. apply IH; auto; [|intros; apply Hd; right; auto].
  apply (flip_sound L V E).
Qed.

(** A neutral occupancy stays. *)
Lemma flip_neutral sls N lam d occu : layout sls N -> coded sls -> valid_occu sls N occu -> legal sls d ->
  charge oxi occu sls = Some 0%Qc -> flip oxi sls lam d occu = Some (occu, 0%Qc).
Proof.
  intros L C V Hd E. destruct (flip_defined lam L C V Hd) as [r Er]. rewrite Er. revert Er. unfold flip.
  destruct (nth_error (filter is_active sls) (a_sl d)) as [sl|]; cbn [option_bind]; [|discriminate].
  destruct (nth_error (sl_sites sl) (a_site d)) as [site|]; cbn [option_bind]; [|discriminate].
  destruct (nth_error occu site) as [cur|]; cbn [option_bind]; [|discriminate].
  destruct (nth_error (filter _ (np_unique (sl_encoding sl))) (a_code d)) as [code|]; cbn [option_bind]; [|discriminate].
  rewrite E. cbn [option_bind].
  destruct (charge oxi (upd occu site code) sls) as [C1|]; cbn [option_bind]; [|discriminate].
  rewrite (andb_comm _ (negb _)). change (Qceqb 0 0) with true. cbn. congruence.
Qed.
End Charges.

(** ** Decoding *)
Lemma decode_all : forall allowed enc, length enc = length allowed ->
  (forall s sps, nth_error allowed s = Some sps -> exists c, nth_error enc s = Some c /\ c < length sps) ->
  exists r, decode_occupancy allowed enc = Some r /\ length r = length allowed /\
    forall s sps c, nth_error allowed s = Some sps -> nth_error enc s = Some c -> nth_error r s = nth_error sps c.
Proof.
  induction allowed as [|sps allowed IH]; intros [|c enc] L H; try discriminate; cbn [decode_occupancy].
  - exists []. split; auto. split; auto. intros [|s]; discriminate.
  - destruct (H 0 sps eq_refl) as (c' & Ec & Hc). simpl in Ec. injection Ec as <-.
    destruct (nth_error_lt _ Hc) as [sp Hsp]. rewrite Hsp. cbn [option_bind].
    destruct (IH enc) as (r & -> & Lr & Kr); [simpl in L; lia|intros s; apply (H (S s))|].
    cbn [option_bind]. exists (sp :: r). split; auto. split; [simpl; lia|].
    intros [|s] sps' c' E1 E2; simpl in *; [congruence|eauto].
Qed.

(** ** Placing a composition *)
(** Site [s] carries code [c]. *)
Definition has (o : list nat) (c s : nat) : bool :=
  match nth_error o s with Some c' => c' =? c | None => false end.

Lemma has_iff o c s : has o c s = true <-> nth_error o s = Some c.
Proof.
  unfold has. destruct (nth_error o s) as [c'|]; [|split; discriminate].
  rewrite Nat.eqb_eq. split; congruence.
Qed.

Lemma split_free (free s : list nat) : NoDup free -> NoDup s -> incl s free ->
  Permutation free (s ++ filter (fun i => negb (memb i s)) free).
Proof.
  intros Nf Ns I. apply NoDup_Permutation; auto.
  - apply NoDup_app_intro; auto; [apply NoDup_filter; auto|].
    intros x Hx Hf. apply filter_In in Hf as [_ Hf]. destruct (memb_reflect x s); [discriminate|tauto].
  - intros x. rewrite in_app_iff, filter_In. destruct (memb_reflect x s) as [K|K]; simpl.
    + split; [auto|]. intros [H|[H _]]; auto.
    + split; [intros H; right; auto|]. intros [H|[H _]]; [tauto|auto].
Qed.

Definition needs (space : site_space) (n : nat) (it : species * nat) (k : nat) : Prop :=
  exists x, space_get space (fst it) = Some x /\ qround (x * Qc_of_nat n)%Qc = Z.of_nat k.

Definition placed (items : list (species * nat)) (ks : list nat) (free occu o : list nat) : Prop :=
  length o = length occu /\ (forall s, ~ In s free -> nth_error o s = nth_error occu s) /\
  (forall s, In s free -> exists it, In it items /\ nth_error o s = Some (snd it)) /\
  Forall2 (fun it k => countb (has o (snd it)) free = k) items ks.

Lemma put_const s c occu o : NoDup s -> put occu s (map (fun _ => c) s) = Some o ->
  length o = length occu /\ (forall i, ~ In i s -> nth_error o i = nth_error occu i) /\ (forall i, In i s -> nth_error o i = Some c).
Proof.
  intros Nd H. destruct (put_spec Nd H) as (L & _ & F & K & _). split; auto. split; auto.
  intros i Hi. apply In_nth_error in Hi as [j Hj]. apply (K j); auto. exact (map_nth_error (fun _ => c) _ _ Hj).
Qed.

Lemma place_sound space n : forall items ks free occu o, NoDup free -> NoDup (map snd items) ->
  Forall2 (needs space n) items ks -> list_sum ks = length free ->
  outcome (place space n items free occu) o -> placed items ks free occu o.
Proof.
  induction items as [|[sp c] items IH]; intros ks free occu o Nf Nc F S H; inversion F as [|? k ? ks' Hk F']; subst; cbn [place] in H.
  - apply outcome_ret in H. subst. simpl in S. destruct free; [|discriminate].
    split; auto. split; auto. split; [simpl; tauto|constructor].
  - destruct Hk as (x & Ex & Ek). simpl in Ex. rewrite Ex in H.
    apply outcome_bind in H as (x' & Hx' & H). apply outcome_ret in Hx'. subst x'. rewrite Ek in H.
    destruct ((Z.of_nat k <? 0)%Z || (length free =? 0)) eqn:Eg; [apply outcome_fail in H; tauto|].
    apply outcome_bind in H as (s & Hs & H). apply choose_k_outcome in Hs. rewrite Nat2Z.id in Hs.
    destruct (arrangements_NoDup Nf Hs) as (Ls & Ns & Is).
    apply outcome_bind in H as (o1 & H1 & H). apply outcome_of_opt in H1.
    destruct (put_const Ns H1) as (L1 & F1 & K1).
    pose proof (split_free Nf Ns Is) as P. set (free' := filter (fun i => negb (memb i s)) free) in *.
    inversion Nc as [|? ? Nc1 Nc2]; subst. cbn [list_sum fold_right] in S.
    assert (S' : list_sum ks' = length free').
    { apply Permutation_length in P. rewrite app_length in P. unfold list_sum in *. simpl in S. lia. }
    assert (D : forall i, In i s -> ~ In i free').
    { intros i Hi Hf. apply filter_In in Hf as [_ Hf]. destruct (memb_reflect i s); [discriminate|tauto]. }
    apply (IH ks') in H as (L2 & F2 & C2 & K2); auto; [|apply NoDup_filter; auto].
    split; [lia|]. split; [|split].
    + intros i Hi. rewrite F2, F1; auto. intros X. apply filter_In in X. tauto.
    + intros i Hi. destruct (memb_reflect i s) as [Hm|Hm].
      * exists (sp, c). split; [left; auto|]. rewrite F2 by auto. apply K1; auto.
      * destruct (C2 i) as (it & Hit & E); [apply filter_In; split; auto; destruct (memb_reflect i s); auto|].
        exists it. split; [right; auto|auto].
    + constructor.
      * rewrite (countb_perm _ P), countb_app. rewrite (countb_0 _ free').
        -- unfold countb. rewrite (proj2 (filter_ext_in_iff _ (fun _ => true) s)); [rewrite filter_true; lia|].
           intros i Hi. apply has_iff. rewrite F2 by auto. apply K1; auto.
        -- intros i Hi. destruct (has o (snd (sp, c)) i) eqn:E; auto. apply has_iff in E. simpl in E.
           destruct (C2 i Hi) as (it & Hit & E'). exfalso. apply Nc1. apply in_map_iff. exists it. split; auto. congruence.
      * clear - K2 P K1 F2 D Nc1. assert (G : forall it, In it items -> countb (has o (snd it)) free = countb (has o (snd it)) free').
        { intros it Hit. rewrite (countb_perm _ P), countb_app. rewrite (countb_0 _ s); [auto|]. intros i Hi.
          destruct (has o (snd it) i) eqn:E; auto. apply has_iff in E. rewrite F2, K1 in E by auto. injection E as E.
          exfalso. apply Nc1. rewrite E. apply in_map; auto. }
        clear Nc1. induction K2 as [|it k items ks E K2 IH]; constructor; [rewrite G; auto; left; auto|].
        apply IH. intros; apply G; right; auto.
Qed.

Lemma place_total space n : forall items ks free occu, NoDup free -> (forall s, In s free -> s < length occu) ->
  Forall2 (needs space n) items ks -> list_sum ks = length free -> (forall k, In k ks -> 0 < k) ->
  never_raises (place space n items free occu).
Proof.
  induction items as [|[sp c] items IH]; intros ks free occu Nf R F S Pk; inversion F as [|? k ? ks' Hk F']; subst; cbn [place].
  - apply never_raises_ret.
  - destruct Hk as (x & Ex & Ek). simpl in Ex. rewrite Ex. apply never_raises_bind; [apply never_raises_ret|].
    intros x' Hx'. apply outcome_ret in Hx'. subst x'. rewrite Ek.
    assert (Hk := Pk k (or_introl eq_refl)). cbn [list_sum fold_right] in S. fold (list_sum ks') in S.
    destruct ((Z.of_nat k <? 0)%Z || (length free =? 0)) eqn:Eg.
    { exfalso. apply orb_true_iff in Eg as [Eg|Eg]; [apply Z.ltb_lt in Eg; lia|apply Nat.eqb_eq in Eg; lia]. }
    rewrite Nat2Z.id. apply never_raises_bind; [apply never_raises_uniform, arrangements_ne; lia|].
    intros s Hs. apply choose_k_outcome in Hs. destruct (arrangements_NoDup Nf Hs) as (Ls & Ns & Is).
    destruct (@put_defined s (map (fun _ => c) s) occu) as [o1 H1]; [rewrite map_length; auto|intros; apply R, Is; auto|].
    rewrite H1. apply never_raises_bind; [apply never_raises_ret|]. intros o Ho. apply outcome_ret in Ho. subst o.
    destruct (put_const Ns H1) as (L1 & _). apply (IH ks'); auto.
    + apply NoDup_filter; auto.
    + intros i Hi. apply filter_In in Hi as [Hi _]. rewrite L1. auto.
    + pose proof (Permutation_length (split_free Nf Ns Is)) as P. rewrite app_length in P. unfold list_sum in *. lia.
    + intros; apply Pk; right; auto.
Qed.

(** Product of the factorials. *)
Definition facts (ks : list nat) : Qc := fold_right Qcmult 1%Qc (map qfact ks).

Lemma place_prob space n : forall items ks free occu t, NoDup free -> NoDup (map snd items) ->
  (forall s, In s free -> s < length occu) ->
  Forall2 (needs space n) items ks -> list_sum ks = length free -> (forall k, In k ks -> 0 < k) ->
  placed items ks free occu t ->
  prob (place space n items free occu) (fun o => occu_eqb o t) = (facts ks / qfact (length free))%Qc.
Proof.
  induction items as [|[sp c] items IH]; intros ks free occu t Nf Nc R F S Pk (Lt & Ft & Ct & Kt);
    inversion F as [|? k ? ks' Hk F']; subst; cbn [place].
  - simpl in S. destruct free; [|discriminate]. rewrite prob_ret.
    assert (t = occu) as -> by (apply list_ext; [auto|]; intros i; apply Ft; simpl; auto).
    rewrite (proj2 (occu_eqb_iff occu occu) eq_refl). apply Qc_is_canon. reflexivity.
  - destruct Hk as (x & Ex & Ek). simpl in Ex. rewrite Ex, prob_bind_opt, Ek.
    assert (Hk := Pk k (or_introl eq_refl)). cbn [list_sum fold_right] in S. fold (list_sum ks') in S.
    destruct ((Z.of_nat k <? 0)%Z || (length free =? 0)) eqn:Eg.
    { exfalso. apply orb_true_iff in Eg as [Eg|Eg]; [apply Z.ltb_lt in Eg; lia|apply Nat.eqb_eq in Eg; lia]. }
    rewrite Nat2Z.id. inversion Nc as [|? ? Nc1 Nc2]; subst. 
    assert (Kt1 : countb (has t c) free = k) by (inversion Kt; auto).
    assert (Kt2 : Forall2 (fun it k => countb (has t (snd it)) free = k) items ks') by (inversion Kt; auto).
    rewrite (@prob_bind_split _ _ _ _ _ (forallb (has t c)) (facts ks' / qfact (length free - k))%Qc).
    + rewrite choose_k_all by auto. unfold facts. cbn [map fold_right]. fold (facts ks').
      field. split; apply qfact_nz.
    + intros s Hs Es. apply choose_k_outcome in Hs. destruct (arrangements_NoDup Nf Hs) as (Ls & Ns & Is).
      rewrite forallb_forall in Es.
      destruct (@put_defined s (map (fun _ => c) s) occu) as [o1 H1]; [rewrite map_length; auto|intros; apply R, Is; auto|].
      rewrite H1, prob_bind_opt. destruct (put_const Ns H1) as (L1 & F1 & K1).
      pose proof (split_free Nf Ns Is) as P. set (free' := filter (fun i => negb (memb i s)) free) in *.
      assert (Lf : length free' = length free - k) by (apply Permutation_length in P; rewrite app_length in P; lia).
      rewrite <- Lf.
      assert (Only : forall i, In i free -> has t c i = true -> In i s).
      { intros i Hi Hti. destruct (memb_reflect i s) as [|Hm]; auto. exfalso.
        assert (X : countb (has t c) free' = 0).
        { pose proof (countb_perm (has t c) P) as Q. rewrite countb_app in Q.
          assert (countb (has t c) s = length s); [|lia].
          unfold countb. rewrite (proj2 (filter_ext_in_iff _ (fun _ => true) s)); [rewrite filter_true; auto|]. auto. }
        assert (Hf : In i (filter (has t c) free')).
        { apply filter_In. split; auto. apply filter_In. split; auto. destruct (memb_reflect i s); auto. }
        unfold countb in X. destruct (filter (has t c) free'); [destruct Hf|discriminate]. }
      apply IH; auto.
      * apply NoDup_filter; auto.
      * intros i Hi. apply filter_In in Hi as [Hi _]. rewrite L1. auto.
      * lia.
      * intros; apply Pk; right; auto.
      * split; [lia|]. split; [|split].
        -- intros i Hi. destruct (memb_reflect i s) as [Hm|Hm].
           ++ rewrite K1 by auto. apply has_iff. auto.
           ++ rewrite F1 by auto. apply Ft. intros X. apply Hi, filter_In. split; auto. destruct (memb_reflect i s); auto.
        -- intros i Hi. apply filter_In in Hi as [Hi Hm]. destruct (Ct i Hi) as (it & [<-|Hit] & E); [|eauto].
           exfalso. assert (X : In i s) by (apply Only; auto; apply has_iff; auto).
           destruct (memb_reflect i s); [discriminate|tauto].
        -- assert (G : forall it, In it items -> countb (has t (snd it)) free' = countb (has t (snd it)) free).
           { intros it Hit. rewrite (countb_perm (has t (snd it)) P), countb_app. rewrite (countb_0 _ s); [auto|]. intros i Hi.
             destruct (has t (snd it) i) eqn:E; auto. apply has_iff in E. apply Es, has_iff in Hi. rewrite Hi in E. injection E as E.
             exfalso. apply Nc1. rewrite E. apply in_map; auto. }
           clear - G Kt2. induction Kt2 as [|it k items ks E K2 IH]; constructor; [rewrite G; auto; left; auto|].
           apply IH. intros; apply G; right; auto.
    + intros s Hs Es. apply choose_k_outcome in Hs. destruct (arrangements_NoDup Nf Hs) as (Ls & Ns & Is).
      apply prob_false. intros o Ho. apply outcome_bind in Ho as (o1 & H1 & Ho). apply outcome_of_opt in H1.
      destruct (put_const Ns H1) as (L1 & F1 & K1).
      pose proof (split_free Nf Ns Is) as P. apply (place_sound (ks := ks')) in Ho as (_ & F2 & _); auto.
      * destruct (occu_eqb o t) eqn:Eo; auto. apply occu_eqb_iff in Eo. subst o. exfalso.
        assert (X : forallb (has t c) s = true); [|congruence].
        apply forallb_forall. intros i Hi. apply has_iff. rewrite F2; [auto|].
        intros Hf. apply filter_In in Hf as [_ Hf]. destruct (memb_reflect i s); [discriminate|tauto].
      * apply NoDup_filter; auto.
      * apply Permutation_length in P. rewrite app_length in P. lia.
Qed.

(** ** All sublattices *)
Lemma Forall2_map_snd {A B C} (P : B -> C -> Prop) (items : list (A * B)) ks :
  Forall2 (fun it k => P (snd it) k) items ks <-> Forall2 P (map snd items) ks.
Proof.
  revert ks. induction items as [|it items IH]; intros ks; simpl.
  - split; intros H; inversion H; constructor.
  - split; intros H; inversion H; subst; constructor; auto; apply IH; auto.
Qed.

Lemma map_snd_combine {A B} (l : list A) (m : list B) : length l = length m -> map snd (combine l m) = m.
Proof. revert m. induction l as [|x l IH]; intros [|y m] H; simpl in *; try discriminate; auto. rewrite IH; auto. Qed.

(** The numbers [ks] of the species of a sublattice, as the loop computes them. *)
Definition ready1 leb (c : composition) (sl : sublattice) (ks : list nat) : Prop :=
  exists space, mk_site_space leb c = Some space /\
    Forall2 (needs space (length (sl_sites sl))) (combine (sl_species sl) (sl_encoding sl)) ks /\
    list_sum ks = length (sl_sites sl) /\ (forall k, In k ks -> 0 < k) /\
    NoDup (sl_encoding sl) /\ length (sl_species sl) = length (sl_encoding sl).
Fixpoint ready leb comps sls kss : Prop :=
  match comps, sls, kss with
  | c :: comps', sl :: sls', ks :: kss' => ready1 leb c sl ks /\ ready leb comps' sls' kss'
  | [], [], [] => True
  | _, _, _ => False
  end.

(** The occupancy has the given numbers of every code on every sublattice. *)
Definition tallied (sls : list sublattice) (kss : list (list nat)) (t : list nat) : Prop :=
  Forall2 (fun sl ks => Forall2 (fun c k => countb (has t c) (sl_sites sl) = k) (sl_encoding sl) ks) sls kss.

Lemma placed_codes leb c sl ks occu o : ready1 leb c sl ks ->
  (placed (combine (sl_species sl) (sl_encoding sl)) ks (sl_sites sl) occu o <->
   length o = length occu /\ (forall s, ~ In s (sl_sites sl) -> nth_error o s = nth_error occu s) /\
   (forall s, In s (sl_sites sl) -> exists c', nth_error o s = Some c' /\ In c' (sl_encoding sl)) /\
   Forall2 (fun c' k => countb (has o c') (sl_sites sl) = k) (sl_encoding sl) ks).
Proof.
  intros (space & _ & _ & _ & _ & _ & E). pose proof (map_snd_combine E) as M. unfold placed.
  rewrite (Forall2_map_snd (fun c' k => countb (has o c') (sl_sites sl) = k)), M.
  assert (X : (forall s, In s (sl_sites sl) -> exists it, In it (combine (sl_species sl) (sl_encoding sl)) /\ nth_error o s = Some (snd it)) <->
    (forall s, In s (sl_sites sl) -> exists c', nth_error o s = Some c' /\ In c' (sl_encoding sl))).
  { split; intros H s Hs; destruct (H s Hs) as (a & H1 & H2).
    - exists (snd a). split; auto. rewrite <- M. apply in_map; auto.
    - rewrite <- M in H2. apply in_map_iff in H2 as (it & <- & Hit). eauto. }
  rewrite X. tauto.
Qed.

Lemma tallied_ext sls kss t t' : (forall s, In s (all_sites sls) -> nth_error t s = nth_error t' s) ->
  tallied sls kss t -> tallied sls kss t'.
Proof.
  intros E H. revert E. induction H as [|sl ks sls kss K H IH]; intros E; constructor.
  - clear - E K. induction K as [|c k cs ks Ek K IH]; constructor; auto. rewrite <- Ek. apply countb_ext.
    intros s Hs. unfold has. rewrite E; auto. apply in_all_sites. exists sl. split; [left|]; auto.
  - apply IH. intros s Hs. apply E. unfold all_sites. cbn [map concat]. apply in_or_app; auto.
Qed.

Lemma place_all_sound leb : forall comps sls kss occu o, NoDup (all_sites sls) -> ready leb comps sls kss ->
  outcome (place_all leb comps sls occu) o -> filled sls occu o /\ tallied sls kss o.
Proof.
  induction comps as [|c comps IH]; intros [|sl sls] [|ks kss] occu o Nd Rd H; cbn [ready place_all] in *; try tauto.
  - apply outcome_ret in H. subst o. split; [|constructor]. split; auto. split; auto. simpl; tauto.
  - destruct Rd as [R1 Rd]. pose proof (nodup_all_cons Nd) as (N1 & N2 & D).
    pose proof R1 as (space & E & Hn & Hs & Hp & Ne & El). rewrite E in H.
    apply outcome_bind in H as (sp & Hsp & H). apply outcome_ret in Hsp. subst sp.
    apply outcome_bind in H as (o1 & H1 & H).
    apply (place_sound (ks := ks)) in H1; auto; [|rewrite map_snd_combine; auto].
    apply (placed_codes _ _ R1) in H1 as (L1 & F1 & C1 & K1).
    apply (IH _ kss) in H as [(L2 & F2 & C2) T2]; auto. split; [split; [lia|split]|constructor; auto].
    + intros s Hs'. unfold all_sites in Hs'. cbn [map concat] in Hs'. rewrite F2, F1; auto; intros X; apply Hs', in_or_app; auto.
    + intros sl' s [<-|Hin] Hs'; [|eauto]. rewrite F2 by auto. auto.
    + clear - K1 F2 D. induction K1 as [|c k cs ks Ek K IH]; constructor; auto. rewrite <- Ek. apply countb_ext.
      intros s Hs. unfold has. rewrite F2; auto.
Qed.

Lemma place_all_total leb : forall comps sls kss occu, NoDup (all_sites sls) -> (forall s, In s (all_sites sls) -> s < length occu) ->
  ready leb comps sls kss -> never_raises (place_all leb comps sls occu).
Proof.
  induction comps as [|c comps IH]; intros [|sl sls] [|ks kss] occu Nd R Rd; cbn [ready place_all] in *; try tauto;
    [apply never_raises_ret|].
  destruct Rd as [R1 Rd]. pose proof (nodup_all_cons Nd) as (N1 & N2 & D). unfold all_sites in R. cbn [map concat] in R.
  pose proof R1 as (space & E & Hn & Hs & Hp & Ne & El). rewrite E.
  apply never_raises_bind; [apply never_raises_ret|]. intros sp Hsp. apply outcome_ret in Hsp. subst sp.
  apply never_raises_bind; [apply (place_total (ks := ks)); auto; intros; apply R, in_or_app; auto|].
  intros o1 H1. apply (place_sound (ks := ks)) in H1; auto; [|rewrite map_snd_combine; auto].
  destruct H1 as (L1 & _). apply (IH _ kss); auto. intros s Hs'. rewrite L1. apply R, in_or_app; auto.
Qed.

(** One over the number of arrangements. *)
Definition share (sls : list sublattice) (kss : list (list nat)) : Qc :=
  fold_right Qcmult 1%Qc (map (fun p => (facts (snd p) / qfact (length (sl_sites (fst p))))%Qc) (combine sls kss)).

Lemma place_all_prob leb : forall comps sls kss occu t, NoDup (all_sites sls) ->
  (forall s, In s (all_sites sls) -> s < length occu) -> ready leb comps sls kss ->
  filled sls occu t -> tallied sls kss t ->
  prob (place_all leb comps sls occu) (fun o => occu_eqb o t) = share sls kss.
Proof.
  induction comps as [|c comps IH]; intros [|sl sls] [|ks kss] occu t Nd R Rd (Lt & Ft & Ct) T; cbn [ready place_all] in *; try tauto.
  - rewrite prob_ret. assert (t = occu) as -> by (apply list_ext; [auto|]; intros i; apply Ft; simpl; auto).
    rewrite (proj2 (occu_eqb_iff occu occu) eq_refl). reflexivity.
  - destruct Rd as [R1 Rd]. pose proof (nodup_all_cons Nd) as (N1 & N2 & D). unfold all_sites in R. cbn [map concat] in R.
    pose proof R1 as (space & E & Hn & Hs & Hp & Ne & El). rewrite E, prob_bind_opt.
    assert (T1 : Forall2 (fun c' k => countb (has t c') (sl_sites sl) = k) (sl_encoding sl) ks) by (inversion T; auto).
    assert (T2 : tallied sls kss t) by (inversion T; auto).
    assert (Rs : forall s, In s (sl_sites sl) -> s < length occu) by (intros; apply R, in_or_app; auto).
    pose (t1 := fst (fold_left (fun p s => (upd (fst p) s (nth s t 0), tt)) (sl_sites sl) (occu, tt))).
    assert (Ht1 : length t1 = length occu /\ (forall s, In s (sl_sites sl) -> nth_error t1 s = nth_error t s) /\
                  (forall s, ~ In s (sl_sites sl) -> nth_error t1 s = nth_error occu s)).
    { unfold t1. assert (Rt : forall s, In s (sl_sites sl) -> s < length t) by (intros; rewrite Lt; auto). clear - Rs Rt.
      revert Rs Rt. generalize (sl_sites sl) as ss. intros ss. revert occu. induction ss as [|s ss IH]; intros occu Rs Rt; simpl.
      - split; auto. split; [tauto|auto].
      - destruct (IH (upd occu s (nth s t 0))) as (La & Fa & Ka).
        + intros; rewrite length_upd; apply Rs; right; auto.
        + intros; apply Rt; right; auto.
        + rewrite length_upd in La. split; auto. split.
          * intros i Hi. destruct (in_dec Nat.eq_dec i ss) as [Hi'|Hi']; [auto|]. destruct Hi as [->|]; [|tauto].
            rewrite Ka, nth_error_upd_eq by (auto; apply Rs; left; auto). symmetry. apply nth_error_nth'. apply Rt. left; auto.
          * intros i Hi. rewrite Ka by tauto. apply nth_error_upd_neq. intros ->. apply Hi. left; auto. }
    destruct Ht1 as (Lt1 & Ft1 & Gt1). clearbody t1.
    rewrite (@prob_bind_split _ _ _ _ _ (fun o => occu_eqb o t1) (share sls kss)).
    + unfold share. cbn [combine map fold_right fst snd]. fold (share sls kss). f_equal.
      apply place_prob; auto; [rewrite map_snd_combine; auto|]. apply (placed_codes _ _ R1). split; auto. split; auto. split.
      * intros s Hs'. rewrite Ft1 by auto. apply Ct; auto. left; auto.
      * clear - T1 Ft1. induction T1 as [|c k cs ks Ek K IH]; constructor; auto. rewrite <- Ek. apply countb_ext.
        intros s Hs. unfold has. rewrite Ft1; auto.
    + intros o Ho Eo. apply occu_eqb_iff in Eo. subst o. apply IH; auto.
      * intros s Hs'. rewrite Lt1. apply R, in_or_app; auto.
      * split; [lia|]. split; [|intros; apply Ct; [right|]; auto]. intros s Hs'.
        destruct (in_dec Nat.eq_dec s (sl_sites sl)) as [Hi|Hi]; [rewrite Ft1; auto|].
        rewrite Gt1 by auto. apply Ft. unfold all_sites. cbn [map concat]. intros X. apply in_app_or in X. tauto.
    + intros o Ho Eo. apply (place_sound (ks := ks)) in Ho; auto; [|rewrite map_snd_combine; auto].
      destruct Ho as (Lo & Fo & _). apply prob_false. intros o' Ho'.
      apply (place_all_sound N2 Rd) in Ho' as [(L2 & F2 & _) _].
      destruct (occu_eqb o' t) eqn:Et; auto. apply occu_eqb_iff in Et. subst o'.
      assert (X : o = t1); [|subst o; rewrite (proj2 (occu_eqb_iff t1 t1) eq_refl) in Eo; discriminate].
      apply list_ext; [lia|]. intros s. destruct (in_dec Nat.eq_dec s (sl_sites sl)) as [Hi|Hi].
      * rewrite Ft1 by auto. symmetry. apply F2. auto.
      * rewrite Gt1 by auto. apply Fo. auto.
Qed.
