(** C136: the drift check of exact processors gives zero.  C137: the drift check finds inexact
    changes. *)
From Verif Require Import LibProofs KernelProofs EvaluatorSpec EvaluatorProofs EvaluatorProps ExpansionProps EwaldProps Drift.
Set Implicit Arguments.
Unset Strict Implicit.
Open Scope nat_scope.

(** ** Specification *)
(** A change is exact when it is the difference of the property before and after the flips. *)
Definition exact (property : list nat -> option Qc) (change : list nat -> step -> option Qc) (occu : list nat) (flips : step) : Prop :=
  exists before after, property occu = Some before /\ property (apply_step occu flips) = Some after /\
    change occu flips = Some (after - before)%Qc.
Definition number (allowed : list nat) (s : nat) : nat := nth s allowed 0.
Definition allowed_occu (allowed occu : list nat) : Prop := codes_ok (number allowed) (length allowed) occu.

(** ** Proofs *)
Lemma other_in n c k : In k (other_codes n c) <-> k < n /\ k <> c.
Proof. unfold other_codes. rewrite filter_In, in_seq, negb_true_iff, Nat.eqb_neq. lia. Qed.

Lemma choose_total n c d : 2 <= n -> exists k, choose (other_codes n c) d = Some k /\ k < n /\ k <> c.
Proof.
  intros H. destruct (other_codes n c) as [|x l] eqn:E.
  - exfalso. assert (In (if c =? 0 then 1 else 0) (other_codes n c)) as HI.
    { apply other_in. destruct (Nat.eqb_spec c 0); lia. }
    rewrite E in HI. destruct HI.
  - cbn [choose]. destruct (nth_error (x :: l) (d mod length (x :: l))) as [k|] eqn:F.
    + exists k. split; [reflexivity|]. apply other_in. rewrite E. exact (nth_error_In _ _ F).
    + apply nth_error_None in F. assert (d mod length (x :: l) < length (x :: l)) by (apply Nat.mod_upper_bound; discriminate). lia.
Qed.
Lemma choose_any n c k : k < n -> k <> c -> exists d, choose (other_codes n c) d = Some k.
Proof.
  intros H1 H2. assert (In k (other_codes n c)) as HI by (apply other_in; auto).
  apply In_nth_error in HI as (d & E). exists d. destruct (other_codes n c) as [|x l] eqn:F; [destruct d; discriminate|].
  cbn [choose]. rewrite Nat.mod_small; [exact E|]. apply nth_error_Some. congruence.
Qed.

Lemma drawn_allowed allowed first : length first = length allowed -> (forall s, s < length allowed -> 0 < number allowed s) ->
  allowed_occu allowed (drawn_occupancy allowed first).
Proof.
  intros HL HP. unfold drawn_occupancy, allowed_occu. split; [rewrite map_length, combine_length; lia|].
  revert first HL. induction allowed as [|n al IH]; intros [|x first] HL s c E; try discriminate HL.
  - destruct s; discriminate E.
  - cbn [combine map] in E. destruct s as [|s]; cbn [nth_error] in E.
    + injection E as <-. cbn. apply Nat.mod_upper_bound. specialize (HP 0 ltac:(cbn; lia)). cbn in HP. lia.
    + change (c < number al s). apply (IH (fun s H => HP (S s) ltac:(cbn in *; lia)) first); [cbn in HL; lia|exact E].
Qed.
Lemma drawn_any allowed occu : allowed_occu allowed occu -> drawn_occupancy allowed occu = occu.
Proof.
  intros (HL & HC). unfold drawn_occupancy. revert occu HL HC. induction allowed as [|n al IH]; intros [|c occu] HL HC; try discriminate HL; [reflexivity|].
  cbn [combine map fst snd]. f_equal.
  - apply Nat.mod_small. exact (HC 0 c eq_refl).
  - apply IH; [cbn in HL; lia|]. intros s k E. exact (HC (S s) k E).
Qed.

Lemma upd_allowed allowed occu s k : allowed_occu allowed occu -> k < number allowed s -> allowed_occu allowed (upd occu s k).
Proof.
  intros (HL & HC) Hk. split; [rewrite length_upd; exact HL|]. intros s' c E.
  destruct (Nat.eq_dec s s') as [<-|N].
  - destruct (Nat.lt_ge_cases s (length occu)).
    + rewrite nth_error_upd_eq in E by lia. injection E as <-. exact Hk.
    + exfalso. assert (s < length (upd occu s k)) by (apply nth_error_Some; congruence). rewrite length_upd in *. lia.
  - rewrite nth_error_upd_neq in E by auto. eauto.
Qed.

Lemma lists_ext {A} (l l' : list A) : (forall k, nth_error l k = nth_error l' k) -> l = l'.
Proof.
  revert l'. induction l as [|x l IH]; intros [|y l'] H; [reflexivity|discriminate (H 0)|discriminate (H 0)|].
  f_equal; [specialize (H 0); cbn in H; congruence|]. apply IH. intros k. exact (H (S k)).
Qed.

Lemma of_nat_add a b : Qc_of_nat (a + b) = (Qc_of_nat a + Qc_of_nat b)%Qc.
Proof. unfold Qc_of_nat. rewrite Nat2Z.inj_add. apply Qc_of_Z_add. Qed.
Lemma of_nat_0 : Qc_of_nat 0 = 0%Qc. Proof. apply Qc_is_canon. reflexivity. Qed.
Lemma of_nat_1 : Qc_of_nat 1 = 1%Qc. Proof. apply Qc_is_canon. reflexivity. Qed.

Lemma entry_eq (a a' b b' : Qc) (c c' : list nat) (d d' : step) (e e' : list nat) :
  Some ((a, b, c, d), e) = Some ((a', b', c', d'), e') -> a = a' /\ b = b' /\ c = c' /\ d = d' /\ e = e'.
Proof. intros H. inversion H. auto. Qed.
Lemma drift_eq (a a' b b' : Qc) : Some (a, b) = Some (a', b') -> a = a' /\ b = b'.
Proof. intros H. inversion H. auto. Qed.
Lemma of_nat_pos n : Qc_of_nat (S n) <> 0%Qc.
Proof. intros E. rewrite <- of_nat_0 in E. apply Qc_of_Z_inj in E. lia. Qed.

Section Generic.
Variables (property : list nat -> option Qc) (change : list nat -> step -> option Qc).
Variables (size : nat) (allowed : list nat).
Hypothesis Hs : 0 < size <= length allowed.
Hypothesis H2 : forall s, s < size -> 2 <= number allowed s.
Hypothesis Hx : forall occu s k, allowed_occu allowed occu -> s < size -> k < number allowed s -> exact property change occu [(s, k)].

Lemma one_iteration occu d : allowed_occu allowed occu ->
  exists dp new f, iteration property change size allowed occu d = Some ((0%Qc, dp, new, f), new) /\ allowed_occu allowed new /\ change new f = Some dp.
Proof.
  intros HA. unfold iteration. destruct size as [|sz] eqn:Es; [lia|]. rewrite <- Es in *. clear Es sz.
  assert (fst d mod size < size) as Hlt by (apply Nat.mod_upper_bound; lia). set (s := fst d mod size) in *.
  destruct HA as (HL & HC).
  destruct (nth_error allowed s) as [n|] eqn:En; [|apply nth_error_None in En; lia].
  assert (number allowed s = n) as Hn by (unfold number; apply nth_error_nth; exact En).
  destruct (nth_error occu s) as [c|] eqn:Ec; [|apply nth_error_None in Ec; lia].
  cbn [option_bind]. destruct (@choose_total n c (snd d)) as (k & -> & Hk & Hne); [rewrite <- Hn; auto|]. cbn [option_bind].
  assert (allowed_occu allowed occu) as HA by (split; auto).
  destruct (@Hx occu s k HA Hlt ltac:(lia)) as (b & a & Eb & Ea & Ed). rewrite Ed, Eb. cbn [option_bind].
  change (apply_step occu [(s, k)]) with (upd occu s k) in Ea. rewrite Ea. cbn [option_bind].
  assert (allowed_occu allowed (upd occu s k)) as HA' by (apply upd_allowed; [exact HA|lia]).
  exists (b - a)%Qc, (upd occu s k), [(s, c)]. split; [|split; [exact HA'|]].
  - do 4 f_equal. f_equal. ring.
  - destruct (@Hx (upd occu s k) s c HA' Hlt ltac:(eauto)) as (b' & a' & Eb' & Ea' & Ed').
    change (apply_step (upd occu s k) [(s, c)]) with (upd (upd occu s k) s c) in Ea'.
    assert (upd (upd occu s k) s c = occu) as U.
    { apply lists_ext. intros i. destruct (Nat.eq_dec s i) as [<-|N].
      - rewrite nth_error_upd_eq by (rewrite length_upd; lia). auto.
      - rewrite !nth_error_upd_neq by auto. reflexivity. }
    rewrite U in Ea'. rewrite Ed'. f_equal. congruence.
Qed.

Lemma all_iterations draws : forall occu, allowed_occu allowed occu ->
  exists es, iterations property change size allowed occu draws = Some es /\
    qsum (map (fun e => fst (fst (fst e))) es) = 0%Qc /\ exists rs, opt_map (back change) es = Some rs /\ qsum rs = 0%Qc.
Proof.
  induction draws as [|d ds IH]; intros occu HA.
  - exists []. repeat split; auto. exists []. auto.
  - destruct (one_iteration d HA) as (dp & new & f & E & HA' & Ec). cbn [iterations]. rewrite E. cbn [option_bind snd fst].
    destruct (IH _ HA') as (es & -> & Ef & rs & Er & Es). cbn [option_bind]. eexists. split; [reflexivity|]. split.
    + cbn [map qsum fst]. rewrite Ef. ring.
    + exists (0%Qc :: rs). cbn [opt_map back]. rewrite Ec. cbn [option_bind]. rewrite Er. split.
      * do 2 f_equal. ring.
      * cbn [qsum]. rewrite Es. ring.
Qed.

Lemma zero_drift first draws : (forall s, s < length allowed -> 0 < number allowed s) -> length first = length allowed -> draws <> [] ->
  average_drift property change size allowed first draws = Some (0%Qc, 0%Qc).
Proof.
  intros HP HL HD. unfold average_drift. destruct (all_iterations draws (drawn_allowed HL HP)) as (es & -> & Ef & rs & Er & Es).
  cbn [option_bind]. rewrite Er. cbn [option_bind]. destruct draws as [|d ds]; [congruence|]. rewrite Ef, Es.
  unfold Qcdiv. do 2 f_equal; ring.
Qed.
End Generic.

(** ** C136 *)
(** A processor that computes changes as the differences of its property has no drift, whatever
    is drawn: neither forward nor backward, after any number of iterations. *)
Theorem C136_processor size allowed p first draws : 0 < size <= length allowed ->
  (forall s, s < size -> 2 <= number allowed s) -> (forall s, s < length allowed -> 0 < number allowed s) ->
  (forall s k, s < size -> k < number allowed s -> good_part (number allowed) (length allowed) [(s, k)] p) ->
  length first = length allowed -> draws <> [] ->
  part_drift p size allowed first draws = Some (0%Qc, 0%Qc).
Proof.
  intros H1 H2 H3 H4 H5 H6. apply zero_drift; auto. intros occu s k HA Hs Hk.
  destruct (good_part_change HA (H4 s k Hs Hk)) as (b & a & E1 & E2 & E3). exists b, a. auto.
Qed.
(** The same for composites of any number of processors. *)
Theorem C136_composite size allowed ps first draws : 0 < size <= length allowed ->
  (forall s, s < size -> 2 <= number allowed s) -> (forall s, s < length allowed -> 0 < number allowed s) ->
  (forall p s k, In p ps -> s < size -> k < number allowed s -> good_part (number allowed) (length allowed) [(s, k)] p) ->
  length first = length allowed -> draws <> [] ->
  composite_drift ps size allowed first draws = Some (0%Qc, 0%Qc).
Proof.
  intros H1 H2 H3 H4 H5 H6. apply zero_drift; auto. intros occu s k HA Hs Hk.
  destruct (@C30_difference _ _ occu [(s, k)] ps HA) as (b & a & E1 & E2 & E3); [intros p Hp; auto|]. exists b, a. auto.
Qed.
(** The check is of the processor it is called on: it gives the average of what the changes
    differ from the differences, so a constant error of all changes is found as it is, with the
    same sign forward and backward. *)
Theorem C136_error property change size allowed err first draws : 0 < size <= length allowed ->
  (forall s, s < size -> 2 <= number allowed s) -> (forall s, s < length allowed -> 0 < number allowed s) ->
  (forall occu s k, allowed_occu allowed occu -> s < size -> k < number allowed s -> exact property change occu [(s, k)]) ->
  length first = length allowed -> draws <> [] ->
  average_drift property (fun o f => option_map (fun x => x - err)%Qc (change o f)) size allowed first draws = Some (err, err).
Proof.
  intros H1 H2 H3 H4 H5 H6. unfold average_drift.
  assert (forall ds occu, allowed_occu allowed occu -> exists es,
    iterations property (fun o f => option_map (fun x => x - err)%Qc (change o f)) size allowed occu ds = Some es /\
    qsum (map (fun e => fst (fst (fst e))) es) = (Qc_of_nat (length ds) * err)%Qc /\
    exists rs, opt_map (back (fun o f => option_map (fun x => x - err)%Qc (change o f))) es = Some rs /\ qsum rs = (Qc_of_nat (length ds) * err)%Qc) as HI.
  { induction ds as [|d ds IH]; intros occu HA.
    - exists []. split; [reflexivity|]. cbn [map qsum length]. rewrite of_nat_0. split; [ring|]. exists []. split; [reflexivity|cbn [qsum]; ring].
    - destruct (one_iteration H1 H2 H4 d HA) as (dp & new & f & E & HA' & Ec).
      assert (iteration property (fun o f => option_map (fun x => x - err)%Qc (change o f)) size allowed occu d = Some ((err, dp, new, f), new)) as E'.
      { unfold iteration in *. destruct size as [|sz]; [lia|]. destruct (nth_error allowed _); [|discriminate]. cbn [option_bind] in *.
        destruct (nth_error occu _); [|discriminate]. cbn [option_bind] in *. destruct (choose _ _); [|discriminate]. cbn [option_bind] in *.
        destruct (change occu _) as [x|]; [|discriminate]. cbn [option_bind option_map] in *. destruct (property occu) as [b|]; [|discriminate]. cbn [option_bind] in *.
        destruct (property _) as [a|]; [|discriminate]. cbn [option_bind] in *. apply entry_eq in E as (A1 & A2 & A3 & A4 & A5). subst.
        do 5 f_equal. replace (a - b - (x - err))%Qc with (a - b - x + err)%Qc by ring. rewrite A1. ring. }
      cbn [iterations]. rewrite E'. cbn [option_bind snd fst]. destruct (IH _ HA') as (es & -> & Ef & rs & Er & Es). cbn [option_bind].
      assert (Qc_of_nat (length (d :: ds)) = 1 + Qc_of_nat (length ds))%Qc as EL.
      { cbn [length]. rewrite <- of_nat_1, <- of_nat_add. reflexivity. }
      eexists. split; [reflexivity|]. split.
      + cbn [map qsum fst]. rewrite Ef, EL. ring.
      + exists (err :: rs). cbn [opt_map back]. rewrite Ec. cbn [option_bind option_map]. rewrite Er. split.
        * do 2 f_equal. ring.
        * cbn [qsum]. rewrite Es, EL. ring. }
  destruct (HI draws _ (drawn_allowed H5 H3)) as (es & -> & Ef & rs & Er & Es). cbn [option_bind]. rewrite Er. cbn [option_bind].
  destruct draws as [|d ds]; [congruence|]. rewrite Ef, Es.
  pose proof (@of_nat_pos (length ds)) as NZ. change (S (length ds)) with (length (d :: ds)) in NZ.
  do 2 f_equal; rewrite Qcmult_comm; unfold Qcdiv; rewrite <- Qcmult_assoc, Qcmult_inv_r by exact NZ; ring.
Qed.

(** ** C137 *)
(** An inexact change of one of the first [size] sites is found by some draws. *)
Theorem C137_found_partial property change size allowed occu s k : 0 < size <= length allowed ->
  allowed_occu allowed occu -> s < size -> k < number allowed s -> nth_error occu s <> Some k ->
  ~ exact property change occu [(s, k)] ->
  exists first draws, length first = length allowed /\ draws <> [] /\ average_drift property change size allowed first draws <> Some (0%Qc, 0%Qc).
Proof.
  intros H1 HA Hs Hk Hne Hx. pose proof HA as (HL & HC).
  destruct (nth_error occu s) as [c|] eqn:Ec; [|apply nth_error_None in Ec; lia].
  destruct (nth_error allowed s) as [n|] eqn:En; [|apply nth_error_None in En; lia].
  assert (number allowed s = n) as Hn by (unfold number; apply nth_error_nth; exact En).
  destruct (@choose_any n c k) as (d & Ed); [lia|congruence|].
  exists occu, [(s, d)]. split; [exact HL|]. split; [discriminate|]. intros E. apply Hx. unfold average_drift in E.
  rewrite (drawn_any HA) in E. cbn [iterations] in E. unfold iteration in E. destruct size as [|sz] eqn:Es; [lia|]. rewrite <- Es in *.
  cbn [fst snd] in E. rewrite (Nat.mod_small s) in E by lia. rewrite En in E. cbn [option_bind] in E. rewrite Ec in E. cbn [option_bind] in E.
  rewrite Ed in E. cbn [option_bind] in E. destruct (change occu [(s, k)]) as [x|] eqn:Ex; [|discriminate]. cbn [option_bind] in E.
  destruct (property occu) as [b|] eqn:Eb; [|discriminate]. cbn [option_bind] in E.
  destruct (property (upd occu s k)) as [a|] eqn:Ea; [|discriminate]. cbn [option_bind snd fst opt_map back] in E.
  destruct (change (upd occu s k) [(s, c)]) as [y|]; [|discriminate]. cbn [option_bind map qsum length fst] in E.
  apply drift_eq in E as (E & _). rewrite of_nat_1 in E. exists b, a. split; [exact Eb|]. split; [exact Ea|]. rewrite Ex. f_equal.
  assert (a - b - x = 0)%Qc as E3. { rewrite <- E. field. discriminate. }
  replace x with (a - b - (a - b - x))%Qc by ring. rewrite E3. ring.
Qed.

(** Only the first [size] sites are ever flipped, and [size] is the number of primitive cells, not
    of sites: changes of other sites may be anything. *)
Theorem C137_unseen property change wrong size allowed first draws : 0 < size <= length allowed ->
  (forall s, s < size -> 2 <= number allowed s) -> (forall s, s < length allowed -> 0 < number allowed s) ->
  (forall occu s k, allowed_occu allowed occu -> s < size -> k < number allowed s -> exact property change occu [(s, k)]) ->
  length first = length allowed -> draws <> [] ->
  average_drift property (fun o f => if forallb (fun x => fst x <? size) f then change o f else wrong o f) size allowed first draws = Some (0%Qc, 0%Qc).
Proof.
  intros H1 H2 H3 H4 H5 H6. apply zero_drift; auto. intros occu s k HA Hs Hk. destruct (H4 occu s k HA Hs Hk) as (b & a & E).
  exists b, a. cbn [forallb fst]. assert (s <? size = true) as -> by (apply Nat.ltb_lt; exact Hs). exact E.
Qed.

(** A processor for a primitive cell of two sites with two species each, whose property is the code
    of the second site and whose changes are all zero: every check of it gives zero. *)
Definition blind : part := Scale (Q2Qc 1) (fun occu => option_map Qc_of_nat (nth_error occu 1)) (fun _ _ => Some (Q2Qc 0)).
Theorem C137_sites_refuted : ~ (forall p size allowed occu s k, 0 < size <= length allowed ->
  (forall s, s < length allowed -> 2 <= number allowed s) -> allowed_occu allowed occu -> s < length allowed -> k < number allowed s ->
  nth_error occu s <> Some k -> ~ exact (part_property p) (part_property_change p) occu [(s, k)] ->
  exists first draws, length first = length allowed /\ draws <> [] /\ part_drift p size allowed first draws <> Some (0%Qc, 0%Qc)).
Proof.
  intros H. destruct (H blind 1 [2; 2] [0; 0] 1 1) as (first & draws & HL & HD & HX).
  - cbn. lia.
  - intros [|[|s]] Hs; cbn in *; lia.
  - split; [reflexivity|]. intros [|[|[|s]]] c E; cbn in E; try discriminate E; injection E as <-; cbn; lia.
  - cbn. lia.
  - cbn. lia.
  - discriminate.
  - intros (b & a & E1 & E2 & E3). vm_compute in E1, E2. injection E1 as <-. injection E2 as <-. vm_compute in E3. discriminate E3.
  - apply HX. apply zero_drift; auto.
    + cbn. lia.
    + intros [|s] Hs; cbn in *; lia.
    + intros occu [|s] k (HA & HC) Hs Hk; [|lia]. destruct occu as [|x [|y [|z occu]]]; try discriminate HA.
      exists (1 * Qc_of_nat y)%Qc, (1 * Qc_of_nat y)%Qc. split; [reflexivity|]. split; [reflexivity|].
      cbn [blind part_property_change option_bind]. f_equal. ring.
    + intros [|[|s]] Hs; cbn in *; lia.
Qed.

(** A site with one species among the first [size] makes the check raise when it is drawn; with one
    primitive cell whose first site is such a one, it always raises. *)
Theorem C137_raises_refuted p allowed first draws : number allowed 0 = 1 -> length first = length allowed -> draws <> [] ->
  part_drift p 1 allowed first draws = None.
Proof.
  intros H1 HL HD. destruct draws as [|d ds]; [congruence|]. unfold part_drift, average_drift. cbn [iterations]. unfold iteration.
  rewrite Nat.mod_1_r. destruct allowed as [|n al]; [discriminate H1|]. cbn in H1. subst n. destruct first as [|x first]; [discriminate HL|].
  cbn [nth_error option_bind drawn_occupancy combine map fst snd]. rewrite Nat.mod_1_r. cbn. reflexivity.
Qed.

(** ** Cases *)
(** The Ewald processor of C28 with a coefficient, on two cells: the third site has one species. *)
Example C136_case : let p := ewald_part 4 case_M (fst (ewald_structure case_spaces)) (Qc_of_nat 2) in
  (forall s k, s < 2 -> k < number [3; 2; 1] s -> good_part (number [3; 2; 1]) 3 [(s, k)] p) /\
  composite_drift [p; p] 2 [3; 2; 1] [7; 1; 4] [(0, 0); (5, 3); (1, 1)] = Some (0%Qc, 0%Qc).
Proof.
  assert (EwaldProps.symmetric 4 case_M) as HM by (intros i j _ _; unfold case_M; f_equal; lia).
  cbn zeta. assert (forall s k, s < 2 -> k < number [3; 2; 1] s -> good_part (number [3; 2; 1]) 3 [(s, k)] (ewald_part 4 case_M (fst (ewald_structure case_spaces)) (Qc_of_nat 2))) as HG.
  { intros s k Hs Hk. apply (@good_ewald _ 3 _ case_spaces case_M); auto.
    - intros [|[|[|x]]] Hx; try reflexivity; lia.
    - intros s' k' [E|[]]. injection E as <- <-. split; [lia|auto]. }
  split; [exact HG|]. apply C136_composite; auto; try discriminate.
  - cbn; lia.
  - intros [|[|[|s]]] Hs; cbn in *; lia.
  - intros [|[|[|s]]] Hs; cbn in *; lia.
  - intros p s k [<-|[<-|[]]] Hs Hk; apply HG; auto.
Qed.
Example C137_case : part_drift blind 2 [2; 2] [0; 0] [(1, 0)] = Some (1%Qc, (-(1))%Qc) /\ part_drift blind 1 [2; 2] [0; 0] [(1, 0)] = Some (0%Qc, 0%Qc).
Proof. split; vm_compute; do 2 f_equal; apply Qc_is_canon; reflexivity. Qed.

Print Assumptions C136_processor.
Print Assumptions C136_composite.
Print Assumptions C136_error.
Print Assumptions C137_found_partial.
Print Assumptions C137_unseen.
Print Assumptions C137_sites_refuted.
Print Assumptions C137_raises_refuted.
