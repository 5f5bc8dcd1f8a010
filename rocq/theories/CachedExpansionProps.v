(** Properties C141 and C142: what an expansion remembers agrees with its coefficients. *)
From Verif Require Import CachedExpansion LibProofs EvaluatorSpec EvaluatorProofs EvaluatorProps SubspaceSpec SubspaceProofs SubspaceProps TensorProofs ExpansionProps PruneProps ClusterWeightsProps.
From Verif Require EnsembleMakeProps.
From Coq Require Import Lia.
Set Implicit Arguments.
Unset Strict Implicit.
Local Open Scope nat_scope.

(** ** Specification *)
(** The history has no assignment of coefficients. *)
Definition no_assign (os : list xop) : Prop := forall cs, ~ In (XCoefs cs) os.
(** What reading gives for the coefficients [cs]: effective interactions, tensors, weights and interactions of every occupancy. *)
Record reads_right (sd : nat -> nat) (N : nat) (tab : nat -> ctable) (x : cexp) : Prop := {
  rr_eci : exists e y, read_eci x = Some (e, y) /\
    e = nth 0 (ce_coefs x) 0%Qc :: flat_map (fun o => map (orbit_eci (ce_coefs x) o) (seq 0 (s_len o))) (sub_orbits (ce_sub x));
  rr_tens : exists c ts y, read_tens x = Some ((c, ts), y) /\ c = nth 0 (ce_coefs x) 0%Qc /\ length ts = length (sub_orbits (ce_sub x)) /\
    forall n o fs, nth_error (sub_orbits (ce_sub x)) n = Some o -> correlation_tensors o = Some fs -> forall j,
      (Qc_of_nat (s_mult o) * nth j (nth n ts []) 0 = qsum (map (fun k => nth (s_bit o + k) (ce_coefs x) 0 * nth j (nth k fs []) 0) (seq 0 (s_len o))))%Qc;
  rr_weights : exists w y, read_weights x = Some (w, y) /\ length w = S (length (sub_orbits (ce_sub x))) /\
    nth_error w 0 = Some (nth 0 (ce_coefs x) 0 * nth 0 (ce_coefs x) 0)%Qc /\
    forall o, In o (sub_orbits (ce_sub x)) -> nth_error w (s_id o) = Some (orbit_weight (ce_coefs x) o);
  rr_inter : forall occu ext, codes_ok sd N occu -> length ext = ce_next x ->
    exists g p, cexp_interactions x (tables_of tab (ce_sub x)) occu = Some g /\ length g = sub_norb (ce_sub x) /\
      cexp_predict x (tables_of tab (ce_sub x)) occu ext = Some p /\
      p = (qdot (1%Qc :: map (fun o => Qc_of_nat (s_mult o)) (sub_orbits (ce_sub x))) g + qdot (skipn (sub_ncorr (ce_sub x)) (ce_coefs x)) ext)%Qc
}.

(** ** Invariant *)
Definition now_eci (x : cexp) := eci (sub_orbits (ce_sub x)) (ce_coefs x) (ce_next x).
Definition now_tens (x : cexp) := interaction_tensors (sub_orbits (ce_sub x)) (ce_coefs x) (ce_next x).
Definition half_good (x : cexp) : Prop := (forall e, ce_eci x = Some e -> now_eci x = Some e) /\ (forall t, ce_tens x = Some t -> now_tens x = Some t).
Definition good (x : cexp) : Prop := half_good x /\ ce_eval x = now_tens x /\ now_tens x <> None.
Definition same (x y : cexp) : Prop := ce_sub y = ce_sub x /\ ce_coefs y = ce_coefs x /\ ce_next y = ce_next x /\ ce_eval y = ce_eval x.

Lemma read_eci_good x : half_good x -> match read_eci x with
  | Some (e, y) => now_eci x = Some e /\ same x y /\ half_good y /\ ce_eci y = Some e /\ ce_tens y = ce_tens x
  | None => now_eci x = None end.
Proof.
  intros [H1 H2]. unfold read_eci. destruct (ce_eci x) as [e|] eqn:E.
  - repeat split; auto. intros e' E'. apply H1. congruence.
  - fold (now_eci x). destruct (now_eci x) as [e|] eqn:En; cbn [option_bind]; auto.
    repeat split; auto. intros e' [= <-]. exact En.
Qed.
Lemma read_tens_good x : half_good x -> match read_tens x with
  | Some (t, y) => now_tens x = Some t /\ same x y /\ half_good y /\ ce_tens y = Some t
  | None => now_tens x = None end.
Proof.
  intros H. pose proof H as [H1 H2]. unfold read_tens. destruct (ce_tens x) as [t|] eqn:E.
  - repeat split; auto. intros t' E'. apply H2. congruence.
  - pose proof (read_eci_good H) as R. unfold now_tens, interaction_tensors. destruct (nth_error (ce_coefs x) 0) as [c0|] eqn:E0; cbn [option_bind]; auto.
    fold (now_eci x). destruct (read_eci x) as [[e y]|]; cbn [option_bind fst snd].
    + destruct R as (R1 & R2 & R3 & R4 & R5). rewrite R1. cbn [option_bind]. destruct (opt_map (interaction_tensor e) (sub_orbits (ce_sub x))) as [ts|] eqn:Et; cbn [option_bind]; auto.
      split; auto. split; [exact R2|]. split; [|auto]. split; cbn [ce_eci ce_tens].
      * intros e' E'. destruct R3 as [R3 _]. exact (R3 e' E').
      * intros t [= <-]. unfold now_tens, interaction_tensors. cbn [ce_sub ce_coefs ce_next]. destruct R2 as (-> & -> & -> & _). rewrite E0. cbn [option_bind].
        fold (now_eci x). rewrite R1. cbn [option_bind]. rewrite Et. auto.
    + rewrite R. auto.
Qed.
Lemma same_now x y : same x y -> now_eci y = now_eci x /\ now_tens y = now_tens x.
Proof. intros (A & B & C & _). unfold now_eci, now_tens. rewrite A, B, C. auto. Qed.
Lemma good_same x y : good x -> same x y -> half_good y -> good y.
Proof. intros (_ & H1 & H2) S H. destruct (same_now S) as [_ E]. split; auto. rewrite E. destruct S as (_ & _ & _ & ->). auto. Qed.
Lemma set_eval_good x : half_good x -> match set_eval x with
  | Some y => good y /\ ce_sub y = ce_sub x /\ ce_coefs y = ce_coefs x /\ ce_next y = ce_next x
  | None => now_tens x = None end.
Proof.
  intros H. unfold set_eval. pose proof (read_tens_good H) as R. destruct (read_tens x) as [[t y]|]; cbn [option_bind fst snd]; auto.
  destruct R as (R1 & R2 & R3 & R4). destruct (same_now R2) as [_ E]. destruct R2 as (A & B & C & D). split; [|cbn; auto]. split; [exact R3|].
  change (now_tens (mkCE (ce_sub y) (ce_coefs y) (ce_next y) (ce_eci y) (ce_tens y) (Some t))) with (now_tens y). rewrite E, R1. cbn [ce_eval]. split; [auto|discriminate].
Qed.
Lemma read_weights_good x : half_good x -> match read_weights x with
  | Some (w, y) => effective_weights (sub_orbits (ce_sub x)) (ce_coefs x) (ce_next x) = Some w /\ same x y /\ half_good y
  | None => effective_weights (sub_orbits (ce_sub x)) (ce_coefs x) (ce_next x) = None end.
Proof.
  intros H. unfold read_weights, effective_weights. pose proof (read_eci_good H) as R. fold (now_eci x). destruct (read_eci x) as [[e y]|]; cbn [option_bind fst snd].
  - destruct R as (-> & R2 & R3 & _). cbn [option_bind]. fold (weights_of (sub_orbits (ce_sub x)) e). destruct (weights_of _ _); cbn [option_bind]; auto.
  - rewrite R. auto.
Qed.

(** Pruning drops both caches, so they are made again from the coefficients that are left. *)
Lemma after_drop x : (exists y w, drop_eci x = Some y /\ drop_tens y = Some w /\ half_good w /\ ce_sub w = ce_sub x /\ ce_coefs w = ce_coefs x /\ ce_next w = ce_next x) \/
  (now_tens x = None /\ match drop_eci x with Some y => drop_tens y = None | None => True end).
Proof.
  assert (Hd : forall e y, read_eci x = Some (e, y) -> ce_sub y = ce_sub x /\ ce_coefs y = ce_coefs x /\ ce_next y = ce_next x /\ ce_tens y = ce_tens x).
  { intros e y. unfold read_eci. destruct (ce_eci x); [intros [= <- <-]; auto|]. destruct (eci _ _ _); [|discriminate]. cbn [option_bind]. intros [= <- <-]. auto. }
  unfold drop_eci. destruct (read_eci x) as [[e y]|] eqn:E; cbn [option_bind fst snd].
  - destruct (Hd e y eq_refl) as (A & B & C & D). set (z := mkCE (ce_sub y) (ce_coefs y) (ce_next y) None (ce_tens y) (ce_eval y)).
    assert (Ez : now_tens z = now_tens x) by (unfold now_tens, z; cbn [ce_sub ce_coefs ce_next]; rewrite A, B, C; auto).
    unfold drop_tens. destruct (ce_tens y) as [t|] eqn:Et.
    + left. exists z. eexists. split; auto. unfold read_tens. unfold z. cbn [ce_tens]. rewrite ?Et. cbn [option_bind snd]. split; [reflexivity|]. cbn. split; [split; cbn; discriminate|auto].
    + assert (Hh : half_good z) by (split; unfold z; cbn; [discriminate|rewrite ?Et; discriminate]).
      pose proof (read_tens_good Hh) as R. destruct (read_tens z) as [[t w]|] eqn:Er; cbn [option_bind fst snd].
      * left. exists z. eexists. split; auto. rewrite Er. cbn [option_bind snd]. split; [reflexivity|]. destruct R as (_ & (A' & B' & C' & _) & [R3 _] & _).
        unfold z in A', B', C'. cbn [ce_sub ce_coefs ce_next] in A', B', C'. cbn. rewrite A', B', C'. split; [|auto]. split; [|discriminate]. intros e0 E0. specialize (R3 e0 E0). unfold now_eci in *. cbn [ce_sub ce_coefs ce_next]. rewrite A', B', C' in R3. exact R3.
      * right. rewrite <- Ez. split; auto.
  - right. split; auto. unfold read_eci in E. destruct (ce_eci x); [discriminate|]. unfold now_tens, interaction_tensors.
    destruct (eci _ _ _); [discriminate|]. destruct (nth_error (ce_coefs x) 0); auto.
Qed.
(** Pruning of the object is pruning of its coefficients and subspace, and the caches are right afterwards. *)
Lemma prune_good thr (wm : bool) x : (if wm then half_good x else True) ->
  match prune thr wm (ce_coefs x) (ce_next x) (ce_sub x) with
  | Some (cs, st) => exists y, prune_cexp thr wm x = Some y /\ good y /\ ce_coefs y = cs /\ ce_sub y = st /\ ce_next y = ce_next x
  | None => prune_cexp thr wm x = None
  end.
Proof.
  intros H. unfold prune, prune_cexp.
  assert (Hr : match (if wm then read_eci x else Some (ce_coefs x, x)) with
    | Some (sel, y) => (if wm then eci (sub_orbits (ce_sub x)) (ce_coefs x) (ce_next x) else Some (ce_coefs x)) = Some sel /\ ce_sub y = ce_sub x /\ ce_coefs y = ce_coefs x /\ ce_next y = ce_next x
    | None => (if wm then eci (sub_orbits (ce_sub x)) (ce_coefs x) (ce_next x) else Some (ce_coefs x)) = None end).
  { destruct wm; [|auto]. pose proof (read_eci_good H) as R. destruct (read_eci x) as [[e y]|]; [|exact R]. destruct R as (R1 & (A & B & C & _) & _). auto. }
  destruct (if wm then read_eci x else Some (ce_coefs x, x)) as [[sel y]|]; [|rewrite Hr; cbn [option_bind]; reflexivity].
  destruct Hr as (-> & A & B & C). cbn [option_bind fst snd]. rewrite A, B, C. destruct (remove_corr (small_ids thr sel) (ce_sub x)) as [st|]; cbn [option_bind]; auto.
  set (z := mkCE st (drop_at (small_ids thr sel) 0 (ce_coefs x)) (ce_next x) (ce_eci y) (ce_tens y) (ce_eval y)).
  change (interaction_tensors (sub_orbits st) (drop_at (small_ids thr sel) 0 (ce_coefs x)) (ce_next x)) with (now_tens z).
  destruct (after_drop z) as [(u & w & E1 & E2 & Hw & A' & B' & C')|[En E]].
  - rewrite E1. cbn [option_bind]. rewrite E2. cbn [option_bind]. assert (Ew : now_tens w = now_tens z) by (unfold now_tens; rewrite A', B', C'; auto).
    pose proof (set_eval_good Hw) as R. destruct (set_eval w) as [v|].
    + destruct R as (R1 & R2 & R3 & R4). destruct (now_tens z) eqn:Ez; cbn [option_bind].
      * exists v. rewrite R2, R3, R4, A', B', C'. auto.
      * exfalso. destruct R1 as (_ & _ & R1). apply R1. unfold now_tens. rewrite R2, R3, R4. fold (now_tens w). congruence.
    + rewrite <- Ew, R. cbn [option_bind]. reflexivity.
  - rewrite En. cbn [option_bind]. destruct (drop_eci z) as [u|]; cbn [option_bind]; auto. rewrite E. auto.
Qed.
Lemma xop_good o x y : good x -> (forall cs, o <> XCoefs cs) -> xop_run o x = Some y -> good y /\ ce_next y = ce_next x.
Proof.
  intros HG Ho E. pose proof HG as (HH & _ & _). destruct o as [| | |thr wm|cs]; cbn [xop_run] in E.
  - pose proof (read_eci_good HH) as R. destruct (read_eci x) as [[e z]|]; [|discriminate]. injection E as <-. destruct R as (_ & R2 & R3 & _). split; [apply (good_same HG R2 R3)|apply R2].
  - pose proof (read_tens_good HH) as R. destruct (read_tens x) as [[e z]|]; [|discriminate]. injection E as <-. destruct R as (_ & R2 & R3 & _). split; [apply (good_same HG R2 R3)|apply R2].
  - pose proof (read_weights_good HH) as R. destruct (read_weights x) as [[e z]|]; [|discriminate]. injection E as <-. destruct R as (_ & R2 & R3). split; [apply (good_same HG R2 R3)|apply R2].
  - pose proof (@prune_good thr wm x ltac:(destruct wm; auto)) as R. destruct (prune _ _ _ _ _) as [[cs st]|]; [|congruence]. destruct R as (z & Ez & Hz & _ & _ & Hn). rewrite E in Ez. injection Ez as <-. auto.
  - destruct (Ho cs eq_refl).
Qed.
Lemma xrun_good os x y : good x -> no_assign os -> xrun os x = Some y -> good y /\ ce_next y = ce_next x.
Proof.
  revert x. induction os as [|o os IH]; intros x HG Hn E; cbn [xrun] in E; [injection E as <-; auto|].
  destruct (xop_run o x) as [z|] eqn:Ez; [|discriminate]. cbn [option_bind] in E.
  destruct (xop_good HG (fun cs H => Hn cs (or_introl H)) Ez) as [Hz Nz]. destruct (IH z Hz (fun cs H => Hn cs (or_intror H)) E). split; auto. congruence.
Qed.

(** ** C141 *)
Lemma qdot_app a : forall b c d, length a = length c -> qdot (a ++ b) (c ++ d) = (qdot a c + qdot b d)%Qc.
Proof. intros b c d. apply EnsembleMakeProps.qdot_app. Qed.
Lemma good_reads sd N tab x : good x -> expansion_ok sd N (ce_sub x) (tables_of tab (ce_sub x)) -> length (ce_coefs x) = sub_ncorr (ce_sub x) + ce_next x ->
  reads_right sd N tab x.
Proof.
  intros (HH & HV & HN) HE HL. pose proof (ex_cons HE) as HC. constructor.
  - pose proof (read_eci_good HH) as R. destruct (eci_blocks HC (ex_mult HE) HL) as (e & Ee & Eq). unfold now_eci in R. rewrite Ee in R.
    destruct (read_eci x) as [[e' y]|]; [|discriminate]. destruct R as ([= <-] & _). exists e, y. auto.
  - pose proof (read_tens_good HH) as R. destruct (exp_proc 1 HE HL) as (P & e & EP & Ee & EqP & Hn).
    destruct (read_tens x) as [[[c ts] y]|]; [|congruence]. destruct R as (Et & _). unfold expansion_proc in EP. fold (now_tens x) in EP. rewrite Et in EP. cbn [option_bind fst snd] in EP.
    destruct (opt_map orbit_data _); [|discriminate]. cbn [option_bind] in EP. injection EP as EP. rewrite EqP in EP. injection EP as _ Ec Ets.
    exists c, ts, y. split; auto. split; auto. rewrite Ets, map_length. split; auto. intros n o fs Ho Hf j.
    assert (Hr : nth_error (tables_of tab (ce_sub x)) n = Some (tab (s_key o))) by (unfold tables_of; rewrite nth_error_map, Ho; auto).
    destruct (Hn n o _ Ho Hr) as (dims & fs' & _ & _ & _ & _ & _ & Hf' & _ & _ & _ & Hj). rewrite Hf in Hf'. injection Hf' as <-.
    rewrite <- (Hj j). f_equal. f_equal. apply nth_error_nth. rewrite nth_error_map, Ho. auto.
  - pose proof (read_weights_good HH) as R. destruct (C103_weights HC (ex_mult HE) HL) as (ws & Ew & Hw). rewrite Ew in R.
    destruct (read_weights x) as [[w y]|]; [|discriminate]. destruct R as ([= <-] & _). exists ws, y. tauto.
  - intros occu ext HO Lx. destruct (C29_property 1 HE HL HO) as (P & f & g & EP & HP & Es & Ep & Ef & Eg & Lf & Lg & E).
    assert (Ev : cexp_eval x = Some (p_eval P)).
    { unfold cexp_eval. rewrite HV. unfold expansion_proc in EP. fold (now_tens x) in EP. destruct (now_tens x) as [t|]; [|discriminate]. cbn [option_bind] in *.
      destruct (opt_map orbit_data _); [|discriminate]. cbn [option_bind] in *. injection EP as <-. auto. }
    assert (Hs : forall v, scale P v = v). { intros v. unfold scale. rewrite Es. transitivity (map (fun q : Qc => q) v); [|apply map_id]. apply map_ext. intros q. change (Qc_of_nat 1) with 1%Qc. ring. }
    unfold cexp_interactions, cexp_predict. rewrite Ev. cbn [option_bind]. unfold ce_features in Ef. unfold cd_features in Eg. rewrite Ep in Ef, Eg.
    destruct (correlations (p_eval P) occu (tables_of tab (ce_sub x))) as [v|]; [|discriminate]. cbn [option_bind] in *. injection Ef as <-. rewrite Hs in *.
    destruct (interactions (p_eval P) occu (tables_of tab (ce_sub x))) as [w|]; [|discriminate]. cbn [option_bind] in *. injection Eg as <-. rewrite Hs in *.
    unfold predict. rewrite app_length, Lf, Lx, HL, Nat.eqb_refl. eexists w, _. split; auto. split; auto. split; [reflexivity|].
    rewrite <- (firstn_skipn (sub_ncorr (ce_sub x)) (ce_coefs x)) at 1. rewrite qdot_app by (rewrite firstn_length; lia). f_equal.
    unfold ce_property, cd_property in E. rewrite E. unfold orbit_multiplicities. cbn [map]. rewrite map_map. reflexivity.
Qed.
Lemma new_good st coefs next x : new_cexp st coefs next = Some x -> good x /\ ce_sub x = st /\ ce_coefs x = coefs /\ ce_next x = next /\ length coefs = sub_ncorr st + next.
Proof.
  unfold new_cexp. destruct (Nat.eqb_spec (length coefs) (sub_ncorr st + next)) as [HL|]; [|discriminate]. intros E.
  assert (H : half_good (mkCE st coefs next None None None)) by (split; discriminate).
  pose proof (set_eval_good H) as R. rewrite E in R. destruct R as (R1 & R2 & R3 & R4). auto.
Qed.
Lemma xrun_ok sd N tab os x y : good x -> no_assign os -> expansion_ok sd N (ce_sub x) (tables_of tab (ce_sub x)) -> xrun os x = Some y ->
  expansion_ok sd N (ce_sub y) (tables_of tab (ce_sub y)).
Proof.
  revert x. induction os as [|o os IH]; intros x HG Hn HE E; cbn [xrun] in E; [injection E as <-; auto|].
  destruct (xop_run o x) as [z|] eqn:Ez; [|discriminate]. cbn [option_bind] in E.
  assert (Ho : forall cs, o <> XCoefs cs) by (intros cs H; exact (Hn cs (or_introl H))).
  destruct (xop_good HG Ho Ez) as [Hz _]. apply (IH z); auto; [intros cs H; exact (Hn cs (or_intror H))|].
  pose proof HG as (HH & _). destruct o as [| | |thr wm|cs]; cbn [xop_run] in Ez.
  - pose proof (read_eci_good HH) as R. destruct (read_eci x) as [[e w]|]; [|discriminate]. injection Ez as <-. destruct R as (_ & (-> & _) & _). auto.
  - pose proof (read_tens_good HH) as R. destruct (read_tens x) as [[e w]|]; [|discriminate]. injection Ez as <-. destruct R as (_ & (-> & _) & _). auto.
  - pose proof (read_weights_good HH) as R. destruct (read_weights x) as [[e w]|]; [|discriminate]. injection Ez as <-. destruct R as (_ & (-> & _) & _). auto.
  - pose proof (@prune_good thr wm x ltac:(destruct wm; auto)) as R. destruct (prune thr wm (ce_coefs x) (ce_next x) (ce_sub x)) as [[cs st]|] eqn:Ep; [|congruence]. destruct R as (w & Ew & _ & _ & Es & _). rewrite Ez in Ew. injection Ew as <-. rewrite Es.
    unfold prune in Ep. destruct (if wm then _ else _) as [sel|]; [|discriminate]. cbn [option_bind] in Ep. destruct (remove_corr (small_ids thr sel) (ce_sub x)) as [st'|] eqn:Er; [|discriminate]. cbn [option_bind] in Ep.
    destruct (interaction_tensors _ _ _); [|discriminate]. injection Ep as _ <-. eapply remove_ok; eauto.
  - destruct (Ho cs eq_refl).
Qed.

(** After any reads and prunings that leave as many coefficients as features, everything read belongs to the coefficients and
    functions that are left. *)
Theorem C141_reads sd N tab st coefs next os x y : expansion_ok sd N st (tables_of tab st) -> new_cexp st coefs next = Some x -> no_assign os -> xrun os x = Some y ->
  length (ce_coefs y) = sub_ncorr (ce_sub y) + next -> reads_right sd N tab y.
Proof.
  intros HE Enew Hn E HL. destruct (new_good Enew) as (HG & Es & _ & En & _). destruct (xrun_good HG Hn E) as [HG' En'].
  apply good_reads; auto; [|congruence]. apply (xrun_ok HG Hn); auto. rewrite Es. auto.
Qed.
(** The constructor refuses other numbers of coefficients and only those. *)
Theorem C141_new sd N tab st coefs next : expansion_ok sd N st (tables_of tab st) -> new_cexp st coefs next <> None <-> length coefs = sub_ncorr st + next.
Proof.
  intros HE. unfold new_cexp. destruct (Nat.eqb_spec (length coefs) (sub_ncorr st + next)) as [HL|HL]; [|split; [congruence|tauto]]. split; auto. intros _.
  assert (H : half_good (mkCE st coefs next None None None)) by (split; discriminate).
  pose proof (set_eval_good H) as R. destruct (set_eval _); [discriminate|]. destruct (exp_proc 1 HE HL) as (P & e & EP & _). unfold expansion_proc in EP. unfold now_tens in R. cbn [ce_sub ce_coefs ce_next] in R. rewrite R in EP. discriminate.
Qed.
(** Pruning after any history, with any threshold that keeps the constant and the external terms, keeps exactly the other terms
    and leaves everything that is read right. *)
Theorem C141_prune sd N tab st coefs next os x y thr wm sel : expansion_ok sd N st (tables_of tab st) -> new_cexp st coefs next = Some x -> no_assign os -> xrun os x = Some y ->
  length (ce_coefs y) = sub_ncorr (ce_sub y) + next -> compared wm (ce_coefs y) next (ce_sub y) sel -> keeps_fixed thr sel (sub_ncorr (ce_sub y)) (length (ce_coefs y)) ->
  exists z, xrun (os ++ [XPrune thr wm]) x = Some z /\ ce_coefs z = map (fun j => nth j (ce_coefs y) 0%Qc) (kept thr sel (length (ce_coefs y))) /\ reads_right sd N tab z.
Proof.
  intros HE Enew Hn E HL Hc Hk. destruct (new_good Enew) as (HG & Es & _ & En & _). destruct (xrun_good HG Hn E) as [HG' En'].
  assert (HE' : expansion_ok sd N (ce_sub y) (tables_of tab (ce_sub y))) by (apply (xrun_ok HG Hn); auto; rewrite Es; auto).
  destruct (C56_prune_partial HE' HL Hc Hk) as (cs & st' & Ep & HE2 & Ecs & Lcs & _).
  pose proof (@prune_good thr wm y ltac:(destruct wm; auto; apply HG')) as R. replace (ce_next y) with next in R by congruence. rewrite Ep in R.
  destruct R as (z & Ez & Hz & Ec & Est & Enx). exists z. split.
  - clear - E Ez. revert x E. induction os as [|o os IH]; intros x E; cbn [xrun app] in *.
    + injection E as ->. cbn [xop_run]. rewrite Ez. auto.
    + destruct (xop_run o x); [|discriminate]. cbn [option_bind] in *. auto.
  - rewrite Ec. split; auto. apply good_reads; auto; rewrite Est; auto. rewrite Ec, Enx. auto.
Qed.

(** ** C142 *)
(** After coefficients are assigned, nothing that is read changes until the expansion is pruned: every read gives what it gave before. *)
Theorem C142_stale cs x e t : ce_eci x = Some e -> ce_tens x = Some t ->
  option_map fst (read_eci (assign_coefs cs x)) = Some e /\ option_map fst (read_tens (assign_coefs cs x)) = Some t /\
  option_map fst (read_weights (assign_coefs cs x)) = option_map fst (read_weights x) /\
  forall tables occu, cexp_interactions (assign_coefs cs x) tables occu = cexp_interactions x tables occu.
Proof.
  intros E1 E2. unfold read_weights, read_eci, read_tens. cbn [assign_coefs ce_eci ce_tens ce_sub ce_coefs]. rewrite E1, E2. cbn [option_map option_bind fst snd].
  split; auto. split; auto. split; [destruct (weights_of _ _); auto|]. intros. reflexivity.
Qed.
(** Pruning by the coefficients puts everything right again, whatever was assigned before. *)
Theorem C142_prune_partial sd N tab x cs thr : expansion_ok sd N (ce_sub x) (tables_of tab (ce_sub x)) -> length cs = sub_ncorr (ce_sub x) + ce_next x ->
  keeps_fixed thr cs (sub_ncorr (ce_sub x)) (length cs) ->
  exists z, xrun [XCoefs cs; XPrune thr false] x = Some z /\ ce_coefs z = map (fun j => nth j cs 0%Qc) (kept thr cs (length cs)) /\ reads_right sd N tab z.
Proof.
  intros HE HL Hk. destruct (@C56_prune_partial sd N tab (ce_sub x) cs (ce_next x) thr false cs HE HL eq_refl Hk) as (cs' & st' & Ep & HE2 & Ecs & Lcs & _).
  pose proof (@prune_good thr false (assign_coefs cs x) I) as R. cbn [assign_coefs ce_coefs ce_next ce_sub] in R. rewrite Ep in R. destruct R as (z & Ez & Hz & Ec & Est & Enx).
  exists z. cbn [xrun xop_run option_bind]. rewrite Ez. split; auto. rewrite Ec. split; auto. apply good_reads; auto; rewrite Est; auto. rewrite Ec, Enx. auto.
Qed.

(** ** Concrete cases: a point and a pair orbit on ternary sites, one external term *)
Definition cx_ops : list xop := [XWeights; XPrune (Q2Qc (1 # 2)) false; XTens].
Example C141_case : expansion_ok (fun _ => 3) 2 ex_st (tables_of ex_tab ex_st) /\ no_assign cx_ops /\
  exists x y, new_cexp ex_st ex_pcoefs 1 = Some x /\ xrun cx_ops x = Some y /\ length (ce_coefs y) = sub_ncorr (ce_sub y) + 1 /\ sub_ncorr (ce_sub y) = 4 /\ codes_ok (fun _ => 3) 2 [1; 2].
Proof.
  split; [exact ex_tab_ok|]. split; [intros cs [H|[H|[H|[]]]]; discriminate|].
  destruct (new_cexp ex_st ex_pcoefs 1) as [x|] eqn:E; [|vm_compute in E; discriminate].
  destruct (xrun cx_ops x) as [y|] eqn:Ey.
  - exists x, y. split; auto. split; auto.
    assert (H : option_map (fun p => (length (ce_coefs p), sub_ncorr (ce_sub p))) (let? x := new_cexp ex_st ex_pcoefs 1 in xrun cx_ops x) = Some (5, 4)) by (vm_compute; reflexivity).
    rewrite E in H. cbn [option_bind] in H. rewrite Ey in H. injection H as H1 H2. rewrite H1, H2. split; auto. split; auto.
    split; [reflexivity|]. intros i c Hi. destruct i as [|[|i]]; cbn in Hi; [injection Hi as <-; lia|injection Hi as <-; lia|destruct i; discriminate].
  - exfalso. assert (H : option_map (fun _ => tt) (let? x := new_cexp ex_st ex_pcoefs 1 in xrun cx_ops x) = Some tt) by (vm_compute; reflexivity).
    rewrite E in H. cbn [option_bind] in H. rewrite Ey in H. discriminate.
Qed.
Definition cx_new : list Qc := map Qc_of_Z [2; 9; 9; 9; 9; 9; 7]%Z.
Lemma cx_start : exists x, new_cexp ex_st ex_pcoefs 1 = Some x /\ ce_sub x = ex_st /\ ce_next x = 1.
Proof.
  destruct (new_cexp ex_st ex_pcoefs 1) as [x|] eqn:E; [|vm_compute in E; discriminate]. destruct (new_good E) as (_ & Es & _ & En & _). exists x. auto.
Qed.
(** Coefficients of 9 are assigned: the interactions that are read are not 9 over the multiplicities. *)
Theorem C142_reads_refuted : exists sd N tab st coefs next cs x y, expansion_ok sd N st (tables_of tab st) /\ new_cexp st coefs next = Some x /\
  xrun [XCoefs cs] x = Some y /\ length (ce_coefs y) = sub_ncorr (ce_sub y) + next /\ ~ reads_right sd N tab y.
Proof.
  destruct cx_start as (x & E & Es & En). exists (fun _ => 3), 2, ex_tab, ex_st, ex_pcoefs, 1, cx_new, x, (assign_coefs cx_new x).
  split; [exact ex_tab_ok|]. split; auto. split; auto. split; [cbn [assign_coefs ce_coefs ce_sub]; rewrite Es; reflexivity|].
  intros [H _ _ _]. destruct H as (e & y & Er & Ee).
  assert (Hr : option_map (fun r => map this (fst r)) (let? x := new_cexp ex_st ex_pcoefs 1 in read_eci (assign_coefs cx_new x)) =
    option_map (map this) (eci (sub_orbits ex_st) ex_pcoefs 1)) by (vm_compute; reflexivity).
  rewrite E in Hr. cbn [option_bind] in Hr. rewrite Er in Hr. cbn [option_map fst] in Hr.
  apply (f_equal (map this)) in Ee. cbn [assign_coefs ce_coefs ce_sub] in Ee. rewrite Es in Ee. rewrite Ee in Hr. vm_compute in Hr. discriminate.
Qed.
(** All effective interactions are at least the threshold, but pruning by them removes functions. *)
Theorem C142_prune_refuted : exists sd N tab st coefs next cs x z thr, expansion_ok sd N st (tables_of tab st) /\ new_cexp st coefs next = Some x /\
  xrun [XCoefs cs; XPrune thr true] x = Some z /\ (forall e j v, eci (sub_orbits st) cs next = Some e -> nth_error e j = Some v -> (thr <= qabs v)%Qc) /\
  sub_ncorr (ce_sub z) < sub_ncorr st.
Proof.
  destruct cx_start as (x & E & Es & En). set (thr := Q2Qc (1 # 2)).
  assert (Hz : option_map (fun z => sub_ncorr (ce_sub z)) (let? x := new_cexp ex_st ex_pcoefs 1 in xrun [XCoefs cx_new; XPrune thr true] x) = Some 3) by (vm_compute; reflexivity).
  rewrite E in Hz. cbn [option_bind] in Hz. destruct (xrun [XCoefs cx_new; XPrune thr true] x) as [z|] eqn:Ez; [|discriminate].
  injection Hz as Hz. exists (fun _ => 3), 2, ex_tab, ex_st, ex_pcoefs, 1, cx_new, x, z, thr.
  split; [exact ex_tab_ok|]. split; auto. split; auto. split; [|rewrite Hz; vm_compute; lia].
  intros e j v Ee Hv. assert (Hall : option_map (forallb (fun v => Qcleb thr (qabs v))) (eci (sub_orbits ex_st) cx_new 1) = Some true) by (vm_compute; reflexivity).
  rewrite Ee in Hall. injection Hall as Hall. rewrite forallb_forall in Hall. specialize (Hall v (nth_error_In _ _ Hv)). destruct (Qcleb_spec thr (qabs v)); auto. discriminate.
Qed.
Example C142_case : exists x e t, new_cexp ex_st ex_pcoefs 1 = Some x /\ ce_eci x = Some e /\ ce_tens x = Some t /\ length cx_new = sub_ncorr (ce_sub x) + ce_next x /\
  keeps_fixed 1%Qc cx_new (sub_ncorr (ce_sub x)) (length cx_new).
Proof.
  destruct cx_start as (x & E & Es & En). exists x.
  assert (H : option_map (fun x => match ce_eci x, ce_tens x with Some _, Some _ => true | _, _ => false end) (new_cexp ex_st ex_pcoefs 1) = Some true) by (vm_compute; reflexivity).
  rewrite E in H. injection H as H. destruct (ce_eci x) as [e|]; [|discriminate]. destruct (ce_tens x) as [t|]; [|discriminate].
  exists e, t. do 3 (split; auto). rewrite Es, En. split; [reflexivity|].
  assert (Ek : kept 1%Qc cx_new 7 = [0; 1; 2; 3; 4; 5; 6]) by (vm_compute; reflexivity). change (length cx_new) with 7. split; [rewrite Ek; simpl; auto|].
  intros j Hj. change (sub_ncorr ex_st) with 6 in Hj. rewrite Ek. simpl. lia.
Qed.
Print Assumptions C141_reads.
Print Assumptions C141_new.
Print Assumptions C141_prune.
Print Assumptions C142_stale.
Print Assumptions C142_prune_partial.
Print Assumptions C142_reads_refuted.
Print Assumptions C142_prune_refuted.
