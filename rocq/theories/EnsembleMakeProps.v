(** C112: energies of an ensemble made from a cluster expansion are the predictions of the expansion. *)
From Verif Require Import LibProofs EvaluatorSpec EvaluatorProofs SubspaceSpec.
From Verif Require Export EnsembleMake ExpansionProps EwaldProps MatchingProps.
From Coq Require Import Permutation Lia Field.
Set Implicit Arguments.
Unset Strict Implicit.
Open Scope nat_scope.

(** ** Specification *)
(** Number of species at a site. *)
Definition site_dim (allowed : list (list specie)) (s : nat) : nat := length (nth s allowed []).
(** A well formed expansion on a supercell: see [expansion_ok]; one coefficient for each function and each external term, and at most one external term
    ([add_external_term] refuses a second one of the same class, clusterspace.py:628-643). *)
Record usable (x : expansion) (tables : list ctable) (allowed : list (list specie)) : Prop := {
  u_exp : expansion_ok (site_dim allowed) (length allowed) (x_sub x) tables;
  u_len : length (x_coefs x) = sub_ncorr (x_sub x) + length (x_terms x);
  u_terms : length (x_terms x) <= 1;
  u_species : distinct_species allowed
}.
(** Flips to allowed species at sites that belong to some cluster of the supercell. *)
Definition flips_allowed (tables : list ctable) (allowed : list (list specie)) (flips : list (nat * nat)) : Prop :=
  forall s c, In (s, c) flips -> s < length allowed /\ c < site_dim allowed s /\ exists rows row, In rows tables /\ In row rows /\ In s row.

(** ** Proofs *)
Lemma codes_both allowed codes : MatchingProps.codes_ok allowed codes -> EvaluatorSpec.codes_ok (site_dim allowed) (length allowed) codes.
Proof.
  intros H. induction H as [|sps c allowed codes Hc H IH]; [split; auto; intros [|s] c E; discriminate|]. destruct IH as (L & IH). split; [cbn; auto|].
  intros [|s] k E; cbn [nth_error] in E; [injection E as <-; auto|]. apply (IH s k E).
Qed.
Lemma dims_same allowed s : dims (map (map is_vacancy) allowed) s = site_dim allowed s.
Proof. unfold dims, site_dim. change (@nil bool) with (map is_vacancy []). rewrite map_nth, map_length. auto. Qed.
Lemma removelast_firstn_len A (l : list A) n : length l = n + 1 -> removelast l = firstn n l.
Proof. intros H. rewrite removelast_firstn_len. f_equal. lia. Qed.
Lemma split_last (l : list Qc) n : length l = n + 1 -> l = firstn n l ++ [last l (Q2Qc 0)].
Proof. intros H. rewrite (@app_removelast_last _ l (Q2Qc 0)) at 1 by (destruct l; [cbn in H; lia|discriminate]). rewrite (removelast_firstn_len H). auto. Qed.
Lemma qdot_app a b c d : length a = length c -> qdot (a ++ b) (c ++ d) = (qdot a c + qdot b d)%Qc.
Proof.
  revert c. induction a as [|x a IH]; intros [|y c] H; cbn in H; try discriminate; [cbn [app]; unfold qdot at 2; cbn; ring|].
  cbn [app]. unfold qdot, qmap2 in *. cbn [combine map qsum fst snd]. rewrite IH by lia. cbn [qsum]. ring.
Qed.

Lemma qdot_mul a v k : qdot a (map (fun x => x * k)%Qc v) = (qdot a v * k)%Qc.
Proof. revert v. induction a as [|x a IH]; intros [|y v]; unfold qdot, qmap2 in *; cbn [combine map qsum fst snd]; try ring. rewrite IH. ring. Qed.
Section Made.
Variables (x : expansion) (size : nat) (tables : list ctable) (allowed : list (list specie)).
Hypothesis U : usable x tables allowed.
Notation st := (x_sub x).
Notation table := (ewald_table allowed).

(** Energy of the cluster part. *)
Lemma cluster_made : exists P, expansion_proc size st tables (x_coefs x) (length (x_terms x)) = Some P /\ proc_ok (site_dim allowed) (length allowed) P /\ p_tables P = tables /\
  e_num_corr (p_eval P) = sub_ncorr st /\ e_num_orbits (p_eval P) = sub_norb st /\
  (exists ds, opt_map orbit_data (sub_orbits st) = Some ds /\ e_orbits (p_eval P) = ds) /\ p_size P = size.
Proof using U.
  destruct (exp_proc size (u_exp U) (u_len U)) as (P & e & EP & _ & EqP & _). exists P. split; auto. pose proof (exp_proc_ok (u_exp U) (u_len U) EP) as HP. split; auto.
  unfold expansion_proc in EP. destruct (interaction_tensors _ _ _); [|discriminate]. cbn [option_bind] in EP. destruct (opt_map orbit_data (sub_orbits st)) as [ds|]; [|discriminate]. injection EP as <-.
  cbn. repeat (split; eauto).
Qed.
Lemma cluster_value codes : MatchingProps.codes_ok allowed codes -> exists P v, expansion_proc size st tables (x_coefs x) (length (x_terms x)) = Some P /\
  correlations (p_eval P) codes tables = Some v /\ length v = sub_ncorr st /\
  forall t p, cluster_part P st t (firstn (sub_ncorr st) (x_coefs x)) = Some p -> part_property p codes = Some (qdot (firstn (sub_ncorr st) (x_coefs x)) v * Qc_of_nat size)%Qc.
Proof using U.
  intros HC. destruct (C29_property size (u_exp U) (u_len U) (codes_both HC)) as (P & f & g & EP & HP & Es & Et & Ef & Eg & Lf & Lg & E). exists P.
  destruct (correlations_total HP (codes_both HC)) as (v & Ev & Lv & _). rewrite Et in Ev. exists v. split; auto. split; auto.
  assert (f = scale P v) as ->. { unfold ce_features in Ef. rewrite Et, Ev in Ef. injection Ef as <-. auto. }
  assert (Lc : length (firstn (sub_ncorr st) (x_coefs x)) = sub_ncorr st) by (rewrite firstn_length, (u_len U); lia).
  assert (Q : qdot (firstn (sub_ncorr st) (x_coefs x)) (scale P v) = (qdot (firstn (sub_ncorr st) (x_coefs x)) v * Qc_of_nat size)%Qc) by (unfold scale; rewrite Es; apply qdot_mul).
  split; [rewrite <- Lf; unfold scale; rewrite map_length; auto|]. intros [| |] p; cbn [cluster_part]; [| |discriminate].
  - intros Ep. assert (p = cd_part P (map Qc_of_nat (orbit_multiplicities (sub_orbits st)))) as -> by congruence. cbn [cd_part part_property]. rewrite Eg. cbn [option_bind]. unfold np_dot. rewrite map_length, Lg.
    assert (length (orbit_multiplicities (sub_orbits st)) = sub_norb st) as -> by (unfold orbit_multiplicities; cbn [length]; rewrite map_length, (c_norb (ex_cons (u_exp U))); lia). rewrite Nat.eqb_refl.
    unfold ce_property, cd_property in E. rewrite <- E, Q. auto.
  - rewrite Lc, Nat.eqb_refl. intros [= <-]. cbn [ce_part part_property]. rewrite Ef. cbn [option_bind]. unfold np_dot. rewrite Lc, Lf, Nat.eqb_refl, Q. auto.
Qed.
Lemma ewald_total M codes : MatchingProps.codes_ok allowed codes -> exists e, ew_feature (snd table) M (fst table) codes = Some e.
Proof.
  intros H. eexists. apply C28_value. destruct (codes_both H) as (L & HC). split; [rewrite map_length; auto|]. intros s c E. rewrite dims_same. eauto.
Qed.
Lemma predict_value normalized codes kept s : MatchingProps.codes_ok allowed codes -> structure_from_occupancy allowed codes = Some kept -> Permutation kept s ->
  exists P v, expansion_proc size st tables (x_coefs x) (length (x_terms x)) = Some P /\ correlations (p_eval P) codes tables = Some v /\
  predict x size tables allowed normalized (map snd s) (map fst s) =
  np_dot (x_coefs x) (let corr := v ++ concat (map (fun t => map (fun x => (x / Qc_of_nat size)%Qc) (t codes)) (map (ewald_value allowed) (x_terms x))) in if normalized then corr else map (fun x => (x * Qc_of_nat size)%Qc) corr).
Proof using U.
  intros HC EK HP. destruct (cluster_value HC) as (P & v & EP & Ev & _). exists P, v. split; auto. split; auto.
  destruct cluster_made as (P' & EP' & _ & _ & En & _ & (ds & Ed & Ee) & _). rewrite EP in EP'. injection EP' as <-.
  destruct (C108_round_trip (u_species U) HC) as (kept' & EK' & _ & R). rewrite EK in EK'. injection EK' as <-. specialize (R s HP). rewrite processor_same in R.
  unfold predict. rewrite Ed. cbn [option_bind]. unfold corr_from_structure. rewrite R. cbn [option_bind].
  replace (correlations (mkEval ds (sub_norb st) (sub_ncorr st) (Q2Qc 0) []) codes tables) with (correlations (p_eval P) codes tables); [rewrite Ev; auto|].
  unfold correlations, corr_work. rewrite En, Ee. auto.
Qed.
Lemma cluster_part_some t P : t <> Other_type -> exists p, cluster_part P st t (firstn (sub_ncorr st) (x_coefs x)) = Some p.
Proof using U. intros Ht. destruct t; cbn [cluster_part]; [eauto| |congruence]. rewrite firstn_length, (u_len U), Nat.min_l, Nat.eqb_refl by lia. eauto. Qed.
Lemma made_cases t : t <> Other_type -> exists P q, expansion_proc size st tables (x_coefs x) (length (x_terms x)) = Some P /\ cluster_part P st t (firstn (sub_ncorr st) (x_coefs x)) = Some q /\
  (x_terms x = [] /\ x_coefs x = firstn (sub_ncorr st) (x_coefs x) /\ processor_of x size tables allowed t = Some (Single q) \/
   exists M, x_terms x = [M] /\ x_coefs x = firstn (sub_ncorr st) (x_coefs x) ++ [last (x_coefs x) (Q2Qc 0)] /\
     processor_of x size tables allowed t = Some (Composite [q; ewald_part (snd table) M (fst table) (last (x_coefs x) (Q2Qc 0))])).
Proof using U.
  intros Ht. destruct cluster_made as (P & EP & _). destruct (cluster_part_some P Ht) as (q & Eq). exists P, q. split; auto. split; auto.
  unfold processor_of. rewrite EP. cbn [option_bind]. pose proof (u_len U) as L. pose proof (u_terms U) as T. destruct (x_terms x) as [|M [|M' ts]]; cbn [length] in *; [left|right|lia].
  - assert (F : firstn (sub_ncorr st) (x_coefs x) = x_coefs x) by (apply firstn_all2; lia). rewrite F in *. rewrite Eq. auto.
  - exists M. split; auto. split; [apply split_last; auto|]. rewrite (removelast_firstn_len L), Eq. auto.
Qed.
End Made.

Lemma qdot_one a b : qdot [a] [b] = (a * b)%Qc.
Proof. unfold qdot, qmap2. cbn [combine map qsum fst snd]. ring. Qed.

Theorem C112_energy x size tables allowed t : 0 < size -> usable x tables allowed -> t <> Other_type ->
  exists p, processor_of x size tables allowed t = Some p /\
  forall codes, MatchingProps.codes_ok allowed codes ->
    exists E kept, property_of p codes = Some E /\ structure_from_occupancy allowed codes = Some kept /\
    forall s, Permutation kept s ->
      predict x size tables allowed false (map snd s) (map fst s) = Some E /\
      predict x size tables allowed true (map snd s) (map fst s) = Some (E / Qc_of_nat size)%Qc.
Proof.
  intros Hs U Ht. assert (Z : Qc_of_nat size <> 0%Qc) by (apply Qc_of_nat_nz; lia).
  destruct (made_cases size U Ht) as (P & q & EP & Eq & H).
  assert (V : forall codes, MatchingProps.codes_ok allowed codes -> exists kept v, structure_from_occupancy allowed codes = Some kept /\ length v = sub_ncorr (x_sub x) /\
    part_property q codes = Some (qdot (firstn (sub_ncorr (x_sub x)) (x_coefs x)) v * Qc_of_nat size)%Qc /\
    forall s n, Permutation kept s -> predict x size tables allowed n (map snd s) (map fst s) =
      np_dot (x_coefs x) (let corr := v ++ concat (map (fun t => map (fun x => (x / Qc_of_nat size)%Qc) (t codes)) (map (ewald_value allowed) (x_terms x))) in if n then corr else map (fun x => (x * Qc_of_nat size)%Qc) corr)).
  { intros codes HC. destruct (cluster_value size U HC) as (P' & v & EP' & Ev & Lv & Hv). rewrite EP in EP'. injection EP' as <-. destruct (C108_round_trip (u_species U) HC) as (kept & EK & _). exists kept, v.
    split; auto. split; auto. split; [apply (Hv t); auto|]. intros s n HP. destruct (predict_value size U n HC EK HP) as (P' & v' & EP' & Ev' & ->). rewrite EP in EP'. injection EP' as <-. rewrite Ev in Ev'. injection Ev' as <-. auto. }
  destruct H as [(Et & Ec & EM)|(M & Et & Ec & EM)].
  - eexists. split; [exact EM|]. intros codes HC. destruct (V codes HC) as (kept & v & EK & Lv & Eq' & R). do 2 eexists. split; [exact Eq'|]. split; [exact EK|]. intros s HP.
    rewrite !R by auto. rewrite Et. cbn [map concat]. rewrite app_nil_r. pose proof (u_len U) as L. rewrite Et in L. cbn [length] in L. unfold np_dot. rewrite map_length, L, Lv, Nat.add_0_r, Nat.eqb_refl. rewrite <- Ec. split; f_equal.
    + rewrite qdot_mul. auto.
    + field. auto.
  - eexists. split; [exact EM|]. intros codes HC. destruct (V codes HC) as (kept & v & EK & Lv & Eq' & R). destruct (ewald_total M HC) as (e & Ee).
    exists (qdot (firstn (sub_ncorr (x_sub x)) (x_coefs x)) v * Qc_of_nat size + last (x_coefs x) (Q2Qc 0) * e)%Qc, kept. split; [|split; [exact EK|]].
    + cbn [property_of]. unfold composite_property. cbn [opt_map]. rewrite Eq'. cbn [ewald_part part_property]. rewrite Ee. cbn [option_bind qsum]. f_equal. ring.
    + intros s HP. rewrite !R by auto. rewrite Et. cbn [map concat]. unfold ewald_value. rewrite Ee. cbn [map app]. pose proof (u_len U) as L. rewrite Et in L. cbn [length] in L.
      assert (Lf : length (firstn (sub_ncorr (x_sub x)) (x_coefs x)) = length v) by (rewrite firstn_length; lia).
      unfold np_dot. rewrite map_length, app_length, L, Lv. cbn [length]. rewrite Nat.eqb_refl. rewrite Ec at 1 4. set (c := firstn _ _) in *. set (a := last _ _) in *.
      split; f_equal.
      * rewrite map_app, qdot_app by (rewrite map_length; auto). cbn [map]. rewrite qdot_mul, qdot_one. field. auto.
      * rewrite qdot_app by auto. rewrite qdot_one. field. auto.
Qed.
(** Both kinds of processors give the same energies. *)
Theorem C112_types x size tables allowed : 0 < size -> usable x tables allowed ->
  exists p q, processor_of x size tables allowed Decomposition = Some p /\ processor_of x size tables allowed Expansion = Some q /\
    forall codes, MatchingProps.codes_ok allowed codes -> property_of p codes = property_of q codes /\ property_of p codes <> None.
Proof.
  intros Hs U. destruct (C112_energy (t := Decomposition) Hs U) as (p & Ep & Hp); [discriminate|]. destruct (C112_energy (t := Expansion) Hs U) as (q & Eq & Hq); [discriminate|].
  exists p, q. split; auto. split; auto. intros codes HC. destruct (Hp codes HC) as (E & kept & E1 & EK & R). destruct (Hq codes HC) as (E' & kept' & E1' & EK' & R'). rewrite EK in EK'. injection EK' as <-.
  destruct (R kept (Permutation_refl _)) as (A & _). destruct (R' kept (Permutation_refl _)) as (B & _). rewrite E1, E1'. split; [congruence|discriminate].
Qed.
(** Other kinds raise. *)
Theorem C112_other x size tables allowed : processor_of x size tables allowed Other_type = None.
Proof. unfold processor_of. destruct (expansion_proc _ _ _ _ _); auto. cbn [option_bind]. destruct (x_terms x); auto. Qed.
(** Changes are differences, when the Ewald matrix is symmetric. *)
Theorem C112_change x size tables allowed t : 0 < size -> usable x tables allowed -> t <> Other_type ->
  (forall M, In M (x_terms x) -> EwaldProps.symmetric (snd (ewald_table allowed)) M) ->
  exists p, processor_of x size tables allowed t = Some p /\
  forall codes flips, MatchingProps.codes_ok allowed codes -> flips_allowed tables allowed flips ->
    exists before after, property_of p codes = Some before /\ property_of p (apply_step codes flips) = Some after /\
      property_change_of p codes flips = Some (after - before)%Qc.
Proof.
  intros Hs U Ht HM. destruct (made_cases size U Ht) as (P & q & EP & Eq & H). destruct (cluster_made size U) as (P' & EP' & HP & ET & En & Eo & _). rewrite EP in EP'. injection EP' as <-.
  assert (G : forall flips, flips_allowed tables allowed flips -> good_part (site_dim allowed) (length allowed) flips q).
  { intros flips HF. assert (FO : flips_ok (site_dim allowed) (length allowed) P flips).
    { intros s c Hin. destruct (HF s c Hin) as (A & B & C). unfold in_cluster. rewrite ET. auto. }
    destruct t; cbn [cluster_part] in Eq; [| |congruence].
    - assert (q = cd_part P (map Qc_of_nat (orbit_multiplicities (sub_orbits (x_sub x))))) as -> by congruence. apply good_cd; auto. rewrite Eo, map_length. unfold orbit_multiplicities. cbn [length]. rewrite map_length, (c_norb (ex_cons (u_exp U))). lia.
    - destruct (_ =? _) eqn:El; [|discriminate]. apply Nat.eqb_eq in El. injection Eq as <-. apply good_ce; auto. lia. }
  destruct H as [(Et & Ec & EM)|(M & Et & Ec & EM)]; eexists; (split; [exact EM|]); intros codes flips HC HF; cbn [property_of property_change_of].
  - apply (good_part_change (codes_both HC) (G flips HF)).
  - apply (C30_difference (codes_both HC)). intros p [<-|[<-|[]]]; auto. apply good_ewald.
    + rewrite map_length. auto.
    + intros s _. symmetry. apply dims_same.
    + apply HM. rewrite Et. left. auto.
    + intros s k Hin. destruct (HF s k Hin) as (A & B & _). auto.
Qed.

(** Two sites with two ions or a vacancy, a point and a pair orbit, and an Ewald term. *)
Definition made_allowed : list (list specie) := [[Atom 0; Atom 1; Vacancy 0]; [Atom 0; Atom 1; Vacancy 0]].
Definition made_exp : expansion := mkExp ex_st ex_coefs [case_M].
Example C112_case : usable made_exp ex_tables made_allowed /\ EwaldProps.symmetric (snd (ewald_table made_allowed)) case_M /\
  MatchingProps.codes_ok made_allowed [0; 2] /\ flips_allowed ex_tables made_allowed [(1, 1)] /\
  structure_from_occupancy made_allowed [0; 2] = Some [(0, Atom 0)] /\
  forall t, t <> Other_type -> exists p E d, processor_of made_exp 2 ex_tables made_allowed t = Some p /\ property_of p [0; 2] = Some E /\ this E = (-2)%Q /\
    property_of p [0; 1] <> Some E /\ property_change_of p [0; 2] [(1, 1)] = Some d /\ this d = 254%Q /\
    predict made_exp 2 ex_tables made_allowed false [Atom 0] [0] = Some E.
Proof.
  split; [|split; [|split; [|split; [|split]]]].
  - constructor; [|reflexivity|cbn; lia|repeat constructor; cbn; intuition discriminate]. destruct ex_expansion_ok as [A B C D]. constructor; auto.
    intros n o rows H1 H2. destruct (D n o rows H1 H2) as (ds & X1 & X2 & X3 & X4). exists ds. split; [exact X1|]. split; [exact X2|]. split; [exact X3|]. intros r Hr. destruct (X4 r Hr) as (Y1 & Y2). split; [|exact Y2].
    rewrite <- Y1. apply map_ext_in. intros k Hk. specialize (Y2 k Hk). destruct k as [|[|k]]; [reflexivity|reflexivity|lia].
  - intros i j _ _. unfold case_M. f_equal. lia.
  - repeat constructor.
  - intros s c [E|[]]. injection E as <- <-. cbn. split; [lia|]. split; [lia|]. exists [[0]; [1]], [1]. cbn. auto.
  - reflexivity.
  - intros [| |] Ht; [| |congruence]; (eexists _, _, _; split; [reflexivity|]; split; [vm_compute; reflexivity|]; split; [vm_compute; reflexivity|]; split; [vm_compute; discriminate|]; split; [vm_compute; reflexivity|]; split; [vm_compute; reflexivity|]; vm_compute; reflexivity).
Qed.

Print Assumptions C112_energy.
Print Assumptions C112_types.
Print Assumptions C112_other.
Print Assumptions C112_change.
