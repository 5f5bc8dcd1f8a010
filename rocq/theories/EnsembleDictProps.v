(** C113 and C114: dictionaries of sublattices and ensembles. *)
From Verif Require Import LibProofs SublatticeProofs SiteTableProofs BiasSpec OccuUtilsProps BiasProps.
From Verif Require Export EnsembleDict EnsembleProps.
From Coq Require Import Lia Sorted.
Set Implicit Arguments.
Unset Strict Implicit.
Open Scope nat_scope.

Lemma opt_map_image A B (f : A -> option B) l ys : opt_map f l = Some ys -> forall y, In y ys -> exists x, f x = Some y.
Proof.
  revert ys. induction l as [|x l IH]; intros ys; cbn [opt_map]; [intros [= <-] y []|]. destruct (f x) as [z|] eqn:E; [|discriminate]. cbn [option_bind]. destruct (opt_map f l) as [zs|]; [|discriminate]. cbn [option_bind].
  intros [= <-] y [<-|H]; [eauto|]. apply (IH zs eq_refl y H).
Qed.
(** ** Sublattices *)
(** Sublattices as they are made, by the constructor or by splitting, keep their sites in increasing order. *)
Definition ordered (sl : sublattice) : Prop := StronglySorted lt (sl_sites sl).
Lemma mk_sites space sites : sl_sites (mk_sublattice space sites) = np_unique sites /\ sl_space (mk_sublattice space sites) = space.
Proof. unfold mk_sublattice. destruct (_ <=? _); auto. Qed.
Lemma sl_round sl : ordered sl -> sl_load (sl_save sl) = sl.
Proof. intros H. unfold sl_load, sl_save, sl_as_dict, sl_from_dict. cbn [fst snd]. destruct (mk_sites (sl_space sl) (sl_sites sl)) as [-> ->]. rewrite np_unique_id by exact H. destruct sl. auto. Qed.
(** After any history of freezing and unfreezing, a sublattice is read back with its species, sites, codes and active sites; so are the parts it is split into. *)
Theorem C113_sublattice space sites ops :
  let sl := fold_left sl_step ops (mk_sublattice space sites) in
  sl_load (sl_save sl) = sl /\
  forall leb occu groups parts, split_by_species leb sl occu groups = Some parts -> Forall (fun p => sl_load (sl_save p) = p) parts.
Proof.
  intros sl. assert (O : ordered sl).
  { unfold ordered. subst sl. assert (H : StronglySorted lt (sl_sites (mk_sublattice space sites))) by (rewrite (proj1 (mk_sites space sites)); apply np_unique_sorted).
    revert H. generalize (mk_sublattice space sites). induction ops as [|o ops IH]; intros sl H; cbn; auto. apply IH. destruct o; cbn [sl_step]; [exact H|]. unfold reset_restricted_sites. destruct (_ <? _); exact H. }
  split; [apply sl_round; auto|]. intros leb occu groups parts H. apply Forall_forall. intros p Hp. apply sl_round. unfold split_by_species in H. apply opt_map_image with (1 := H) in Hp as (g & E).
  unfold split_part in E. destruct (opt_map _ _) as [items|] in E; [|discriminate]. cbn [option_bind] in E. destruct (negb _); [discriminate|].
  destruct (mk_site_space _ _) as [sp|]; [|discriminate]. cbn [option_bind] in E. injection E as <-. unfold ordered. destruct (_ =? 1); cbn; rewrite (proj1 (mk_sites _ _)); apply np_unique_sorted.
Qed.

(** ** Ensembles *)
(** The sublattices are well formed, and the natural parameters are those of the potentials. *)
Definition loadable (e : ensemble) : Prop := Forall ordered (e_sls e) /\ consistent e.
Lemma sls_round e : Forall ordered (e_sls e) -> map sl_load (map sl_save (e_sls e)) = e_sls e.
Proof. intros H. rewrite map_map. rewrite <- (map_id (e_sls e)) at 2. apply map_ext_in. intros sl Hin. apply sl_round. rewrite Forall_forall in H. auto. Qed.
Lemma load_base e : Forall ordered (e_sls e) ->
  mk_ensemble (e_coefs e) (e_feat e) (e_dfeat e) (e_sites e) (map sl_load (map sl_save (e_sls e))) None =
  Some (mkEns (e_coefs e) (e_feat e) (e_dfeat e) (e_sites e) (e_sls e) (e_coefs e) None).
Proof. intros H. rewrite sls_round by auto. unfold mk_ensemble, assign_mu, del_mu. cbn [set_mu e_coefs e_params e_sls e_feat e_dfeat e_sites]. rewrite Nat.ltb_irrefl. auto. Qed.
Lemma sp_dup_filter f (v : list (species * Qc)) : sp_dup (map fst v) = false -> sp_dup (map fst (filter f v)) = false.
Proof.
  induction v as [|[sp x] v IH]; cbn [map fst sp_dup filter]; auto. intros H. apply orb_false_iff in H as (H1 & H2). destruct (f (sp, x)); cbn [map fst sp_dup]; auto. apply orb_false_iff. split; auto.
  apply Bool.not_true_iff_false. intros E. rewrite <- Bool.not_true_iff_false in H1. apply H1. unfold sp_mem in *. apply existsb_exists in E as (y & Hy & E). apply existsb_exists. exists y. split; auto.
  apply in_map_iff in Hy as (z & <- & Hz). apply in_map. apply filter_In in Hz as (Hz & _). auto.
Qed.
Lemma filter_twice A (f : A -> bool) l : filter f (filter f l) = filter f l.
Proof. induction l as [|x l IH]; cbn; auto. destruct (f x) eqn:E; cbn; rewrite ?E, IH; auto. Qed.
Lemma opt_map_map_in A B C (f : B -> option C) (g : A -> B) l : opt_map f (map g l) = opt_map (fun x => f (g x)) l.
Proof. induction l as [|x l IH]; cbn [map opt_map]; auto. rewrite IH. auto. Qed.
Lemma opt_map_eq_in A B (f g : A -> option B) l : (forall x, In x l -> f x = g x) -> opt_map f l = opt_map g l.
Proof. induction l as [|x l IH]; intros H; cbn [opt_map]; auto. rewrite (H x), IH; auto; [intros; apply H; right|left]; auto. Qed.

(** A change of the sublattices that keeps what the table of potentials uses. *)
Definition keeps (f : sublattice -> sublattice) (sls : list sublattice) : Prop :=
  forall sl, In sl sls -> sl_sites (f sl) = sl_sites sl /\ sl_encoding (f sl) = sl_encoding sl /\ sl_space (f sl) = sl_space sl /\ is_active (f sl) = is_active sl.
Lemma filter_map_keeps f sls : keeps f sls -> filter is_active (map f sls) = map f (filter is_active sls).
Proof.
  intros K. induction sls as [|sl sls IH]; cbn [map filter]; auto. destruct (K sl (or_introl eq_refl)) as (_ & _ & _ & ->).
  rewrite IH by (intros x Hx; apply K; right; auto). destruct (is_active sl); auto.
Qed.
Lemma keeps_species e f : keeps f (e_sls e) -> e_species (map_sls e f) = e_species e.
Proof.
  intros K. unfold e_species, e_active. cbn [map_sls e_sls]. rewrite filter_map_keeps by auto. rewrite !flat_map_concat_map, map_map. f_equal. apply map_ext_in. intros sl H. apply filter_In in H as (H & _).
  unfold sl_species. destruct (K sl H) as (_ & _ & -> & _). auto.
Qed.
Lemma keeps_table e f v : keeps f (e_sls e) -> mu_table (map_sls e f) v = mu_table e v.
Proof.
  intros K. unfold mu_table. assert (N : num_cols (e_sls (map_sls e f)) = num_cols (e_sls e)).
  { cbn [map_sls e_sls]. unfold num_cols. rewrite map_length. replace (existsb _ (map f (e_sls e))) with (existsb (fun sl => length (sl_encoding sl) =? 0) (e_sls e)).
    - rewrite map_map. replace (map (fun x => max_list (sl_encoding (f x))) (e_sls e)) with (map (fun sl => max_list (sl_encoding sl)) (e_sls e)); auto.
      apply map_ext_in. intros sl H. destruct (K sl H) as (_ & -> & _). auto.
    - revert K. generalize (e_sls e). induction l as [|sl sls IH]; intros K; cbn [map existsb]; auto. rewrite IH by (intros x Hx; apply K; right; auto). destruct (K sl (or_introl eq_refl)) as (_ & -> & _). auto. }
  rewrite N. assert (B : mu_blocks v (e_active (map_sls e f)) = mu_blocks v (e_active e)).
  { unfold e_active. cbn [map_sls e_sls]. rewrite filter_map_keeps by auto. unfold mu_blocks. rewrite opt_map_map_in. apply opt_map_eq_in. intros sl H. apply filter_In in H as (H & _).
    unfold species_values, sl_species. destruct (K sl H) as (-> & -> & -> & _). auto. }
  rewrite B. auto.
Qed.
Lemma table_fields e p m v : mu_table (mkEns (e_coefs e) (e_feat e) (e_dfeat e) (e_sites e) (e_sls e) p m) v = mu_table e v.
Proof. auto. Qed.
Lemma assigned e0 v0 e : consistent e0 -> assign_mu e0 (Some v0) = Some e -> exists v t, e_mu e = Some (v, t) /\ sp_dup (map fst v) = false /\
  filter (fun p => sp_mem (fst p) (e_species e)) v = v /\ same_species (map fst v) (e_species e) = true /\ mu_table e v = Some t /\ consistent e.
Proof.
  intros C H. destruct (assign_consistent C H) as (C' & (P1 & P2 & P3 & P4) & ES & t & ET & EM). exists (filter (fun p => sp_mem (fst p) (e_species e0)) v0), t.
  assert (Esp : e_species e = e_species e0) by (unfold e_species, e_active; rewrite ES; auto). rewrite Esp. unfold assign_mu in H. destruct (sp_dup (map fst v0)) eqn:D; [discriminate|].
  destruct (same_species _ _) eqn:S in H; [|discriminate]. split; auto. split; [apply sp_dup_filter; auto|]. split; [apply filter_twice|]. split; auto. split; auto.
  unfold mu_table, e_active in *. rewrite ES, P4. auto.
Qed.
Lemma load_with e v t : loadable e -> e_mu e = Some (v, t) -> sp_dup (map fst v) = false -> filter (fun p => sp_mem (fst p) (e_species e)) v = v ->
  same_species (map fst v) (e_species e) = true -> ens_from_dict (ens_as_dict e) = option_map (fun t' => set_mu e (Some (v, t'))) (mu_table e v).
Proof.
  intros (HO & C) EM D F S. unfold ens_from_dict, ens_as_dict. cbn [ed_coefs ed_feat ed_dfeat ed_nsites ed_sls ed_mu]. rewrite load_base by auto. cbn [option_bind]. rewrite EM. cbn [option_map fst].
  unfold assign_mu. rewrite D. change (e_species (mkEns _ _ _ _ (e_sls e) _ _)) with (e_species e). rewrite F, S. cbn [e_mu]. unfold set_params. cbn [e_params e_coefs].
  rewrite firstn_app, Nat.sub_diag, firstn_all, firstn_O, app_nil_r, qlist_eqb_refl. cbn [option_bind e_feat e_dfeat e_sites e_sls e_mu].
  rewrite table_fields. destruct (mu_table e v) as [t'|]; cbn [option_bind option_map]; auto. f_equal. unfold set_mu. cbn. unfold consistent in C. rewrite EM in C. rewrite C. auto.
Qed.
(** An ensemble without potentials, or whose sublattices are active just when they were at the time its potentials were set, is read back exactly.
    Missing: sublattices that were frozen or unfrozen as a whole since, for which the claim is false. *)
Theorem C114_load_partial :
  (forall e, loadable e -> e_mu e = None -> ens_from_dict (ens_as_dict e) = Some e) /\
  (forall e0 v0 e f, loadable e0 -> assign_mu e0 (Some v0) = Some e -> keeps f (e_sls e) ->
     ens_from_dict (ens_as_dict (map_sls e f)) = Some (map_sls e f)).
Proof.
  split.
  - intros e (HO & C) E. unfold ens_from_dict, ens_as_dict. cbn [ed_coefs ed_feat ed_dfeat ed_nsites ed_sls ed_mu]. rewrite load_base by auto. cbn [option_bind]. rewrite E. cbn [option_map]. f_equal.
    unfold consistent in C. rewrite E, app_nil_r in C. destruct e as [c ft df n sls p m]. cbn in *. subst. auto.
  - intros e0 v0 e f (HO & C0) H K. destruct (assigned C0 H) as (v & t & EM & D & F & S & T & C). destruct (assign_consistent C0 H) as (_ & _ & ES & _).
    assert (L : loadable (map_sls e f)).
    { split; [|exact C]. cbn [map_sls e_sls]. apply Forall_forall. intros sl Hin. apply in_map_iff in Hin as (sl0 & <- & Hin). unfold ordered. destruct (K sl0 Hin) as (-> & _).
      rewrite ES in Hin. rewrite Forall_forall in HO. apply (HO sl0 Hin). }
    rewrite (load_with L (v := v) (t := t)); auto.
    + rewrite keeps_table, T by auto. cbn [option_map]. f_equal. destruct e as [c ft df n sls p m]. cbn in *. subst. auto.
    + rewrite keeps_species; auto.
    + rewrite keeps_species; auto.
Qed.

(** Freeze a sublattice, set the potentials of the other species, unfreeze: the saved ensemble can not be read. *)
Definition two_ens : ensemble := mkEns [Qc_of_nat 5] ex_feat ex_dfeat 5
  [mk_sublattice ex_space [0; 2; 3]; mk_sublattice [(Sp 2, Qc_frac 1 2); (Sp 3, Qc_frac 1 2)] [1; 4]] [Qc_of_nat 5] None.
Definition froz : ensemble := map_sls two_ens (fun sl => restrict_sites sl [0; 2; 3]).
Definition froz_mu : list (species * Qc) := [(Sp 2, Qc_frac 1 2); (Sp 3, Qc_frac 3 1)].
Theorem C114_unfreeze_refuted : exists e0 e v, loadable e0 /\ assign_mu e0 (Some v) = Some e /\
  loadable (map_sls e reset_restricted_sites) /\ ens_from_dict (ens_as_dict (map_sls e reset_restricted_sites)) = None.
Proof.
  destruct (assign_mu froz (Some froz_mu)) as [e|] eqn:E; [|exfalso; vm_compute in E; discriminate].
  assert (O : Forall ordered (e_sls froz)) by (repeat constructor).
  assert (C : consistent froz) by reflexivity. destruct (assign_consistent C E) as (C' & _ & ES & _).
  exists froz, e, froz_mu. split; [split; auto|]. split; auto. split.
  - split; [|exact C']. cbn [map_sls e_sls]. rewrite ES. repeat constructor.
  - vm_compute in E. injection E as <-. vm_compute. reflexivity.
Qed.
(** Set the potentials, freeze a sublattice: the ensemble read back computes other features. *)
Theorem C114_freeze_refuted : exists e0 e e' v, loadable e0 /\ assign_mu e0 (Some v) = Some e /\
  loadable (map_sls e (fun sl => restrict_sites sl [0; 2; 3])) /\ ens_from_dict (ens_as_dict (map_sls e (fun sl => restrict_sites sl [0; 2; 3]))) = Some e' /\
  e_features e' ex_occu <> e_features (map_sls e (fun sl => restrict_sites sl [0; 2; 3])) ex_occu.
Proof.
  destruct (assign_mu ex_ens (Some ex_mu)) as [e|] eqn:E; [|exfalso; vm_compute in E; discriminate].
  assert (O : Forall ordered (e_sls ex_ens)) by (repeat constructor).
  assert (C : consistent ex_ens) by reflexivity. destruct (assign_consistent C E) as (C' & _ & ES & _).
  destruct (ens_from_dict (ens_as_dict (map_sls e (fun sl => restrict_sites sl [0; 2; 3])))) as [e'|] eqn:L.
  - exists ex_ens, e, e', ex_mu. split; [split; auto|]. split; auto. split; [|split; auto].
    + split; [|exact C']. cbn [map_sls e_sls]. rewrite ES. repeat constructor.
    + vm_compute in E. injection E as <-. vm_compute in L. injection L as <-. intros X. vm_compute in X. discriminate X.
  - exfalso. vm_compute in E. injection E as <-. vm_compute in L. discriminate L.
Qed.
Example C114_case : exists e, loadable ex_ens /\ assign_mu ex_ens (Some ex_mu) = Some e /\ keeps (fun sl => restrict_sites sl [3]) (e_sls e) /\
  map (fun sl => sl_active sl) (e_sls (map_sls e (fun sl => restrict_sites sl [3]))) <> map (fun sl => sl_active sl) (e_sls e) /\
  e_features (map_sls e (fun sl => restrict_sites sl [3])) ex_occu = Some [Qc_of_nat 3; Qc_frac 15 2].
Proof.
  destruct (assign_mu ex_ens (Some ex_mu)) as [e|] eqn:E; [|exfalso; vm_compute in E; discriminate]. exists e.
  assert (O : Forall ordered (e_sls ex_ens)) by (repeat constructor).
  assert (C : consistent ex_ens) by reflexivity. destruct (assign_consistent C E) as (C' & _ & ES & _). split; [split; auto|]. split; auto. rewrite ES. cbn [map_sls e_sls]. split; [|split].
  - intros sl [<-|[<-|[]]]; repeat split.
  - rewrite ?ES. intros X. vm_compute in X. discriminate X.
  - vm_compute in E. injection E as <-. vm_compute. reflexivity.
Qed.
Example C113_case : let sl := fold_left sl_step [Restrict [2]; Reset; Restrict [0]] (mk_sublattice [(Sp 0, Qc_frac 1 2); (Sp 1, Qc_frac 1 2)] [3; 0; 2; 3]) in
  sl_sites sl = [0; 2; 3] /\ sl_active sl = [2; 3] /\ exists parts, split_by_species (fun _ _ => true) sl [0; 0; 1; 0] [[0]; [1]] = Some parts /\ length parts = 2.
Proof. split; [reflexivity|]. split; [reflexivity|]. eexists. split; vm_compute; reflexivity. Qed.

Print Assumptions C113_sublattice.
Print Assumptions C114_load_partial.
Print Assumptions C114_unfreeze_refuted.
Print Assumptions C114_freeze_refuted.
