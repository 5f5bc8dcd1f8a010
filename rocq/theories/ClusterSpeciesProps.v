(** C138: copies and saved clusters keep the species of their sites. *)
From Coq Require Import Permutation.
From Verif Require Import Domain ClusterSpecies.
Set Implicit Arguments.
Unset Strict Implicit.
Open Scope nat_scope.

(** ** Specification *)
Definition few (c : list (kind * Qc)) : Prop := length c < 99.
Definition no_vacancies (c : list (kind * Qc)) : Prop := forall p, In p c -> k_vac (fst p) = false.
(** The vacancies of a site are default ones, and no other species has their symbol. *)
Definition default_vacancies (c : list (kind * Qc)) : Prop :=
  forall p, In p c -> k_vac (fst p) = true /\ fst p = vacancy \/ k_vac (fst p) = false /\ k_symbol (fst p) <> k_symbol vacancy.

(** ** Proofs *)
Lemma of_nat_add a b : Qc_of_nat (a + b) = (Qc_of_nat a + Qc_of_nat b)%Qc.
Proof. unfold Qc_of_nat. rewrite Nat2Z.inj_add. apply Qc_of_Z_add. Qed.
Lemma of_nat_0 : Qc_of_nat 0 = 0%Qc. Proof. apply Qc_is_canon. reflexivity. Qed.
Lemma of_nat_1 : Qc_of_nat 1 = 1%Qc. Proof. apply Qc_is_canon. reflexivity. Qed.
Lemma of_nat_pos n : n <> 0 -> Qc_of_nat n <> 0%Qc.
Proof. intros H E. rewrite <- of_nat_0 in E. apply Qc_of_Z_inj in E. lia. Qed.

Lemma atoms_const (c : list (kind * Qc)) x : (forall p, In p c -> snd p = x) -> atoms c = (Qc_of_nat (length c) * x)%Qc.
Proof.
  unfold atoms. induction c as [|p c IH]; intros H; cbn [map qsum length].
  - rewrite of_nat_0. ring.
  - rewrite IH by (intros; apply H; right; auto). rewrite (H p (or_introl eq_refl)). change (S (length c)) with (1 + length c). rewrite of_nat_add, of_nat_1. ring.
Qed.

Lemma of_nat_lt a b : (Qc_of_nat a < Qc_of_nat b)%Qc <-> a < b.
Proof.
  unfold Qc_of_nat. split; intros H.
  - apply Nat.nle_gt. intros C. apply (Qclt_not_le _ _ H). apply (proj1 (Qc_of_Z_le _ _)). lia.
  - apply Qcnot_le_lt. intros C. apply (proj2 (Qc_of_Z_le _ _)) in C. lia.
Qed.
Lemma scaled (c x y : Qc) : (0 < c)%Qc -> (x < y)%Qc <-> (x * c < y * c)%Qc.
Proof.
  intros Hc. split; intros H; [apply Qcmult_lt_compat_r; auto|]. apply Qcnot_le_lt. intros C. apply (Qclt_not_le _ _ H).
  apply Qcmult_le_compat_r; [exact C|apply Qclt_le_weak; exact Hc].
Qed.
Lemma of_nat_mul a b : Qc_of_nat (a * b) = (Qc_of_nat a * Qc_of_nat b)%Qc.
Proof. unfold Qc_of_nat. rewrite Nat2Z.inj_mul. apply Qc_of_Z_mul. Qed.

(** The fraction of [n] of [k] species compared with 0.99. *)
Lemma frac_lt n k : k <> 0 -> Qcltb (Qc_of_nat n * (1 / Qc_of_nat k))%Qc q099 = (100 * n <? 99 * k).
Proof.
  intros Hk. pose proof (of_nat_pos Hk) as NZ.
  assert (q099 = Qc_of_nat 99 / Qc_of_nat 100)%Qc as -> by (apply Qc_is_canon; reflexivity).
  assert (Qc_of_nat 100 <> 0%Qc) as N100 by (apply of_nat_pos; discriminate).
  assert (0 < Qc_of_nat (100 * k))%Qc as Hpos by (rewrite <- of_nat_0; apply of_nat_lt; lia).
  assert (forall x y, (x < y)%Qc <-> (x * Qc_of_nat (100 * k) < y * Qc_of_nat (100 * k))%Qc) as HS by (intros; apply scaled; exact Hpos).
  specialize (HS (Qc_of_nat n * (1 / Qc_of_nat k))%Qc (Qc_of_nat 99 / Qc_of_nat 100)%Qc).
  replace (Qc_of_nat n * (1 / Qc_of_nat k) * Qc_of_nat (100 * k))%Qc with (Qc_of_nat (100 * n)) in HS by (rewrite !of_nat_mul; field; auto).
  replace (Qc_of_nat 99 / Qc_of_nat 100 * Qc_of_nat (100 * k))%Qc with (Qc_of_nat (99 * k)) in HS by (rewrite !of_nat_mul; field; auto).
  rewrite of_nat_lt in HS. destruct (Qcltb_spec (Qc_of_nat n * (1 / Qc_of_nat k))%Qc (Qc_of_nat 99 / Qc_of_nat 100)%Qc) as [L|L].
  - symmetry. apply Nat.ltb_lt. tauto.
  - symmetry. apply Nat.ltb_ge. apply Nat.nlt_ge. tauto.
Qed.

Definition parts (c : list (kind * Qc)) : nat := length c + if Qcltb (atoms c) q099 then 1 else 0.
Lemma atoms_nil : Qcltb (atoms []) q099 = true. Proof. reflexivity. Qed.
Lemma parts_pos c : parts c <> 0.
Proof. unfold parts. destruct c as [|p c]; [rewrite atoms_nil; discriminate|cbn [length]; lia]. Qed.
Lemma uniform_as c : uniform c = map (fun p => (fst p, 1 / Qc_of_nat (parts c))%Qc) c.
Proof. reflexivity. Qed.
Lemma uniform_atoms c : atoms (uniform c) = (Qc_of_nat (length c) * (1 / Qc_of_nat (parts c)))%Qc.
Proof.
  rewrite uniform_as. erewrite atoms_const; [rewrite map_length; reflexivity|].
  intros p Hin. apply in_map_iff in Hin as (q & <- & _). reflexivity.
Qed.
Lemma uniform_parts c : few c -> parts (uniform c) = parts c.
Proof.
  intros H. unfold parts at 1. rewrite uniform_atoms, frac_lt by apply parts_pos. rewrite uniform_as, map_length. unfold parts, few in *.
  destruct (Qcltb (atoms c) q099) eqn:E.
  - assert (100 * length c <? 99 * (length c + 1) = true) as -> by (apply Nat.ltb_lt; lia). reflexivity.
  - assert (100 * length c <? 99 * (length c + 0) = false) as -> by (apply Nat.ltb_ge; lia). reflexivity.
Qed.
Lemma uniform_twice c : few c -> uniform (uniform c) = uniform c.
Proof. intros H. rewrite uniform_as at 1. rewrite (uniform_parts H). rewrite uniform_as, map_map. reflexivity. Qed.
Lemma spaces_twice sites s : Forall few sites -> from_sites sites = Some s -> from_sites s = Some s /\ s = map uniform sites /\ forallb space_ok s = true.
Proof.
  unfold from_sites, site_spaces, cluster_species. intros HF. destruct (forallb space_ok (map uniform sites)) eqn:E; [|discriminate].
  cbn [option_map]. intros [= <-]. assert (map uniform (map uniform sites) = map uniform sites) as ->.
  { rewrite map_map. apply map_ext_in. intros c Hin. apply uniform_twice. rewrite Forall_forall in HF. auto. }
  rewrite E. auto.
Qed.

(** ** C138 *)
(** A copy of a cluster made from sites has their species. *)
Theorem C138_copy_partial sites s : Forall few sites -> from_sites sites = Some s -> copy s = Some s /\ map (map fst) s = map (map fst) sites.
Proof.
  intros HF E. destruct (spaces_twice HF E) as (E1 & -> & _). split; [exact E1|]. rewrite map_map. apply map_ext. intros c.
  rewrite uniform_as, map_map. reflexivity.
Qed.

Lemma no_named c : no_vacancies c -> map (fun p => k_symbol (fst p)) (filter (fun p : kind * Qc => k_vac (fst p)) c) = [].
Proof.
  induction c as [|p c IH]; intros H; [reflexivity|]. cbn [filter]. rewrite (H p (or_introl eq_refl)). apply IH. intros q Hq. apply H. right. exact Hq.
Qed.
Lemma plain_same c : no_vacancies c -> map (fun p : kind * Qc => (plain (fst p), snd p)) c = c.
Proof.
  intros H. rewrite <- (map_id c) at 2. apply map_ext_in. intros [[v s r] x] Hin. specialize (H _ Hin). cbn in H. subst v. reflexivity.
Qed.
Lemma restored_none c : restored [] c = c.
Proof.
  unfold restored, named. cbn [existsb negb]. assert (filter (fun _ : kind * Qc => true) c = c) as -> by (induction c as [|p c IH]; cbn; congruence).
  rewrite <- (map_id c) at 2. apply map_ext. intros [k x]. reflexivity.
Qed.
Lemma combine_map {A B C} (f : A -> B) (g : A -> C) l : combine (map f l) (map g l) = map (fun x => (f x, g x)) l.
Proof. induction l as [|x l IH]; cbn; congruence. Qed.

(** A loaded cluster without vacancies has the species of the saved one. *)
Theorem C138_load_partial sites s : Forall few sites -> Forall no_vacancies sites -> from_sites sites = Some s -> from_dict (as_dict s) = Some s.
Proof.
  intros HF HV E. destruct (spaces_twice HF E) as (E1 & Es & _). unfold from_dict, as_dict. cbn [d_sites d_vacancies]. rewrite combine_map, map_map.
  assert (Forall no_vacancies s) as HV'.
  { rewrite Es, Forall_forall in *. intros u Hu. apply in_map_iff in Hu as (c & <- & Hc). intros p Hp. rewrite uniform_as in Hp. apply in_map_iff in Hp as (q & <- & Hq). exact (HV c Hc q Hq). }
  rewrite (map_ext_in _ (fun c => c)).
  - rewrite map_id. exact E1.
  - intros c Hc. rewrite Forall_forall in HV'. specialize (HV' c Hc). cbn [fst snd]. rewrite (no_named HV'), (plain_same HV'). apply restored_none.
Qed.

Definition vac_of (p : kind * Qc) : bool := k_vac (fst p).
Lemma split_vacs (c : list (kind * Qc)) : Permutation c (filter vac_of c ++ filter (fun p => negb (vac_of p)) c).
Proof.
  induction c as [|p c IH]; [constructor|]. cbn [filter]. destruct (vac_of p); cbn [negb app].
  - constructor. exact IH.
  - apply Permutation_cons_app. exact IH.
Qed.
Lemma restored_default c : default_vacancies c -> filter vac_of c <> [] ->
  restored (map (fun p => k_symbol (fst p)) (filter vac_of c)) (map (fun p => (plain (fst p), snd p)) c) = filter (fun p => negb (vac_of p)) c.
Proof.
  intros HD HN. set (syms := map _ (filter vac_of c)).
  assert (forall x, existsb (Nat.eqb x) syms = (x =? k_symbol vacancy)) as HS.
  { intros x. apply eq_true_iff_eq. rewrite existsb_exists, Nat.eqb_eq. split.
    - intros (y & Hy & E). apply Nat.eqb_eq in E. subst y. unfold syms in Hy. apply in_map_iff in Hy as (p & <- & Hp). apply filter_In in Hp as (Hp & Hv).
      destruct (HD p Hp) as [(_ & ->)|(Hf & _)]; [reflexivity|]. unfold vac_of in Hv. congruence.
    - intros ->. destruct (filter vac_of c) as [|p l] eqn:E; [congruence|]. assert (In p (filter vac_of c)) as Hp by (rewrite E; left; auto).
      apply filter_In in Hp as (Hp & Hv). exists (k_symbol vacancy). split; [|apply Nat.eqb_refl]. unfold syms. left.
      destruct (HD p Hp) as [(_ & ->)|(Hf & _)]; [reflexivity|]. unfold vac_of in Hv. congruence. }
  clearbody syms. clear HN. unfold restored, named. induction c as [|p c IH]; [reflexivity|]. cbn [map filter fst snd]. rewrite HS.
  assert (default_vacancies c) as HD' by (intros q Hq; apply HD; right; auto). specialize (IH HD').
  unfold vac_of at 1. destruct (HD p (or_introl eq_refl)) as [(Hv & Ep)|(Hv & Hs)]; rewrite Hv.
  - rewrite Ep. cbn [plain k_symbol vacancy Nat.eqb negb]. exact IH.
  - change (k_symbol (plain (fst p))) with (k_symbol (fst p)). assert (k_symbol (fst p) =? k_symbol vacancy = false) as E by (apply Nat.eqb_neq; exact Hs).
    rewrite E. cbn [negb map fst snd]. change (k_symbol (plain (fst p))) with (k_symbol (fst p)). rewrite HS, E. f_equal; [|exact IH].
    destruct p as [[v s r] x]. cbn in Hv. subst v. reflexivity.
Qed.

Lemma site_loaded c0 : few c0 -> default_vacancies c0 -> space_ok (uniform c0) = true ->
  let c := uniform c0 in let u := uniform (restored (map (fun p => k_symbol (fst p)) (filter vac_of c)) (map (fun p => (plain (fst p), snd p)) c)) in
  space_ok u = true /\ Permutation (space_data c) (space_data u).
Proof.
  intros HF HD HO c u.
  assert (default_vacancies c) as HDc.
  { intros p Hp. unfold c in Hp. rewrite uniform_as in Hp. apply in_map_iff in Hp as (q & <- & Hq). exact (HD q Hq). }
  destruct (filter vac_of c) as [|v l] eqn:EV.
  - assert (u = c) as ->.
    { unfold u. cbn [map]. rewrite restored_none, plain_same; [apply uniform_twice; exact HF|].
      intros p Hp. destruct (k_vac (fst p)) eqn:E; [|reflexivity]. assert (In p (filter vac_of c)) as HI by (apply filter_In; auto). rewrite EV in HI. destruct HI. }
    split; [exact HO|apply Permutation_refl].
  - unfold u. clear u. rewrite <- EV. rewrite (restored_default HDc) by congruence. set (r := filter (fun p => negb (vac_of p)) c).
    assert (forall p, In p c -> snd p = 1 / Qc_of_nat (parts c0))%Qc as HA.
    { intros p Hp. unfold c in Hp. rewrite uniform_as in Hp. apply in_map_iff in Hp as (q & <- & Hq). reflexivity. }
    unfold space_ok in HO. fold c in HO. change (filter (fun p => k_vac (fst p)) c) with (filter vac_of c) in HO. rewrite EV in HO.
    apply andb_prop in HO as (_ & HO). apply andb_prop in HO as (HO1 & HO2). apply Nat.leb_le in HO2. destruct l as [|w l]; [|cbn in HO2; lia].
    assert (length c = length c0) as HL by (unfold c; rewrite uniform_as, map_length; reflexivity).
    assert (atoms c = 1%Qc) as EA by (destruct (Qceqb_spec (atoms c) 1%Qc); [auto|discriminate]).
    pose proof (of_nat_pos (parts_pos (c := c0))) as NZ.
    assert (parts c0 = length c) as EP.
    { unfold c in EA. rewrite uniform_atoms in EA. rewrite HL. symmetry.
      assert (Qc_of_nat (length c0) = Qc_of_nat (parts c0)) as EQ by (rewrite <- (Qcmult_1_r (Qc_of_nat (parts c0))), <- EA; field; exact NZ).
      apply Qc_of_Z_inj in EQ. lia. }
    pose proof (split_vacs c) as HP. rewrite EV in HP. fold r in HP. cbn [app] in HP.
    assert (length c = S (length r)) as HR by (apply Permutation_length in HP; exact HP).
    assert (In v c) as Hv by (eapply Permutation_in; [apply Permutation_sym; exact HP|left; auto]).
    assert (v = (vacancy, 1 / Qc_of_nat (length c))%Qc) as Ev.
    { rewrite <- EP, <- (HA v Hv). assert (In v (filter vac_of c)) as Hv' by (rewrite EV; left; auto). apply filter_In in Hv' as (_ & Hv'). unfold vac_of in Hv'.
      destruct (HDc v Hv) as [(_ & <-)|(Hf & _)]; [destruct v; reflexivity|congruence]. }
    rewrite EP in *. rewrite HR in *.
    assert (forall p, In p r -> snd p = 1 / Qc_of_nat (S (length r)))%Qc as HAr by (intros p Hp; apply HA; apply filter_In in Hp; tauto).
    assert (atoms r = Qc_of_nat (length r) * (1 / Qc_of_nat (S (length r))))%Qc as Er by (apply atoms_const; exact HAr).
    assert (100 * length r <? 99 * S (length r) = true) as LT by (apply Nat.ltb_lt; unfold few in HF; lia).
    assert (uniform r = r) as EU.
    { rewrite uniform_as. unfold parts. rewrite Er, frac_lt, LT by discriminate. rewrite Nat.add_1_r. transitivity (map (fun p : kind * Qc => p) r); [|apply map_id]. apply map_ext_in. intros p Hp. rewrite <- (HAr p Hp). destruct p; reflexivity. }
    rewrite EU. split.
    + unfold space_ok. assert (filter (fun p => k_vac (fst p)) r = []) as ->.
      { destruct (filter (fun p : kind * Qc => k_vac (fst p)) r) as [|q l] eqn:E; [reflexivity|]. assert (In q (filter (fun p => k_vac (fst p)) r)) as HI by (rewrite E; left; auto).
        apply filter_In in HI as (H1 & H2). apply filter_In in H1 as (_ & H1). unfold vac_of in H1. rewrite H2 in H1. discriminate H1. }
      rewrite andb_true_r, negb_true_iff, orb_false_iff. rewrite Er.
      assert (0 < Qc_of_nat (S (length r)))%Qc as Hpos by (rewrite <- of_nat_0; apply of_nat_lt; lia).
      split.
      * destruct (Qcltb_spec (Qc_of_nat (length r) * (1 / Qc_of_nat (S (length r)))) 0)%Qc as [L|L]; [|reflexivity]. exfalso.
        apply (scaled _ _ Hpos) in L. replace (Qc_of_nat (length r) * (1 / Qc_of_nat (S (length r))) * Qc_of_nat (S (length r)))%Qc with (Qc_of_nat (length r)) in L by (field; exact NZ).
        rewrite Qcmult_0_l, <- of_nat_0 in L. apply of_nat_lt in L. lia.
      * destruct (Qcltb_spec 1 (Qc_of_nat (length r) * (1 / Qc_of_nat (S (length r)))))%Qc as [L|L]; [|reflexivity]. exfalso.
        apply (scaled _ _ Hpos) in L. replace (Qc_of_nat (length r) * (1 / Qc_of_nat (S (length r))) * Qc_of_nat (S (length r)))%Qc with (Qc_of_nat (length r)) in L by (field; exact NZ).
        rewrite Qcmult_1_l in L. apply of_nat_lt in L. lia.
    + unfold space_data. rewrite EA. assert (Qcltb 1 q099 = false) as -> by reflexivity. rewrite Er, frac_lt, LT by discriminate.
      eapply Permutation_trans; [exact HP|]. rewrite Ev.
      replace (1 - Qc_of_nat (length r) * (1 / Qc_of_nat (S (length r))))%Qc with (1 / Qc_of_nat (S (length r)))%Qc.
      * apply Permutation_cons_append.
      * change (S (length r)) with (1 + length r) in *. rewrite of_nat_add, of_nat_1 in *. field. exact NZ.
Qed.

(** A loaded cluster whose vacancies are default ones has, on every site, the site space of the
    saved one. *)
Theorem C138_vacancies_partial sites s : Forall few sites -> Forall default_vacancies sites -> from_sites sites = Some s ->
  exists l, from_dict (as_dict s) = Some l /\ Forall2 (fun a b => Permutation (space_data a) (space_data b)) s l.
Proof.
  intros HF HV E. destruct (spaces_twice HF E) as (_ & -> & HO). clear E. unfold from_dict, as_dict, from_sites, site_spaces, cluster_species. cbn [d_sites d_vacancies].
  rewrite combine_map, !map_map. cbn [fst snd].
  set (f := fun c0 => uniform (restored (map (fun p => k_symbol (fst p)) (filter (fun p => k_vac (fst p)) (uniform c0))) (map (fun p => (plain (fst p), snd p)) (uniform c0)))).
  change (exists l, option_map (fun x => x) (if forallb space_ok (map f sites) then Some (map f sites) else None) = Some l /\
    Forall2 (fun a b => Permutation (space_data a) (space_data b)) (map uniform sites) l).
  assert (forallb space_ok (map f sites) = true /\ Forall2 (fun a b => Permutation (space_data a) (space_data b)) (map uniform sites) (map f sites)) as (-> & H2).
  { induction sites as [|c sites IH]; [split; [reflexivity|constructor]|]. inversion HF as [|x y F1 F2]; subst. inversion HV as [|x y V1 V2]; subst.
    cbn [map forallb] in *. apply andb_prop in HO as (O1 & O2). destruct (IH F2 V2 O2) as (I1 & I2). destruct (site_loaded F1 V1 O1) as (S1 & S2).
    split; [apply andb_true_intro; split; [exact S1|exact I1]|constructor; [exact S2|exact I2]]. }
  exists (map f sites). split; [reflexivity|exact H2].
Qed.

(** The species themselves change: the vacancy is no longer among them. *)
Definition half : Qc := Qc_frac 1 2.
Definition li : kind := mkKind false 1 1.
Theorem C138_dropped_refuted : ~ (forall sites s, Forall few sites -> Forall default_vacancies sites -> from_sites sites = Some s -> from_dict (as_dict s) = Some s).
Proof.
  intros H. specialize (H [[(li, half); (vacancy, half)]] [[(li, 1 / Qc_of_nat 2); (vacancy, 1 / Qc_of_nat 2)]]%Qc ltac:(repeat constructor)).
  assert (Forall default_vacancies [[(li, half); (vacancy, half)]]) as HD.
  { constructor; [|constructor]. intros p [<-|[<-|[]]]; [right|left]; split; try reflexivity. discriminate. }
  specialize (H HD eq_refl). apply (f_equal (fun o => match o with Some [c] => length c | _ => 0 end)) in H. vm_compute in H. discriminate H.
Qed.
(** A charged vacancy comes back as the default one: the site spaces differ. *)
Theorem C138_charged_refuted : ~ (forall sites s, Forall few sites -> from_sites sites = Some s ->
  exists l, from_dict (as_dict s) = Some l /\ Forall2 (fun a b => Permutation (space_data a) (space_data b)) s l).
Proof.
  intros H. destruct (H [[(li, half); (mkKind true 0 2, half)]] [[(li, 1 / Qc_of_nat 2); (mkKind true 0 2, 1 / Qc_of_nat 2)]]%Qc ltac:(repeat constructor) eq_refl) as (l & El & H2).
  inversion H2 as [|a b x y P _ E1 E2]. subst. assert (In (mkKind true 0 2) (map fst (space_data b))) as HI.
  { apply in_map_iff. exists (mkKind true 0 2, 1 / Qc_of_nat 2)%Qc. split; [reflexivity|]. apply (Permutation_in _ P). vm_compute. right. left. reflexivity. }
  set (rests := fun o : option (list (list (kind * Qc))) => match o with Some (c :: _) => map (fun p => k_rest (fst p)) (space_data c) | _ => [] end).
  apply (f_equal rests) in El. match type of El with ?a = _ => assert (a = [1; 0]) as X by (vm_compute; reflexivity); rewrite X in El end.
  assert (In 2 (rests (Some (b :: y)))) as HI2. { apply in_map_iff in HI as (p & E & Hp). apply in_map_iff. exists p. rewrite E. auto. }
  rewrite <- El in HI2. destruct HI2 as [Y|[Y|[]]]; discriminate Y.
Qed.
(** Amounts given with the site spaces are not copied: the copy has equal ones. *)
Theorem C138_measure_refuted : ~ (forall spaces, forallb space_ok spaces = true -> Forall few spaces -> copy (cluster_species spaces) = Some (cluster_species spaces)).
Proof.
  intros H. specialize (H [[(li, Qc_frac 1 4); (mkKind false 2 1, Qc_frac 3 4)]] eq_refl ltac:(repeat constructor)).
  apply (f_equal (fun o => match o with Some ((p :: _) :: _) => this (snd p) | _ => 0%Q end)) in H. vm_compute in H. discriminate H.
Qed.

Example C138_case : exists s, from_sites [[(li, half); (mkKind false 2 1, Qc_frac 1 4)]; [(vacancy, half); (li, half)]] = Some s /\
  Forall few [[(li, half); (mkKind false 2 1, Qc_frac 1 4)]; [(vacancy, half); (li, half)]] /\
  Forall default_vacancies [[(li, half); (mkKind false 2 1, Qc_frac 1 4)]; [(vacancy, half); (li, half)]] /\
  map (map (fun p => this (snd p))) s = [[1 # 3; 1 # 3]; [1 # 2; 1 # 2]]%Q.
Proof.
  eexists. split; [reflexivity|]. split; [repeat constructor|]. split; [|reflexivity].
  constructor; [|constructor; [|constructor]]; intros p [<-|[<-|[]]]; ((right; split; [reflexivity|discriminate]) || (left; split; reflexivity)).
Qed.

Print Assumptions C138_copy_partial.
Print Assumptions C138_load_partial.
Print Assumptions C138_vacancies_partial.
Print Assumptions C138_dropped_refuted.
Print Assumptions C138_charged_refuted.
Print Assumptions C138_measure_refuted.
