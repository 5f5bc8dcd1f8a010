(** Properties C03 and C04 (see SublatticeSpec.v for the vocabulary). *)
From Verif Require Import SublatticeProofs.
Open Scope nat_scope.

(** C03.  After any history of restrictions and resets of a new sublattice, the
    active sites are its sites not restricted since the last reset, increasing; none
    when there is a single species. *)
Theorem C03_active_sites :
  forall space sites ops,
    let sl := fold_left sl_step ops (mk_sublattice space sites) in
    sl_sites sl = np_unique sites /\
    sl_active sl = if length space <=? 1 then []
                   else without (np_unique sites) (restricted_since_reset ops).
Proof. exact active_after_history. Qed.
Print Assumptions C03_active_sites.

(** [np_unique] is the sorted set of the given sites. *)
Theorem C03_np_unique :
  forall sites, StronglySorted lt (np_unique sites) /\ forall s, In s (np_unique sites) <-> In s sites.
Proof. exact (fun l => conj (np_unique_sorted l) (fun s => np_unique_In s l)). Qed.
Print Assumptions C03_np_unique.

(** The same from any sublattice with several species (e.g. after splitting):
    before the first reset the active sites it started with count. *)
Theorem C03_active_sites_any :
  forall sl ops, 1 < length (sl_space sl) ->
    sl_active (fold_left sl_step ops sl) =
    without (if was_reset ops then sl_sites sl else sl_active sl) (restricted_since_reset ops).
Proof. exact active_history. Qed.
Print Assumptions C03_active_sites_any.

(** Active and restricted sites partition the sites, after any history. *)
Theorem C03_partition :
  forall leb sl ops, wf_sublattice leb sl ->
    let sl' := fold_left sl_step ops sl in
    restricted_sites sl' = without (sl_sites sl) (sl_active sl') /\
    Permutation (sl_active sl' ++ restricted_sites sl') (sl_sites sl).
Proof. exact partition_history. Qed.
Print Assumptions C03_partition.

(** Restricting is idempotent, commutes and accumulates. *)
Theorem C03_restrict_laws :
  forall sl a b,
    restrict_sites (restrict_sites sl a) a = restrict_sites sl a /\
    restrict_sites (restrict_sites sl a) b = restrict_sites (restrict_sites sl b) a /\
    restrict_sites (restrict_sites sl a) b = restrict_sites sl (a ++ b).
Proof. exact restrict_laws. Qed.
Print Assumptions C03_restrict_laws.

Definition ex_space2 : site_space := [(Sp 3, Qc_frac 1 2); (Sp 7, Qc_frac 1 4); (Vac, Qc_frac 1 4)].
Example C03_example :
  sl_active (fold_left sl_step [Restrict [1; 9]; Reset; Restrict [4]; Restrict [0; 4]]
               (mk_sublattice ex_space2 [4; 1; 0; 9; 4])) = [1; 9].
Proof. reflexivity. Qed.

(** C04.  Splitting by groups of codes succeeds, every part has the sorted codes of
    its group, the sites that carry one of them, and the active ones among them (none
    for a one-code group). *)
Theorem C04_split :
  forall leb sl occu groups,
    wf_sublattice leb sl -> (forall s, In s (sl_sites sl) -> s < length occu) ->
    (forall g, In g groups -> NoDup g /\ g <> [] /\ forall c, In c g -> In c (sl_encoding sl)) ->
    exists parts, split_by_species leb sl occu groups = Some parts /\
      Forall2 (is_part_of sl occu) groups parts.
Proof. exact split_ok. Qed.
Print Assumptions C04_split.

(** Parts of disjoint groups have disjoint sites, and a site whose code is in some
    group is a site of that part. *)
Theorem C04_disjoint_cover :
  forall leb sl occu groups parts,
    wf_sublattice leb sl -> (forall s, In s (sl_sites sl) -> s < length occu) ->
    (forall g, In g groups -> NoDup g /\ g <> [] /\ forall c, In c g -> In c (sl_encoding sl)) ->
    (forall i j gi gj c, nth_error groups i = Some gi -> nth_error groups j = Some gj ->
       In c gi -> In c gj -> i = j) ->
    split_by_species leb sl occu groups = Some parts ->
    (forall i j pi pj s, nth_error parts i = Some pi -> nth_error parts j = Some pj ->
       In s (sl_sites pi) -> In s (sl_sites pj) -> i = j) /\
    (forall i g p s c, nth_error groups i = Some g -> nth_error parts i = Some p ->
       In s (sl_sites sl) -> nth_error occu s = Some c ->
       (In c g <-> In s (sl_sites p)) /\
       (1 < length g -> In s (sl_active sl) -> (In c g <-> In s (sl_active p)))).
Proof. exact split_disjoint_cover. Qed.
Print Assumptions C04_disjoint_cover.

(** Codes keep their species in the parts, and the parts are again well formed
    (so splitting can be iterated), when a vacancy in the group weighs more than 1%
    of the group. *)
Theorem C04_codes_keep_species_partial :
  forall leb sl occu groups parts,
    wf_sublattice leb sl -> (forall s, In s (sl_sites sl) -> s < length occu) ->
    (forall g, In g groups -> NoDup g /\ g <> [] /\ forall c, In c g -> In c (sl_encoding sl)) ->
    (forall g, In g groups -> vacancy_weighty sl g) ->
    split_by_species leb sl occu groups = Some parts ->
    Forall (fun part =>
      wf_sublattice leb part /\
      forall p c, nth_error (sl_encoding part) p = Some c ->
        exists sp x y, nth_error (sl_space part) p = Some (sp, x) /\
                       item_of_code sl c = Some (sp, y)) parts.
Proof. exact split_codes_species. Qed.
Print Assumptions C04_codes_keep_species_partial.

(** Without the weight condition a part can lose its vacancy species although
    its encoding keeps the code: a site space with 0.5% vacancies. *)
Definition light_vac : sublattice :=
  mk_sublattice [(Sp 0, Qc_frac 995 1000); (Vac, Qc_frac 5 1000)] [0; 1].
Theorem C04_light_vacancy_refuted :
  wf_sublattice (fun _ _ => true) light_vac /\
  exists part, split_by_species (fun _ _ => true) light_vac [0; 1] [[0; 1]] = Some [part] /\
    sl_encoding part = [0; 1] /\ sl_species part = [Sp 0].
Proof.
  split.
  - apply mk_sublattice_wf; simpl; repeat constructor.
  - eexists; split; [vm_compute; reflexivity|]. split; reflexivity.
Qed.
Print Assumptions C04_light_vacancy_refuted.

(** Groups given by species are turned into the codes of these species. *)
Theorem C04_species_groups :
  forall sl groups codes,
    codes_of_species sl groups = Some codes ->
    Forall2 (Forall2 (fun sp c => exists i, nth_error (sl_species sl) i = Some sp /\
                                            nth_error (sl_encoding sl) i = Some c)) groups codes.
Proof. exact codes_of_species_spec. Qed.
Print Assumptions C04_species_groups.

(** The hypotheses are met by every sublattice built by the constructor from an
    ordered site space, after any history of restrictions. *)
Theorem C04_wf_reachable :
  forall leb space sites ops,
    StronglySorted (sp_before leb) (map fst space) -> Forall (fun p => (0 < snd p)%Qc) space ->
    wf_sublattice leb (fold_left sl_step ops (mk_sublattice space sites)).
Proof. exact reachable_wf. Qed.
Print Assumptions C04_wf_reachable.

Definition ex_leb (a b : species) : bool :=
  match a, b with Sp n, Sp m => n <=? m | Sp _, Vac => true | Vac, Vac => true | _, _ => false end.
Definition ex_sl : sublattice := restrict_sites (mk_sublattice ex_space2 [0; 1; 2; 4]) [1].
Example C04_example :
  option_map (map (fun p => (sl_sites p, sl_active p, sl_encoding p, sl_species p)))
    (split_by_species ex_leb ex_sl [0; 2; 1; 1; 0] [[2; 0]; [1]]) =
  Some [ ([0; 1; 4], [0; 4], [0; 2], [Sp 3; Vac]); ([2], [], [1], [Sp 7]) ].
Proof. vm_compute. reflexivity. Qed.
Example C04_example_wf : wf_sublattice ex_leb ex_sl.
Proof.
  unfold ex_sl. change (restrict_sites ?s ?l) with (sl_step s (Restrict l)). apply step_wf,  mk_sublattice_wf.
  - simpl. repeat constructor; simpl; auto; discriminate.
  - repeat constructor.
Qed.
