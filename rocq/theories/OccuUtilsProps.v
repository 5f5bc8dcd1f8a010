(** Properties C01 and C02 (see OccuUtilsSpec.v for the vocabulary). *)
From Verif Require Import OccuUtilsProofs.

(** C01.  Whenever the change of the species counts is computed without error,
    it is the difference of the counts after and before the step. *)
Theorem C01_counts_after_step :
  forall occu s n_dims t n dn,
    occu_to_counts occu n_dims t = Some n ->
    delta_counts_from_step occu s n_dims t = Some dn ->
    occu_to_counts (apply_step occu s) n_dims t = Some (vadd n dn).
Proof. exact counts_delta. Qed.
Print Assumptions C01_counts_after_step.

(** C01 is not vacuous: the change is computed without error for every step on
    counted sites with allowed codes. *)
Theorem C01_defined :
  forall sls N act t occu s,
    layout sls N -> get_dim_ids_table sls act = Some t -> valid_occu sls N occu ->
    (forall site code, In (site, code) s ->
       exists sl, In sl sls /\ In site (counted act sl) /\ In code (sl_encoding sl)) ->
    exists dn, delta_counts_from_step occu s (n_dims_of sls) t = Some dn.
Proof. exact delta_defined. Qed.
Print Assumptions C01_defined.

(** C02.  The dimension table is defined for every layout, and the site list
    and the count of species [code], the [p]-th of sublattice [k], are found at
    dimension [dim_offset k + p]: the list has exactly the counted sites of the
    sublattice that carry the code, increasing. *)
Theorem C02_species_lists :
  forall sls N act occu,
    layout sls N -> valid_occu sls N occu ->
    exists t L n,
      get_dim_ids_table sls act = Some t /\
      occu_to_species_list occu (n_dims_of sls) t = Some L /\
      occu_to_counts occu (n_dims_of sls) t = Some n /\
      length L = n_dims_of sls /\
      map (fun l => Z.of_nat (length l)) L = n /\
      (forall k sl p code,
         nth_error sls k = Some sl -> nth_error (sl_encoding sl) p = Some code ->
         nth_error L (dim_offset sls k + p) =
           Some (sites_carrying N (counted act sl) occu code)) /\
      (forall k sl, nth_error sls k = Some sl ->
         zsum (firstn (length (sl_encoding sl)) (skipn (dim_offset sls k) n)) =
         Z.of_nat (length (counted act sl))).
Proof. exact species_lists. Qed.
Print Assumptions C02_species_lists.

(** C02, the lists partition the counted sites. *)
Theorem C02_partition :
  forall sls N act occu t L,
    layout sls N -> valid_occu sls N occu ->
    get_dim_ids_table sls act = Some t ->
    occu_to_species_list occu (n_dims_of sls) t = Some L ->
    Permutation (concat L) (concat (map (counted act) sls)) /\
    Forall (fun l => StronglySorted lt l) L.
Proof. exact species_partition. Qed.
Print Assumptions C02_partition.

(** C02, dimensions: different (sublattice, species) pairs have different
    dimensions, all below the number of dimensions, and every dimension below it is
    the one of some pair; they are the ids listed by [get_dim_ids_by_sublattice]. *)
Theorem C02_dimensions :
  forall sls,
    (forall k sl p, nth_error sls k = Some sl -> p < length (sl_encoding sl) ->
       dim_offset sls k + p < n_dims_of sls /\
       exists ids, nth_error (get_dim_ids_by_sublattice (map (fun sl => length (sl_encoding sl)) sls)) k
                     = Some ids /\ nth_error ids p = Some (dim_offset sls k + p)) /\
    (forall k sl p k' sl' p',
       nth_error sls k = Some sl -> p < length (sl_encoding sl) ->
       nth_error sls k' = Some sl' -> p' < length (sl_encoding sl') ->
       dim_offset sls k + p = dim_offset sls k' + p' -> k = k' /\ p = p') /\
    (forall d, d < n_dims_of sls -> exists k sl p,
       nth_error sls k = Some sl /\ p < length (sl_encoding sl) /\ d = dim_offset sls k + p).
Proof. exact dimensions. Qed.
Print Assumptions C02_dimensions.

(** A concrete layout: two sublattices on sites 0-4, the second with codes 0 and 2,
    one restricted site. *)
Definition ex_space : site_space := [(Sp 0, Qc_frac 1 2); (Sp 1, Qc_frac 1 2)].
Definition ex_layout : list sublattice :=
  [ mkSL ex_space [0; 2; 3] [0; 3] [0; 1]; mkSL ex_space [1; 4] [1; 4] [0; 2] ].
Definition ex_occu := [1; 2; 0; 0; 0].

Example ex_layout_ok : layout ex_layout 5.
Proof.
  constructor.
  - discriminate.
  - simpl. apply NoDup_Permutation.
    + repeat constructor; simpl; intuition congruence.
    + repeat constructor; simpl; intuition congruence.
    + intros x; simpl; intuition congruence.
  - intros sl s [<-|[<-|[]]]; simpl; intuition congruence.
  - intros sl [<-|[<-|[]]]; simpl; repeat constructor; simpl; intuition congruence.
  - intros sl [<-|[<-|[]]]; simpl; (split; [repeat constructor; simpl; intuition congruence|discriminate]).
Qed.

Example ex_occu_ok : valid_occu ex_layout 5 ex_occu.
Proof.
  split; [reflexivity|]. intros sl s [<-|[<-|[]]] H; simpl in H;
  repeat (destruct H as [<-|H]; [eexists; split; [reflexivity|simpl; auto]|]); tauto.
Qed.

(** Flipping site 0 twice and site 4 once. *)
Example ex_delta :
  match get_dim_ids_table ex_layout true with
  | Some t => delta_counts_from_step ex_occu [(0, 0); (4, 2); (0, 1)] 4 t
  | None => None
  end = Some [0; 0; -1; 1]%Z.
Proof. reflexivity. Qed.
