(** C115, C116 and C117: orbits and functions by size and diameter, and comparison of subspaces. *)
From Verif Require Import LibProofs EvaluatorProofs SubspaceProofs SubspaceProps DistanceProps.
From Verif Require Export SubspaceViews SubspaceSpec.
From Coq Require Import Permutation Lia Sorted.
Set Implicit Arguments.
Unset Strict Implicit.
Open Scope nat_scope.

(** ** Specification *)
(** Subspaces made with at least one orbit for every size (as from_cutoffs does), each size once, after any history. *)
Definition sizes_ok (items : list (nat * list sorbit)) : Prop := NoDup (map fst items) /\ forall k os, In (k, os) items -> os <> [].
Definition reached (gen : scmatrix -> nat -> ctable) (st : subspace) : Prop :=
  exists items ops, items_ok items /\ sizes_ok items /\ st = fold_left (run_op gen) ops (new_sub items).
(** The orbit [o] has clusters of [k] sites. *)
Definition has_size (st : subspace) (k : nat) (o : sorbit) : Prop := exists os, In (k, os) (sub_items st) /\ In o os.
Definition bound_at (b : bounds) (k : nat) (x : Qc) : Prop := match b with Number y => x = y | By_size d => In (k, x) d end.
Definition one_bound (b : bounds) : Prop := match b with Number _ => True | By_size d => NoDup (map fst d) end.

(** ** Proofs *)
Definition shape (items : list (nat * list sorbit)) : list (nat * nat) := map (fun kv => (fst kv, length (snd kv))) items.
Lemma shape_ok a b : shape a = shape b -> sizes_ok a -> sizes_ok b.
Proof.
  intros E [H1 H2]. split.
  - assert (X : forall l, map fst l = map fst (shape l)) by (intros l; unfold shape; rewrite map_map; reflexivity). rewrite X, <- E, <- X. auto.
  - intros k os Hin ->. assert (X : In (k, 0) (shape b)) by (unfold shape; apply in_map_iff; exists (k, []); auto). rewrite <- E in X. unfold shape in X.
    apply in_map_iff in X as ([k' os'] & [= -> L] & X). apply (H2 k os' X). apply length_zero_iff_nil. auto.
Qed.
Lemma assign_list_len c os : length (fst (assign_list c os)) = length os.
Proof. revert c. induction os as [|o os IH]; intros c; cbn [assign_list]; auto. destruct (assign_ids c o) as [o' c']. specialize (IH c'). destruct (assign_list c' os). cbn [fst length] in *. auto. Qed.
Lemma assign_items_shape c items : shape (fst (assign_items c items)) = shape items.
Proof.
  revert c. induction items as [|[k os] items IH]; intros c; cbn [assign_items]; auto. pose proof (assign_list_len c os) as L. destruct (assign_list c os) as [os' c'].
  specialize (IH c'). destruct (assign_items c' items) as [r c'']. unfold shape in *. cbn [fst snd map] in *. rewrite L, IH. auto.
Qed.
Lemma reset_items items cache : sub_items (reset_sub items cache) = fst (assign_items (1, 1, 1) items).
Proof. unfold reset_sub. destruct (assign_items (1, 1, 1) items). reflexivity. Qed.
Lemma reset_sizes items cache : sizes_ok items -> sizes_ok (sub_items (reset_sub items cache)).
Proof. rewrite reset_items. apply shape_ok. symmetry. apply assign_items_shape. Qed.
Lemma map_sizes (f : list sorbit -> list sorbit) items : (forall os, length (f os) = length os) -> sizes_ok items -> sizes_ok (map (fun kv => (fst kv, f (snd kv))) items).
Proof. intros L. apply shape_ok. unfold shape. rewrite map_map. apply map_ext. intros [k os]. cbn [fst snd]. rewrite L. auto. Qed.
Lemma removed_sizes f items : sizes_ok items -> sizes_ok (filter (fun kv => negb (length (snd kv) =? 0)) (map (fun kv => (fst kv, filter f (snd kv))) items)).
Proof.
  intros [H1 H2]. split.
  - clear H2. induction items as [|[k os] items IH]; cbn [map filter]; [constructor|]. cbn [map fst] in H1. inversion H1 as [|? ? N D]; subst. cbn [fst snd].
    destruct (negb (length (filter f os) =? 0)); cbn [map fst]; auto. constructor; auto. intros C. apply N. apply in_map_iff in C as ([k' os'] & E & C). cbn [fst] in E. subst k'.
    apply filter_In in C as [C _]. apply in_map_iff in C as ([k' os''] & [= -> _] & C). apply in_map_iff. exists (k, os''). auto.
  - intros k os Hin ->. apply filter_In in Hin as [_ Hin]. discriminate.
Qed.
Lemma remove_orbits_sizes ids st st' : sizes_ok (sub_items st) -> remove_orbits ids st = Some st' -> sizes_ok (sub_items st').
Proof.
  intros H. unfold remove_orbits. destruct (length ids =? 0); [discriminate|]. destruct (existsb (Nat.eqb 0) ids); [discriminate|].
  destruct (existsb (fun i => sub_norb st <=? i) ids); [discriminate|]. intros E. assert (st' = reset_sub (filter (fun kv => negb (length (snd kv) =? 0)) (map (fun kv => (fst kv, filter (fun o => negb (existsb (Nat.eqb (s_id o)) ids)) (snd kv))) (sub_items st))) []) as -> by congruence.
  apply reset_sizes, removed_sizes. auto.
Qed.
Lemma remove_corr_sizes ids st st' : consistent st -> sizes_ok (sub_items st) -> remove_corr ids st = Some st' -> sizes_ok (sub_items st').
Proof.
  intros HC H. unfold remove_corr. assert (Hok : items_ok (sub_items st)) by (apply items_orbits; apply (c_funs HC)). rewrite (strip_items_eq ids Hok). cbn [option_bind].
  set (its := map (fun kv => (fst kv, map fst (snd kv))) _). assert (HI : sizes_ok its).
  { unfold its. rewrite map_map. cbn [fst snd]. apply (map_sizes (f := fun os => map fst (map (stripped ids) os))); auto. intros os. rewrite !map_length. auto. }
  destruct (flat_map _ _).
  - intros E. assert (st' = reset_sub its (sub_cache st)) as -> by congruence. apply reset_sizes. auto.
  - apply remove_orbits_sizes. auto.
Qed.
Lemma run_op_sizes gen st x : consistent st -> sizes_ok (sub_items st) -> sizes_ok (sub_items (run_op gen st x)).
Proof.
  intros HC H. destruct x as [ids|ids|f|m]; cbn [run_op].
  - destruct (remove_orbits ids st) eqn:E; auto. eapply remove_orbits_sizes; eauto.
  - destruct (remove_corr ids st) eqn:E; auto. eapply remove_corr_sizes; eauto.
  - unfold change_bases. cbn [sub_items]. apply (map_sizes (f := map (fun o => with_basis o (f o)))); auto. intros os. apply map_length.
  - unfold orbit_indices. destruct (find _ _); auto.
Qed.
Lemma reached_reachable gen st : reached gen st -> reachable gen st.
Proof. intros (items & ops & H1 & H2 & ->). exists items, ops. auto. Qed.
Lemma reached_sizes gen st : reached gen st -> sizes_ok (sub_items st).
Proof.
  intros (items & ops & H1 & H2 & ->). assert (HC : consistent (new_sub items)) by (apply (reset_consistent [] H1)). pose proof (@reset_sizes items [] H2) as HS. fold (new_sub items) in HS.
  revert HC HS. generalize (new_sub items). induction ops as [|x ops IH]; intros s HC HS; cbn [fold_left]; auto. apply IH; [apply run_op_consistent; auto|apply run_op_sizes; auto].
Qed.
Lemma sub_orbits_size st o : In o (sub_orbits st) <-> exists k, has_size st k o.
Proof.
  unfold sub_orbits, orbits_of, has_size. rewrite in_flat_map. split.
  - intros ([k os] & H1 & H2). exists k, os. auto.
  - intros (k & os & H1 & H2). exists (k, os). auto.
Qed.
(** Consecutive ranges of functions. *)
Definition ranges (b : nat) (os : list sorbit) : Prop := forall n o, nth_error os n = Some o -> s_bit o = b + list_sum (map s_len (firstn n os)).
Lemma ranges_app b os os' : ranges b (os ++ os') -> ranges b os /\ ranges (b + list_sum (map s_len os)) os'.
Proof.
  intros H. split.
  - intros n o Hn. assert (L : n < length os) by (apply nth_error_Some; congruence). rewrite (H n o); [|rewrite nth_error_app1; auto]. rewrite firstn_app. replace (n - length os) with 0 by lia. cbn [firstn]. rewrite app_nil_r. auto.
  - intros n o Hn. rewrite (H (length os + n) o); [|rewrite nth_error_app2 by lia; replace (length os + n - length os) with n by lia; auto].
    rewrite firstn_app. replace (length os + n - length os) with n by lia. rewrite firstn_all2 by lia. rewrite map_app, list_sum_app. lia.
Qed.
Lemma ranges_seq b os : ranges b os -> flat_map (fun o => seq (s_bit o) (s_len o)) os = seq b (list_sum (map s_len os)).
Proof.
  revert b. induction os as [|o os IH]; intros b H; auto. pose proof (H 0 o eq_refl) as E. cbn [firstn map list_sum fold_right] in E. change (o :: os) with ([o] ++ os) in H. apply ranges_app in H as [_ H].
  cbn [map] in H. cbn [flat_map map]. unfold list_sum in *. cbn [fold_right] in *. rewrite Nat.add_0_r in H. rewrite (IH _ H), seq_app. f_equal. f_equal. lia.
Qed.
Lemma ranges_first_last b o os : ranges b (o :: os) -> seq (s_bit o) (s_bit (last (o :: os) o) + s_len (last (o :: os) o) - s_bit o) = flat_map (fun o => seq (s_bit o) (s_len o)) (o :: os).
Proof.
  intros H. rewrite (ranges_seq H). pose proof (H 0 o eq_refl) as E. cbn [firstn map list_sum fold_right] in E. rewrite E. rewrite Nat.add_0_r in *. f_equal.
  destruct (@exists_last _ (o :: os)) as (l & x & El); [discriminate|]. rewrite El, last_last. rewrite El in H. rewrite (H (length l) x); [|rewrite nth_error_app2, Nat.sub_diag by lia; reflexivity].
  rewrite firstn_app, Nat.sub_diag, firstn_all, app_nil_r, map_app, list_sum_app. cbn [map]. unfold list_sum. cbn [fold_right]. lia.
Qed.
Definition of_orbits (os : list sorbit) : list nat := flat_map (fun o => seq (s_bit o) (s_len o)) os.
Lemma sizes_map items b : (forall k os, In (k, os) items -> os <> []) -> ranges b (orbits_of items) ->
  opt_map size_functions items = Some (map (fun kv => (fst kv, of_orbits (snd kv))) items).
Proof.
  revert b. induction items as [|[k os] items IH]; intros b H R; auto. unfold orbits_of in R. cbn [flat_map snd] in R. apply ranges_app in R as [R1 R2]. cbn [opt_map map].
  rewrite (IH _ (fun k' os' Hin => H k' os' (or_intror Hin)) R2). unfold size_functions. cbn [fst snd]. destruct os as [|o os]; [destruct (H k [] (or_introl eq_refl)); auto|].
  cbn zeta. rewrite (ranges_first_last R1). reflexivity.
Qed.
Lemma flat_orbits (items : list (nat * list sorbit)) : concat (map snd (map (fun kv => (fst kv, of_orbits (snd kv))) items)) = of_orbits (orbits_of items).
Proof. unfold of_orbits, orbits_of. induction items as [|kv items IH]; cbn [map concat flat_map snd]; auto. rewrite IH, flat_map_app. auto. Qed.
Lemma in_of_orbits os j : In j (of_orbits os) <-> exists o, In o os /\ s_bit o <= j < s_bit o + s_len o.
Proof.
  unfold of_orbits. rewrite in_flat_map. split; intros (o & H1 & H2); exists o; (split; [auto|]).
  - apply in_seq in H2. lia.
  - apply in_seq. lia.
Qed.
Lemma size_unique st k os os' : sizes_ok (sub_items st) -> In (k, os) (sub_items st) -> In (k, os') (sub_items st) -> os = os'.
Proof.
  intros [H _]. revert H. induction (sub_items st) as [|[k' l] items IH]; [intros _ []|]. cbn [map fst]. intros H. inversion H as [|? ? N D]; subst. intros [E1|H1] [E2|H2]; auto; try congruence.
  - destruct N. apply in_map_iff. exists (k, os'). split; auto. cbn [fst]. congruence.
  - destruct N. apply in_map_iff. exists (k, os). split; auto. cbn [fst]. congruence.
Qed.
Lemma lookup_some A k (d : list (nat * A)) x : NoDup (map fst d) -> In (k, x) d -> lookup k d = Some x.
Proof.
  unfold lookup. induction d as [|[k' y] d IH]; cbn [map fst find]; [intros _ []|]. intros H. inversion H as [|? ? N D]; subst. intros [[= -> ->]|Hin]; [rewrite Nat.eqb_refl; auto|].
  destruct (Nat.eqb_spec k' k) as [->|]; [|auto]. destruct N. apply in_map_iff. exists (k, x). auto.
Qed.
Lemma lookup_in A k (d : list (nat * A)) x : lookup k d = Some x -> In (k, x) d.
Proof.
  unfold lookup. destruct (find _ d) as [[k' y]|] eqn:E; [|discriminate]. intros [= <-]. apply find_some in E as [E1 E2]. cbn [fst] in E2. apply Nat.eqb_eq in E2. subst. auto.
Qed.

(** ** C115: orbits and functions by size and diameter *)
(** The functions are listed size by size, each once. *)
Theorem C115_by_size gen st : reached gen st -> exists d,
  function_inds_by_size st = Some d /\ map fst d = map fst (sub_items st) /\ concat (map snd d) = seq 1 (sub_ncorr st - 1) /\
  forall k js j, In (k, js) d -> (In j js <-> exists o, has_size st k o /\ owner st j o).
Proof.
  intros HR. pose proof (reached_sizes HR) as HS. pose proof (reachable_consistent (reached_reachable HR)) as HC. eexists. split; [apply (sizes_map (b := 1)); [apply HS|exact (c_bits HC)]|].
  split; [rewrite map_map; reflexivity|]. split.
  - rewrite flat_orbits. unfold of_orbits. rewrite (ranges_seq (b := 1)) by exact (c_bits HC). rewrite (c_ncorr HC). f_equal. unfold sub_orbits. lia.
  - intros k js j Hin. apply in_map_iff in Hin as ([k' os] & [= -> <-] & Hin). rewrite in_of_orbits. split.
    + intros (o & H1 & H2). exists o. assert (has_size st k o) by (exists os; auto). split; auto. split; auto. apply sub_orbits_size. eauto.
    + intros (o & (os' & H1 & H2) & _ & H3). exists o. rewrite (size_unique HS Hin H1). auto.
Qed.
(** The reported cutoffs are the largest diameters of each size. *)
Lemma larger_le x y : (x <= larger x y)%Qc /\ (y <= larger x y)%Qc.
Proof. unfold larger. destruct (Qcleb_spec x y) as [H|H]; split; auto; try apply Qcle_refl. apply Qclt_le_weak, Qcnot_le_lt. auto. Qed.
Lemma fold_larger l x : (x <= fold_left larger l x)%Qc /\ (forall y, In y l -> (y <= fold_left larger l x)%Qc) /\ In (fold_left larger l x) (x :: l).
Proof.
  revert x. induction l as [|a l IH]; intros x; cbn [fold_left]; [split; [apply Qcle_refl|]; split; [intros y []|left; auto]|].
  destruct (IH (larger x a)) as (H1 & H2 & H3). destruct (larger_le x a) as (L1 & L2). split; [eapply Qcle_trans; eauto|]. split.
  - intros y [<-|Hy]; auto. eapply Qcle_trans; eauto.
  - destruct H3 as [<-|H3]; [|cbn; auto]. unfold larger. destruct (Qcleb x a); cbn; auto.
Qed.
Theorem C115_cutoffs gen st diameter : reached gen st -> exists d,
  cutoffs diameter st = Some d /\
  forall k c, In (k, c) d <-> k <> 1 /\ (exists o, has_size st k o /\ diam diameter o = c) /\ (forall o, has_size st k o -> (diam diameter o <= c)%Qc).
Proof.
  intros HR. pose proof (reached_sizes HR) as HS. set (its := filter (fun kv => negb (fst kv =? 1)) (sub_items st)).
  assert (X : forall kv, In kv its -> exists o os, snd kv = o :: os /\ size_cutoff diameter kv = Some (fst kv, fold_left larger (map (diam diameter) os) (diam diameter o))).
  { intros [k os] H. apply filter_In in H as [H _]. apply HS in H. unfold size_cutoff. cbn [fst snd]. destruct os as [|o os]; [congruence|]. exists o, os. auto. }
  destruct (@opt_map_all _ _ (size_cutoff diameter) its) as (d & E); [intros kv Hin; destruct (X kv Hin) as (o & os & _ & ->); discriminate|].
  exists d. split; [apply E|]. assert (Y : forall k c, In (k, c) d <-> exists os, In (k, os) its /\ size_cutoff diameter (k, os) = Some (k, c)).
  { clear - E X. revert d E. induction its as [|[k os] its IH]; intros d; cbn [opt_map]; [intros [= <-] k c; split; [intros []|intros (? & [] & _)]|].
    destruct (X (k, os) (or_introl eq_refl)) as (o & os' & Eo & Es). rewrite Es. cbn [option_bind fst snd] in *. destruct (opt_map (size_cutoff diameter) its) as [r|]; [|discriminate]. intros [= <-] k' c.
    cbn [In]. rewrite (IH (fun kv Hin => X kv (or_intror Hin)) r eq_refl). split.
    - intros [[= <- <-]|(l & H1 & H2)]; [exists os; auto|exists l; auto].
    - intros (l & [[= -> ->]|H1] & H2); [left; congruence|right; exists l; auto]. }
  intros k c. rewrite Y. split.
  - intros (os & Hin & H). unfold its in Hin. apply filter_In in Hin as [Hin Hk]. cbn [fst] in Hk. apply negb_true_iff, Nat.eqb_neq in Hk. split; auto. unfold size_cutoff in H. cbn [fst snd] in H.
    destruct os as [|o os]; [discriminate|]. cbn [map] in H. injection H as <-. destruct (fold_larger (map (diam diameter) os) (diam diameter o)) as (H1 & H2 & H3). split.
    + assert (H4 : In (fold_left larger (map (diam diameter) os) (diam diameter o)) (map (diam diameter) (o :: os))) by (cbn [map]; auto). apply in_map_iff in H4 as (o' & H4 & H5). exists o'. split; auto. exists (o :: os). auto.
    + intros o' (os' & H4 & H5). rewrite <- (size_unique HS Hin H4) in H5. destruct H5 as [<-|H5]; auto. apply H2. apply in_map. auto.
  - intros (Hk & (o & (os & H1 & H2) & Ho) & H3). assert (Hin : In (k, os) its) by (apply filter_In; split; auto; apply negb_true_iff, Nat.eqb_neq; auto). exists os. split; auto.
    destruct (X _ Hin) as (o1 & os1 & E1 & Es). rewrite Es. cbn [fst snd] in *. f_equal. f_equal. subst os. destruct (fold_larger (map (diam diameter) os1) (diam diameter o1)) as (L1 & L2 & L3). apply Qcle_antisym.
    + assert (H4 : In (fold_left larger (map (diam diameter) os1) (diam diameter o1)) (map (diam diameter) (o1 :: os1))) by (cbn [map]; auto). apply in_map_iff in H4 as (o' & H4 & H5). rewrite <- H4. apply H3. exists (o1 :: os1). auto.
    + rewrite <- Ho. destruct H2 as [<-|H2]; auto. apply L2. apply in_map. auto.
Qed.
(** Selection with two numbers: the orbits with diameters between them, in order. *)
Lemma parts_number diameter items u l : NoDup (map fst items) ->
  forall its, incl its items ->
  opt_map (fun e : nat * Qc => let? os := lookup (fst e) items in
    match os with [] => Some [] | _ => let? lo := lookup (fst e) (map (fun kv => (fst kv, l)) items) in Some (filter (within diameter lo (snd e)) os) end) (map (fun kv => (fst kv, u)) its)
  = Some (map (fun kv => filter (within diameter l u) (snd kv)) its).
Proof.
  intros ND. induction its as [|[k os] its IH]; intros HI; auto. cbn [map opt_map fst snd]. rewrite IH by (intros x Hx; apply HI; cbn; auto).
  assert (Hin : In (k, os) items) by (apply HI; cbn; auto). rewrite (lookup_some ND Hin). cbn [option_bind]. destruct os as [|o os]; auto.
  rewrite (@lookup_some _ k (map (fun kv => (fst kv, l)) items) l); auto; [rewrite map_map; auto|]. apply in_map_iff. exists (k, o :: os). auto.
Qed.
Theorem C115_select gen st diameter u l : reached gen st ->
  orbits_from_cutoffs diameter st (Number u) (Number l) = Some (orbits_by_cutoffs diameter st u l) /\
  (forall o, In o (orbits_by_cutoffs diameter st u l) <-> In o (sub_orbits st) /\ (l <= diam diameter o <= u)%Qc) /\
  exists js, function_inds_from_cutoffs diameter st (Number u) (Number l) = Some js /\ StronglySorted lt js /\
    forall j, In j js <-> exists o, owner st j o /\ (l <= diam diameter o <= u)%Qc.
Proof.
  intros HR. pose proof (reached_sizes HR) as HS. pose proof (reachable_consistent (reached_reachable HR)) as HC.
  assert (E : orbits_from_cutoffs diameter st (Number u) (Number l) = Some (orbits_by_cutoffs diameter st u l)).
  { unfold orbits_from_cutoffs, bounds_dict. rewrite (@parts_number diameter (sub_items st) u l (proj1 HS) (sub_items st)) by (intros x; auto). cbn [option_bind]. f_equal.
    unfold orbits_by_cutoffs, sub_orbits, orbits_of. clear. induction (sub_items st) as [|kv its IH]; cbn [map concat flat_map]; auto. rewrite IH, filter_app. auto. }
  assert (W : forall o, within diameter l u o = true <-> (l <= diam diameter o <= u)%Qc).
  { intros o. unfold within. rewrite andb_true_iff. destruct (Qcleb_spec l (diam diameter o)), (Qcleb_spec (diam diameter o) u); intuition congruence. }
  split; auto. split; [intros o; unfold orbits_by_cutoffs; rewrite filter_In, W; tauto|]. unfold function_inds_from_cutoffs. rewrite E. cbn [option_bind]. eexists. split; [reflexivity|]. fold (of_orbits (orbits_by_cutoffs diameter st u l)). split.
  - unfold orbits_by_cutoffs. pose proof (c_bits HC) as R. fold (ranges 1 (sub_orbits st)) in R. clear - R. revert R. generalize 1 as b. assert (X : forall os b, ranges b os -> StronglySorted lt (of_orbits (filter (within diameter l u) os)) /\ Forall (fun j => b <= j) (of_orbits (filter (within diameter l u) os))).
    { induction os as [|o os IH]; intros b R; [split; constructor|]. pose proof (R 0 o eq_refl) as E. cbn [firstn map list_sum fold_right] in E. change (o :: os) with ([o] ++ os) in R. apply ranges_app in R as [_ R]. cbn [map] in R. unfold list_sum in R. cbn [fold_right] in R.
      destruct (IH _ R) as [S1 S2]. cbn [filter]. destruct (within diameter l u o); [|split; auto; eapply Forall_impl; [|apply S2]; cbn beta; intros; lia].
      unfold of_orbits in *. cbn [flat_map]. rewrite Nat.add_0_r in *. rewrite E in *. clear - S1 S2. revert b S2. induction (s_len o) as [|n IHn]; intros b S2; cbn [seq app].
      - rewrite Nat.add_0_r in S2. auto.
      - destruct (IHn (S b)) as [I1 I2]; [eapply Forall_impl; [|apply S2]; cbn beta; intros; lia|]. split.
        + constructor; auto.
        + constructor; auto. eapply Forall_impl; [|apply I2]; cbn beta; intros; lia. }
    intros b R. apply (X _ b). auto.
  - intros j. rewrite in_of_orbits. split; intros (o & H1 & H2); exists o.
    + apply filter_In in H1 as [H1 Hw]. apply W in Hw. split; auto. split; auto.
    + destruct H1 as [H0 H1]. split; auto. apply filter_In. split; auto. apply W. auto.
Qed.
(** Selection with dictionaries: it succeeds exactly when the sizes exist and have lower bounds. *)
Theorem C115_by_dict gen st diameter d lower : reached gen st -> one_bound (By_size d) -> one_bound lower ->
  (orbits_from_cutoffs diameter st (By_size d) lower <> None <->
   forall k u, In (k, u) d -> In k (map fst (sub_items st)) /\ exists l, bound_at lower k l) /\
  forall os, orbits_from_cutoffs diameter st (By_size d) lower = Some os ->
   forall o, In o os <-> exists k u l, has_size st k o /\ In (k, u) d /\ bound_at lower k l /\ (l <= diam diameter o <= u)%Qc.
Proof.
  intros HR Hd Hl. pose proof (reached_sizes HR) as HS. unfold orbits_from_cutoffs. cbn [bounds_dict].
  set (f := fun e : nat * Qc => let? os := lookup (fst e) (sub_items st) in match os with [] => Some [] | _ => let? lo := lookup (fst e) (bounds_dict lower st) in Some (filter (within diameter lo (snd e)) os) end).
  assert (NL : NoDup (map fst (bounds_dict lower st))) by (destruct lower; cbn [bounds_dict]; [rewrite map_map; apply HS|auto]).
  assert (BL : forall k os l, In (k, os) (sub_items st) -> (lookup k (bounds_dict lower st) = Some l <-> bound_at lower k l)).
  { intros k os l Hin. split.
    - intros H. apply lookup_in in H. destruct lower as [y|dl]; cbn [bounds_dict bound_at] in *; auto. apply in_map_iff in H as (kv & [= _ ->] & _). auto.
    - intros H. apply lookup_some; auto. destruct lower as [y|dl]; cbn [bounds_dict bound_at] in *; auto. subst. apply in_map_iff. exists (k, os). auto. }
  assert (F : forall k u os, f (k, u) = Some os <-> exists os0 l, In (k, os0) (sub_items st) /\ bound_at lower k l /\ os = filter (within diameter l u) os0).
  { intros k u os. unfold f. cbn [fst snd]. split.
    - destruct (lookup k (sub_items st)) as [os0|] eqn:E; [|discriminate]. cbn [option_bind]. apply lookup_in in E. pose proof (proj2 HS _ _ E) as Ne. destruct os0 as [|o os0]; [congruence|].
      destruct (lookup k (bounds_dict lower st)) as [l|] eqn:El; [|discriminate]. cbn [option_bind]. intros [= <-]. exists (o :: os0), l. split; auto. split; auto. apply (BL k (o :: os0)); auto.
    - intros (os0 & l & H1 & H2 & ->). rewrite (lookup_some (proj1 HS) H1). cbn [option_bind]. pose proof (proj2 HS _ _ H1) as Ne. destruct os0 as [|o os0]; [congruence|]. rewrite (proj2 (BL k _ l H1) H2). auto. }
  split.
  - split.
    + intros H k u Hin. destruct (f (k, u)) as [os|] eqn:E.
      * apply F in E as (os0 & l & H1 & H2 & _). split; [apply in_map_iff; exists (k, os0); auto|exists l; auto].
      * exfalso. apply H. replace (opt_map f d) with (@None (list (list sorbit))); auto. symmetry. clear - Hin E. induction d as [|e d IH]; [destruct Hin|]. cbn [opt_map]. destruct Hin as [->|Hin]; [rewrite E; auto|]. destruct (f e); auto. cbn [option_bind]. rewrite (IH Hin). auto.
    + intros H. destruct (@opt_map_all _ _ f d) as (ps & E); [|rewrite E; discriminate]. intros [k u] Hin E. destruct (H k u Hin) as (H1 & l & H2). apply in_map_iff in H1 as ([k' os0] & Ek & H1). cbn [fst] in Ek. subst k'.
      assert (X : f (k, u) = Some (filter (within diameter l u) os0)) by (apply F; eauto). congruence.
  - intros os E o. destruct (opt_map f d) as [ps|] eqn:Ep; [|discriminate]. cbn [option_bind] in E. injection E as <-. rewrite in_concat.
    assert (Y : forall p, In p ps <-> exists e, In e d /\ f e = Some p).
    { clear - Ep. revert ps Ep. induction d as [|e d IH]; intros ps; cbn [opt_map]; [intros [= <-] p; split; [intros []|intros (? & [] & _)]|]. destruct (f e) as [q|] eqn:Eq; [|discriminate]. cbn [option_bind].
      destruct (opt_map f d) as [r|]; [|discriminate]. intros [= <-] p. cbn [In]. rewrite (IH r eq_refl). split.
      - intros [<-|(x & H1 & H2)]; [exists e; auto|exists x; auto].
      - intros (x & [->|H1] & H2); [left; congruence|right; exists x; auto]. }
    assert (W : forall l u x, within diameter l u x = true <-> (l <= diam diameter x <= u)%Qc).
    { intros l u x. unfold within. rewrite andb_true_iff. destruct (Qcleb_spec l (diam diameter x)), (Qcleb_spec (diam diameter x) u); intuition congruence. }
    split.
    + intros (p & Hp & Ho). apply Y in Hp as ([k u] & H1 & H2). apply F in H2 as (os0 & l & H3 & H4 & ->). apply filter_In in Ho as [Ho Hw]. apply W in Hw. exists k, u, l. split; [exists os0; auto|]. auto.
    + intros (k & u & l & (os0 & H1 & H2) & H3 & H4 & H5). exists (filter (within diameter l u) os0). split; [apply Y; exists (k, u); split; auto; apply F; eauto|]. apply filter_In. split; auto. apply W. auto.
Qed.
(** Selecting with the reported cutoffs gives back all orbits of more than one site. *)
Theorem C115_tight gen st diameter d : reached gen st -> (forall o, In o (sub_orbits st) -> (0 <= diam diameter o)%Qc) -> cutoffs diameter st = Some d ->
  exists os, orbits_from_cutoffs diameter st (By_size d) (Number 0) = Some os /\
    forall o, In o os <-> exists k, k <> 1 /\ has_size st k o.
Proof.
  intros HR Hp E. destruct (C115_cutoffs diameter HR) as (d' & E' & H). rewrite E in E'. injection E' as <-. pose proof (reached_sizes HR) as HS.
  assert (ND : one_bound (By_size d)).
  { cbn [one_bound]. unfold cutoffs in E. assert (X : map fst d = map fst (filter (fun kv => negb (fst kv =? 1)) (sub_items st))).
    { clear - E. revert d E. induction (filter _ (sub_items st)) as [|kv its IH]; intros d; cbn [opt_map]; [intros [= <-]; auto|]. unfold size_cutoff at 1. destruct (map _ (snd kv)); [discriminate|]. cbn [option_bind].
      destruct (opt_map (size_cutoff diameter) its) as [r|]; [|discriminate]. intros [= <-]. cbn [map fst]. rewrite (IH r eq_refl). auto. }
    rewrite X. destruct HS as [HN _]. clear - HN. induction (sub_items st) as [|[k os] its IH]; cbn [filter]; [constructor|]. cbn [map fst] in HN. inversion HN as [|? ? N D]; subst. cbn [fst]. destruct (negb (k =? 1)); auto.
    cbn [map fst]. constructor; auto. intros C. apply N. apply in_map_iff in C as (kv & C1 & C2). apply filter_In in C2 as [C2 _]. apply in_map_iff. eauto. }
  destruct (C115_by_dict (lower := Number 0) diameter HR ND I) as (H1 & H2). destruct (orbits_from_cutoffs diameter st (By_size d) (Number 0)) as [os|] eqn:Eo.
  - exists os. split; auto. intros o. rewrite (H2 os eq_refl). split.
    + intros (k & u & l & K1 & K2 & _). exists k. split; auto. apply H in K2. apply K2.
    + intros (k & K1 & K2). destruct K2 as (os0 & K2 & K3). assert (X : exists c, In (k, c) d).
      { destruct (fold_larger (map (diam diameter) (tl os0)) (diam diameter (hd o os0))) as (L1 & L2 & L3). exists (fold_left larger (map (diam diameter) (tl os0)) (diam diameter (hd o os0))). apply H. split; auto.
        destruct os0 as [|o1 os0]; [destruct K3|]. cbn [tl hd] in *. split.
        - assert (H4 : In (fold_left larger (map (diam diameter) os0) (diam diameter o1)) (map (diam diameter) (o1 :: os0))) by (cbn [map]; auto). apply in_map_iff in H4 as (o' & H4 & H5). exists o'. split; auto. exists (o1 :: os0). auto.
        - intros o' (os' & H4 & H5). rewrite <- (size_unique HS K2 H4) in H5. destruct H5 as [<-|H5]; auto. apply L2. apply in_map. auto. }
      destruct X as (c & Hc). exists k, c, (0%Qc). assert (HZ : has_size st k o) by (exists os0; auto). split; auto. split; auto. split; [reflexivity|]. split; [apply Hp; apply sub_orbits_size; eauto|]. apply H in Hc. apply Hc. auto.
  - exfalso. apply H1; auto. intros k u Hin. apply H in Hin as (_ & (o & (os0 & K1 & _) & _) & _). split; [apply in_map_iff; exists (k, os0); auto|]. exists 0%Qc. reflexivity.
Qed.
(** Grouping by diameter: ascending diameters, every orbit in the group of its diameter. *)
Theorem C115_by_diameter st diameter :
  StronglySorted (fun a b => (fst a < fst b)%Qc) (orbits_by_diameter diameter st) /\
  (forall o, (exists d g, In (d, g) (orbits_by_diameter diameter st) /\ In o g) <-> In o (sub_orbits st)) /\
  (forall d g o, In (d, g) (orbits_by_diameter diameter st) -> In o g -> diam diameter o = d).
Proof.
  unfold orbits_by_diameter. set (l := map (fun o => (diam diameter o, o)) (sub_orbits st)). assert (X : forall d o, (exists g, In (d, g) (group_key (sort_key l)) /\ In o g) <-> In o (sub_orbits st) /\ diam diameter o = d).
  { intros d o. rewrite <- group_key_in, sort_key_in. unfold l. rewrite in_map_iff. split; [intros (o' & [= <- <-] & H); auto|]. intros (H & <-). eauto. }
  split; [|split].
  - apply Sorted_StronglySorted; [intros a b c; apply Qclt_trans|]. apply group_key_sorted, sort_key_sorted.
  - intros o. split; [intros (d & g & H); apply (X d o); eauto|]. intros H. destruct (proj2 (X (diam diameter o) o) (conj H eq_refl)) as (g & Hg). eauto.
  - intros d g o H1 H2. apply (proj1 (X d o)). eauto.
Qed.
(** A case: two point functions, one of which is removed, two pairs and a triplet. *)
Definition flat : list (list (list Qc)) := [[[1%Qc; 1%Qc; 1%Qc]; [1%Qc; 0%Qc; 0%Qc]; [0%Qc; 1%Qc; 0%Qc]]].
Definition view_items : list (nat * list sorbit) :=
  [(1, [mkS 0 1 flat [[[0]]; [[1]]] 0 0]); (2, [mkS 1 6 (flat ++ flat) [[[0; 0]]; [[0; 1]; [1; 0]]; [[1; 1]]] 0 0; mkS 2 3 (flat ++ flat) [[[0; 0]]] 0 0]);
   (3, [mkS 3 8 (flat ++ flat ++ flat) [[[0; 0; 0]]] 0 0])].
Definition view_diameter (k : nat) : Qc := nth k [0%Qc; Q2Qc 3; Q2Qc 4; Q2Qc 3] 0%Qc.
Definition view_state : subspace := fold_left (run_op (fun _ _ => [])) [ORemoveCorr [2]] (new_sub view_items).
Example C115_case : reached (fun _ _ => []) view_state /\
  function_inds_by_size view_state = Some [(1, [1]); (2, [2; 3; 4; 5]); (3, [6])] /\
  option_map (map fst) (cutoffs view_diameter view_state) = Some [2; 3] /\
  option_map (map s_id) (orbits_from_cutoffs view_diameter view_state (Number (Q2Qc 3)) (Number 0)) = Some [1; 2; 4] /\
  function_inds_from_cutoffs view_diameter view_state (By_size [(2, Q2Qc 4)]) (Number (Q2Qc 4)) = Some [5] /\
  orbits_from_cutoffs view_diameter view_state (By_size [(4, Q2Qc 4)]) (Number 0) = None /\
  map (fun g => map s_id (snd g)) (orbits_by_diameter view_diameter view_state) = [[1]; [2; 4]; [3]].
Proof.
  split; [|repeat split; vm_compute; reflexivity]. exists view_items, [ORemoveCorr [2]]. split; [|split; [|reflexivity]].
  - intros kv o H1 H2. destruct H1 as [<-|[<-|[<-|[]]]]; cbn [snd In] in H2; repeat (destruct H2 as [<-|H2]; [discriminate|]); destruct H2.
  - split; [repeat constructor; cbn; intuition discriminate|]. intros k os H. destruct H as [[= <- <-]|[[= <- <-]|[[= <- <-]|[]]]]; discriminate.
Qed.

(** ** C116: comparing subspaces *)
Lemma same_keys os os' : map s_key os = map s_key os' -> forallb (fun p => same_orbit (fst p) (snd p)) (combine os' os) = true.
Proof.
  revert os'. induction os as [|o os IH]; intros [|o' os'] H; try discriminate; auto. injection H as H1 H2. cbn [combine forallb fst snd]. unfold same_orbit at 1. rewrite H1, Nat.eqb_refl. cbn [andb]. auto.
Qed.
Lemma ext_refl ext : forallb (fun p => fst p =? snd p) (combine ext ext) = true.
Proof. induction ext as [|x ext IH]; auto. cbn [combine forallb fst snd]. rewrite Nat.eqb_refl. auto. Qed.
(** A subspace, after any history, equals itself and what is loaded from its dictionary (which is also its copy). *)
Theorem C116_copy gen st st' ext : reachable gen st -> sub_load (sub_as_dict st) = Some st' -> sub_eqb st st ext ext = true /\ sub_eqb st st' ext ext = true.
Proof.
  intros HR HL. assert (X : sub_eqb st st ext ext = true).
  { unfold sub_eqb. rewrite !Nat.eqb_refl, ext_refl. cbn [negb]. apply same_keys. auto. }
  unfold sub_load in HL. destruct (forallb _ _); [|discriminate]. rewrite (reload (reachable_consistent HR)) in HL. injection HL as <-. auto.
Qed.
Theorem C116_symmetric st st' ext ext' : sub_eqb st st' ext ext' = sub_eqb st' st ext' ext.
Proof.
  unfold sub_eqb. rewrite (Nat.eqb_sym (sub_ncorr st')), (Nat.eqb_sym (length ext)). destruct (negb _); auto. destruct (negb _); auto.
  assert (X : forallb (fun p => fst p =? snd p) (combine ext' ext) = forallb (fun p => fst p =? snd p) (combine ext ext')).
  { clear. revert ext'. induction ext as [|x ext IH]; intros [|y ext']; auto. cbn [combine forallb fst snd]. rewrite IH, (Nat.eqb_sym x y). auto. }
  rewrite X. destruct (negb _); auto. generalize (sub_orbits st) as a, (sub_orbits st') as b. clear. induction a as [|x a IH]; intros [|y b]; auto. cbn [combine forallb fst snd]. rewrite IH. unfold same_orbit. rewrite (Nat.eqb_sym (s_key y)). auto.
Qed.
(** A subspace from which an existing function or orbit was removed is not equal to what it was. *)
Lemma filter_not_longer A (f : A -> bool) l : length (filter f l) <= length l.
Proof. induction l as [|x l IH]; cbn [filter length]; [lia|]. destruct (f x); cbn [length]; lia. Qed.
Lemma without_shorter A ids (l : list A) j : In j ids -> 0 < j <= length l -> length (without ids l) < length l.
Proof.
  intros Hin Hj. unfold without. rewrite map_length. assert (X : forall (l : list A) b, b <= j < b + length l -> length (filter (fun p => negb (existsb (Nat.eqb (fst p)) ids)) (combine (seq b (length l)) l)) < length l).
  { clear Hj l. induction l as [|x l IH]; intros b Hj; cbn [length] in Hj; [lia|]. cbn [length seq combine filter fst]. destruct (Nat.eq_dec b j) as [->|Hne].
    - replace (existsb (Nat.eqb j) ids) with true by (symmetry; apply existsb_exists; exists j; split; auto; apply Nat.eqb_refl). cbn [negb].
      pose proof (filter_not_longer (fun p => negb (existsb (Nat.eqb (fst p)) ids)) (combine (seq (S j) (length l)) l)) as L. rewrite combine_length, seq_length in L. lia.
    - assert (length (filter (fun p => negb (existsb (Nat.eqb (fst p)) ids)) (combine (seq (S b) (length l)) l)) < length l) by (apply IH; lia). destruct (negb _); cbn [length]; lia. }
  apply X. lia.
Qed.
Lemma labels_count st : consistent st -> sub_ncorr st = S (length (labels st)).
Proof.
  intros HC. rewrite (c_ncorr HC). unfold labels. cbn [Nat.add]. f_equal. generalize (sub_orbits st). clear. induction l as [|o l IH]; auto. cbn [map flat_map]. unfold list_sum in *. cbn [fold_right]. rewrite IH, app_length, map_length. auto.
Qed.
Theorem C116_removed gen st ids j ext ext' : reachable gen st -> In j ids ->
  (forall st', 0 < j < sub_ncorr st -> remove_corr ids st = Some st' -> sub_eqb st st' ext ext' = false) /\
  (forall st', remove_orbits ids st = Some st' -> sub_eqb st st' ext ext' = false).
Proof.
  intros HR Hin. pose proof (reachable_consistent HR) as HC. split; intros st'.
  - intros Hj E. destruct (remove_corr_spec ids HC) as (s & E' & HC' & L & _). rewrite E in E'. injection E' as <-. rewrite (labels_count HC) in Hj. unfold sub_eqb. rewrite (labels_count HC), (labels_count HC'), L.
    pose proof (@without_shorter _ ids (labels st) j Hin) as X. destruct (Nat.eqb_spec (S (length (without ids (labels st)))) (S (length (labels st)))); [lia|]. auto.
  - intros E. pose proof (@remove_orbits_spec ids st (c_funs HC)) as H. rewrite E in H. destruct H as (_ & H2 & HC' & _). pose proof (C33_orbits_left HR E) as H3.
    assert (Hj : 1 <= j <= length (sub_orbits st)) by (apply (C33_remove_orbits ids HR); eauto).
    assert (X : sub_ncorr st' < sub_ncorr st); [|unfold sub_eqb; destruct (Nat.eqb_spec (sub_ncorr st') (sub_ncorr st)); [lia|]; auto].
    rewrite (c_ncorr HC), (c_ncorr HC'). assert (Y : map s_len (sub_orbits st') = map s_len (without ids (sub_orbits st))).
    { assert (Z : forall l, map s_len l = map (fun p : nat * list (list (list nat)) => length (snd p)) (map (fun o => (s_key o, s_combos o)) l)) by (intros l; rewrite map_map; reflexivity). rewrite Z, H3, <- Z. auto. }
    rewrite Y. apply Nat.add_lt_mono_l. unfold without. pose proof (c_funs HC) as F. clear - F Hin Hj. assert (X : forall os b, (forall o, In o os -> s_combos o <> []) ->
      list_sum (map s_len (map snd (filter (fun p => negb (existsb (Nat.eqb (fst p)) ids)) (combine (seq b (length os)) os)))) <= list_sum (map s_len os) /\
      (b <= j < b + length os -> list_sum (map s_len (map snd (filter (fun p => negb (existsb (Nat.eqb (fst p)) ids)) (combine (seq b (length os)) os)))) < list_sum (map s_len os))).
    { induction os as [|o os IH]; intros b Fo; [cbn; split; lia|]. destruct (IH (S b)) as [I1 I2]; [intros x Hx; apply Fo; cbn; auto|]. assert (Lo : 0 < s_len o).
      { unfold s_len. specialize (Fo o (or_introl eq_refl)). destruct (s_combos o); [congruence|cbn; lia]. }
      cbn [length seq combine filter fst]. destruct (negb (existsb (Nat.eqb b) ids)) eqn:Eb; cbn [map snd]; unfold list_sum in *; cbn [fold_right]; (split; [lia|]); intros Hb; [|lia].
      destruct (Nat.eq_dec b j) as [->|]; [|lia]. exfalso. apply negb_true_iff in Eb. rewrite <- not_true_iff_false in Eb. apply Eb. apply existsb_exists. exists j. split; auto. apply Nat.eqb_refl. }
    apply X; auto. lia.
Qed.
(** Membership of an orbit. *)
Theorem C116_contains st o : sub_contains st o = true <-> In (s_key o) (map s_key (sub_orbits st)).
Proof.
  unfold sub_contains. rewrite existsb_exists, in_map_iff. unfold same_orbit. split; intros (x & H1 & H2); exists x; [apply Nat.eqb_eq in H2; auto|split; auto; apply Nat.eqb_eq; auto].
Qed.
Example C116_case : reachable (fun _ _ => []) view_state /\ sub_eqb view_state (new_sub view_items) [] [] = false /\ sub_eqb view_state view_state [0] [] = false /\
  sub_contains view_state (mkS 3 0 [] [] 0 0) = true /\ sub_contains view_state (mkS 4 0 [] [] 0 0) = false.
Proof. split; [apply reached_reachable, C115_case|]. repeat split; vm_compute; reflexivity. Qed.

(** ** C117: equal subspaces have the same orbits *)
(** Only for equal numbers of orbits. *)
Theorem C117_equal_partial st st' ext ext' : length (sub_orbits st) = length (sub_orbits st') -> sub_eqb st st' ext ext' = true ->
  map s_key (sub_orbits st) = map s_key (sub_orbits st') /\ sub_ncorr st = sub_ncorr st' /\ ext = ext'.
Proof.
  intros L. unfold sub_eqb. destruct (Nat.eqb_spec (sub_ncorr st') (sub_ncorr st)) as [E1|]; [|discriminate]. destruct (Nat.eqb_spec (length ext) (length ext')) as [E2|]; [|discriminate]. cbn [negb].
  destruct (forallb (fun p => fst p =? snd p) (combine ext' ext)) eqn:E3; [|discriminate]. cbn [negb]. intros E4. split; [|split; auto].
  - revert L E4. generalize (sub_orbits st) as a, (sub_orbits st') as b. clear. induction a as [|x a IH]; intros [|y b] L; try discriminate; auto. cbn [combine forallb fst snd]. intros H. apply andb_true_iff in H as [H1 H2]. apply Nat.eqb_eq in H1.
    cbn [map]. injection L as L. rewrite (IH b L H2). congruence.
  - revert E2 E3. clear. revert ext'. induction ext as [|x ext IH]; intros [|y ext'] L; try discriminate; auto. cbn [combine forallb fst snd]. intros H. apply andb_true_iff in H as [H1 H2]. apply Nat.eqb_eq in H1. injection L as L. rewrite (IH ext' L H2). congruence.
Qed.
(** From one subspace a function was removed, from the other an orbit: they compare equal. *)
Definition few : list (nat * list sorbit) := [(1, [mkS 0 1 flat [[[0]]; [[1]]] 0 0]); (2, [mkS 1 6 (flat ++ flat) [[[0; 0]]] 0 0; mkS 2 6 (flat ++ flat) [[[0; 0]]] 0 0])].
Definition removed (ops : list sub_op) : subspace := fold_left (run_op (fun _ _ => [])) ops (new_sub few).
Lemma few_reachable ops : reachable (fun _ _ => []) (removed ops).
Proof.
  exists few, ops. split; [|reflexivity]. intros kv o H1 H2. destruct H1 as [<-|[<-|[]]]; cbn [snd In] in H2; repeat (destruct H2 as [<-|H2]; [discriminate|]); destruct H2.
Qed.
Theorem C117_equal_refuted : exists a b, reachable (fun _ _ => []) a /\ reachable (fun _ _ => []) b /\ sub_eqb a b [] [] = true /\
  exists o, In o (sub_orbits a) /\ ~ In (s_key o) (map s_key (sub_orbits b)).
Proof.
  exists (removed [ORemoveCorr [2]; ORemoveOrbits [3]]), (removed [ORemoveOrbits [2; 3]]). split; [apply few_reachable|]. split; [apply few_reachable|]. split; [vm_compute; reflexivity|].
  eexists. split; [vm_compute; right; left; reflexivity|]. vm_compute. intros [[=]|[]].
Qed.
(** So equality is not transitive. *)
Theorem C117_transitive_refuted : exists a b c, reachable (fun _ _ => []) a /\ reachable (fun _ _ => []) b /\ reachable (fun _ _ => []) c /\
  sub_eqb a b [] [] = true /\ sub_eqb b c [] [] = true /\ sub_eqb a c [] [] = false.
Proof.
  exists (removed [ORemoveCorr [2]; ORemoveOrbits [3]]), (removed [ORemoveOrbits [2; 3]]), (removed [ORemoveCorr [2]; ORemoveOrbits [2]]).
  split; [apply few_reachable|]. split; [apply few_reachable|]. split; [apply few_reachable|]. repeat split; vm_compute; reflexivity.
Qed.
Example C117_case : sub_eqb (removed [ORemoveCorr [2]]) (removed [ORemoveCorr [1]]) [] [] = true /\ length (sub_orbits (removed [ORemoveCorr [2]])) = length (sub_orbits (removed [ORemoveCorr [1]])).
Proof. split; vm_compute; reflexivity. Qed.

Print Assumptions C115_by_size. Print Assumptions C115_cutoffs. Print Assumptions C115_select. Print Assumptions C115_by_dict. Print Assumptions C115_tight. Print Assumptions C115_by_diameter.
Print Assumptions C116_copy. Print Assumptions C116_symmetric. Print Assumptions C116_removed. Print Assumptions C116_contains.
Print Assumptions C117_equal_partial. Print Assumptions C117_equal_refuted. Print Assumptions C117_transitive_refuted.
