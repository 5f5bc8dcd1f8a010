(** Proofs about the evaluator. *)
From Verif Require Import LibProofs EvaluatorSpec.
From Coq Require Import Lia Permutation.
Set Implicit Arguments.
Unset Strict Implicit.
Open Scope nat_scope.

(** ** Flat indices *)
Lemma nprod_cons d ds : nprod (d :: ds) = d * nprod ds.
Proof. reflexivity. Qed.
(** Total version of the index computation. *)
Fixpoint fidx (strides : list nat) (occu row : list nat) : nat :=
  match row, strides with s :: row', t :: strides' => t * nth s occu 0 + fidx strides' occu row' | _, _ => 0 end.

Lemma flat_index_total sd N occu row dims : codes_ok sd N occu -> map sd row = dims -> (forall s, In s row -> s < N) ->
  flat_index (strides_of dims) occu row = Some (fidx (strides_of dims) occu row) /\ fidx (strides_of dims) occu row < nprod dims.
Proof.
  intros [HL HC]. revert dims. induction row as [|s row IH]; intros dims <- HN; cbn [map strides_of flat_index fidx]; [split; [auto|unfold nprod; simpl; lia]|].
  destruct (@nth_error_lt _ occu s) as [c Hc]; [rewrite HL; apply HN; simpl; auto|].
  rewrite Hc. cbn [option_bind]. rewrite (nth_error_nth _ _ _ Hc).
  destruct (IH (map sd row) eq_refl) as [E B]; [intros; apply HN; simpl; auto|].
  rewrite E. cbn [option_bind]. split; auto. apply HC in Hc. rewrite nprod_cons. nia.
Qed.
Lemma fidx_upd strides occu row s c : ~ In s row -> fidx strides (upd occu s c) row = fidx strides occu row.
Proof.
  revert strides. induction row as [|s' row IH]; intros [|t strides] H; simpl; auto.
  rewrite IH by (simpl in H; tauto). f_equal. f_equal.
  assert (s <> s') by (intros ->; apply H; simpl; auto).
  destruct (nth_error occu s') as [x|] eqn:E.
  - rewrite (nth_error_nth _ _ _ E). apply nth_error_nth. rewrite nth_error_upd_neq; auto.
  - rewrite !nth_overflow; auto; [apply nth_error_None; auto|rewrite length_upd; apply nth_error_None; auto].
Qed.

(** ** Sums over clusters *)
Definition csum (data : list Qc) (base : nat) (strides : list nat) (occu : list nat) (rows : ctable) : Qc :=
  qsum (map (fun row => nth (base + fidx strides occu row) data 0%Qc) rows).
Definition rows_ok (sd : nat -> nat) (N : nat) (dims : list nat) (rows : ctable) : Prop :=
  forall row, In row rows -> map sd row = dims /\ forall s, In s row -> s < N.

Lemma cluster_sum_total sd N dims occu rows data base : codes_ok sd N occu -> rows_ok sd N dims rows -> base + nprod dims <= length data ->
  cluster_sum data base (strides_of dims) occu rows = Some (csum data base (strides_of dims) occu rows).
Proof.
  intros HC HR HD. unfold cluster_sum, csum.
  rewrite opt_map_map with (g := fun row => nth (base + fidx (strides_of dims) occu row) data 0%Qc); auto.
  intros row Hr. destruct (HR _ Hr) as [E1 E2]. destruct (flat_index_total HC E1 E2) as [-> B]. cbn [option_bind].
  apply nth_error_nth'. lia.
Qed.
Lemma cluster_dsum_total sd N dims of oi rows data base : codes_ok sd N of -> codes_ok sd N oi -> rows_ok sd N dims rows -> base + nprod dims <= length data ->
  cluster_dsum data base (strides_of dims) of oi rows =
  Some (csum data base (strides_of dims) of rows - csum data base (strides_of dims) oi rows)%Qc.
Proof.
  intros HC HC' HR HD. unfold cluster_dsum, csum.
  rewrite opt_map_map with (g := fun row => (nth (base + fidx (strides_of dims) of row) data 0 - nth (base + fidx (strides_of dims) oi row) data 0)%Qc).
  - cbn [option_bind]. rewrite qsum_map_sub. auto.
  - intros row Hr. destruct (HR _ Hr) as [E1 E2]. destruct (flat_index_total HC E1 E2) as [-> B].
    destruct (flat_index_total HC' E1 E2) as [-> B']. cbn [option_bind].
    rewrite !(nth_error_nth' data 0%Qc) by lia. auto.
Qed.
(** Only clusters that contain the site change. *)
Lemma csum_local data base strides occu s c rows :
  (csum data base strides (upd occu s c) rows - csum data base strides occu rows)%Qc =
  (csum data base strides (upd occu s c) (filter (has_site s) rows) - csum data base strides occu (filter (has_site s) rows))%Qc.
Proof.
  unfold csum. induction rows as [|row rows IH]; simpl; auto.
  destruct (has_site s row) eqn:E; cbn [map qsum].
  - change (fold_right Qcplus 0%Qc) with qsum in *. cbn [fold_right map]. unfold qsum in *. simpl.
    match goal with |- (?a + ?b - (?c + ?d) = _)%Qc => transitivity (a - c + (b - d))%Qc; [ring|rewrite IH; ring] end.
  - assert (Hn : ~ In s row).
    { intros H. unfold has_site in E. rewrite <- not_true_iff_false in E. apply E. apply existsb_exists. exists s. split; auto. apply Nat.eqb_refl. }
    rewrite fidx_upd by auto. rewrite <- IH. unfold qsum. simpl. ring.
Qed.

(** ** Writing *)
Definition contrib (ws : list (nat * Qc)) (j : nat) : Qc := qsum (map (fun w => if fst w =? j then snd w else 0%Qc) ws).
Lemma contrib_app a b j : contrib (a ++ b) j = (contrib a j + contrib b j)%Qc.
Proof. unfold contrib. rewrite map_app, qsum_app. auto. Qed.
Lemma contrib_concat l j : contrib (concat l) j = qsum (map (fun ws => contrib ws j) l).
Proof. induction l as [|a l IH]; simpl; auto. rewrite contrib_app, IH. auto. Qed.
Lemma contrib_out ws j : ~ In j (map fst ws) -> contrib ws j = 0%Qc.
Proof.
  intros H. unfold contrib. apply qsum_map_0. intros w Hw. destruct (Nat.eqb_spec (fst w) j) as [E|]; auto.
  exfalso. apply H. subst j. apply in_map; auto.
Qed.

Lemma write_all_ok out ws : (forall i, In i (map fst ws) -> i < length out) -> NoDup (map fst ws) ->
  exists r, write_all out ws = Some r /\ length r = length out /\
    forall j, nth j r 0%Qc = if existsb (Nat.eqb j) (map fst ws) then contrib ws j else nth j out 0%Qc.
Proof.
  revert out. induction ws as [|[i x] ws IH]; intros out H Hn; simpl in *.
  - exists out. auto.
  - destruct (Nat.ltb_spec i (length out)) as [Hi|Hi]; [|specialize (H i (or_introl eq_refl)); lia].
    inversion Hn as [|? ? Hni Hn']; subst.
    destruct (IH (upd out i x)) as (r & E & L & V); auto; [intros; rewrite length_upd; auto|].
    exists r. split; auto. split; [rewrite L, length_upd; auto|]. intros j. rewrite V.
    unfold contrib. cbn [map]. unfold qsum. cbn [fold_right fst snd]. fold (qsum (map (fun w => if fst w =? j then snd w else 0%Qc) ws)). fold (contrib ws j).
    destruct (Nat.eqb_spec j i) as [->|Hji].
    + rewrite Nat.eqb_refl. simpl. rewrite contrib_out by auto.
      destruct (existsb (Nat.eqb i) (map fst ws)) eqn:Ex.
      { exfalso. apply Hni. apply existsb_exists in Ex as (y & Hy & Ey). apply Nat.eqb_eq in Ey. subst; auto. }
      rewrite (nth_error_nth _ _ _ (@nth_error_upd_eq _ out i x Hi)). ring.
    + destruct (Nat.eqb_spec i j) as [|_]; [congruence|]. simpl.
      destruct (existsb (Nat.eqb j) (map fst ws)); [ring|].
      destruct (nth_error out j) as [y|] eqn:Ey.
      * rewrite (nth_error_nth _ _ _ Ey). apply nth_error_nth. rewrite nth_error_upd_neq; auto.
      * rewrite !nth_overflow; auto; [apply nth_error_None; auto|rewrite length_upd; apply nth_error_None; auto].
Qed.
(** Where the array starts with zeros at the written slots, the result is a sum. *)
Lemma write_all_sum out ws : (forall i, In i (map fst ws) -> i < length out /\ nth i out 0%Qc = 0%Qc) -> NoDup (map fst ws) ->
  exists r, write_all out ws = Some r /\ length r = length out /\ forall j, nth j r 0%Qc = (nth j out 0 + contrib ws j)%Qc.
Proof.
  intros H Hn. destruct (@write_all_ok out ws) as (r & E & L & V); auto; [intros; apply H; auto|].
  exists r. split; auto. split; auto. intros j. rewrite V. destruct (existsb _ _) eqn:Ex.
  - apply existsb_exists in Ex as (y & Hy & Ey). apply Nat.eqb_eq in Ey. subst y. destruct (H _ Hy) as [_ ->]. ring.
  - rewrite contrib_out; [ring|]. intros Hin. rewrite <- not_true_iff_false in Ex. apply Ex. apply existsb_exists. exists j. split; auto. apply Nat.eqb_refl.
Qed.

(** ** Parallel loops *)
Lemma interleaved_perm {A} (ls : list (list A)) ws : interleaved ls ws -> Permutation (concat ls) ws.
Proof.
  induction 1 as [ls H|ls1 x l ls2 ws H IH].
  - assert (E : concat ls = []); [|rewrite E; auto]. induction ls as [|l ls IH]; auto. simpl.
    rewrite (H l) by (simpl; auto). apply IH. intros; apply H; simpl; auto.
  - rewrite concat_app in *. simpl in *. rewrite <- Permutation_middle. constructor. auto.
Qed.
Lemma interleaved_concat {A} (ls : list (list A)) : interleaved ls (concat ls).
Proof.
  enough (H : forall ls1 ls2, (forall l, In l ls1 -> l = []) -> @interleaved A (ls1 ++ ls2) (concat ls2)) by (apply (H [] ls); intros l []).
  intros ls1 ls2. revert ls1. induction ls2 as [|l ls2 IH]; intros ls1 H1; simpl.
  - rewrite app_nil_r. constructor; auto.
  - induction l as [|x l IHl]; simpl.
    + replace (ls1 ++ [] :: ls2) with ((ls1 ++ [[]]) ++ ls2) by (rewrite <- app_assoc; auto).
      apply IH. intros l Hl. apply in_app_iff in Hl as [Hl|[<-|[]]]; auto.
    + constructor. auto.
Qed.
Lemma write_all_perm out ws ws' r : NoDup (map fst ws) -> Permutation ws ws' -> write_all out ws = Some r -> write_all out ws' = Some r.
Proof.
  intros Hn Hp. revert out r Hn. induction Hp as [|[i x] l l' Hp IH|[i x] [j y] l|l l' l'' H1 IH1 H2 IH2]; intros out r Hn E; auto.
  - simpl in *. inversion Hn; subst. destruct (i <? length out); auto.
  - simpl in *. inversion Hn as [|? ? Hni _]; subst. rewrite length_upd in *.
    destruct (i <? length out), (j <? length out); try discriminate; auto.
    rewrite upd_upd_neq; auto. intros ->. apply Hni. simpl; auto.
  - apply IH2; auto. apply (Permutation_NoDup (Permutation_map fst H1)); auto.
Qed.

(** ** The work lists of well-formed processors *)
Section WF.
Variables (sd : nat -> nat) (N : nat) (P : proc).
Hypothesis HP : proc_ok sd N P.
Let ev := p_eval P.
(** The data of all orbits. *)
Definition odata : list (orbit * list Qc * ctable) := combine (combine (e_orbits ev) (e_inter ev)) (p_tables P).
Lemma odata_orbits : map (fun q => fst (fst q)) odata = e_orbits ev.
Proof.
  unfold odata. pose proof (ok_inter HP) as H1. pose proof (ok_tables HP) as H2. fold ev in H1, H2.
  revert H1 H2. generalize (e_orbits ev) as os, (e_inter ev) as is, (p_tables P) as ts.
  induction os as [|o os IH]; intros [|i is] [|t ts] H1 H2; simpl in *; try discriminate; auto.
  f_equal. apply IH; lia.
Qed.
Lemma odata_tables : map snd odata = p_tables P.
Proof.
  unfold odata. pose proof (ok_inter HP) as H1. pose proof (ok_tables HP) as H2. fold ev in H1, H2.
  revert H1 H2. generalize (e_orbits ev) as os, (e_inter ev) as is, (p_tables P) as ts.
  induction os as [|o os IH]; intros [|i is] [|t ts] H1 H2; simpl in *; try discriminate; auto.
  f_equal. apply IH; lia.
Qed.
Lemma odata_pairs : combine (e_orbits ev) (p_tables P) = map (fun q => (fst (fst q), snd q)) odata.
Proof.
  unfold odata. pose proof (ok_inter HP) as H1. pose proof (ok_tables HP) as H2. fold ev in H1, H2.
  revert H1 H2. generalize (e_orbits ev) as os, (e_inter ev) as is, (p_tables P) as ts.
  induction os as [|o os IH]; intros [|i is] [|t ts] H1 H2; simpl in *; try discriminate; auto.
  f_equal. apply IH; lia.
Qed.
Lemma odata_ok q : In q odata -> orbit_ok sd N (fst (fst q)) (snd (fst q)) (snd q).
Proof.
  intros H. destruct (In_nth_error _ _ H) as (n & Hn). unfold odata in Hn.
  assert (Hc : forall A B (l : list A) (l' : list B) m x y, nth_error (combine l l') m = Some (x, y) -> nth_error l m = Some x /\ nth_error l' m = Some y).
  { clear. intros A B l. induction l as [|a l IH]; intros [|b l'] [|m] x y E; simpl in *; try discriminate.
    - injection E as -> ->. auto.
    - apply IH; auto. }
  destruct q as [[o i] rows]. apply Hc in Hn as [Hn Ht]. apply Hc in Hn as [Ho Hi].
  apply (@ok_orbits _ _ _ HP n); auto.
Qed.
Lemma odata_length : length odata = length (e_orbits ev).
Proof. rewrite <- odata_orbits, map_length. auto. Qed.

(** Means of a tensor over the clusters of an orbit. *)
Definition tmean (occu : list nat) (o : orbit) (rows : ctable) (k : nat) : Qc :=
  (csum (concat (o_tensors o)) (k * o_cols o) (o_strides o) occu rows / Qc_of_nat (length rows))%Qc.
Definition imean (occu : list nat) (o : orbit) (inter : list Qc) (rows : ctable) : Qc :=
  (csum inter 0 (o_strides o) occu rows / Qc_of_nat (length rows))%Qc.

Lemma concat_length (o : orbit) d : (forall t, In t (o_tensors o) -> length t = d) -> length (concat (o_tensors o)) = o_rows o * d.
Proof.
  unfold o_rows. induction (o_tensors o) as [|t l IH]; intros H; simpl; auto.
  rewrite app_length, (H t), IH; simpl; auto. intros; apply H; simpl; auto.
Qed.
Lemma cols_eq (o : orbit) d : (forall t, In t (o_tensors o) -> length t = d) -> 0 < o_rows o -> o_cols o = d.
Proof.
  unfold o_rows, o_cols. destruct (o_tensors o) as [|t l]; simpl; intros H Hr; [lia|]. apply H; auto.
Qed.

Lemma corr_writes_total occu q : In q odata -> codes_ok sd N occu ->
  corr_writes occu (fst (fst q)) (snd q) = Some (map (fun k => (o_bit (fst (fst q)) + k, tmean occu (fst (fst q)) (snd q) k)) (seq 0 (o_rows (fst (fst q))))).
Proof.
  intros Hq HC. destruct (odata_ok Hq) as (dims & Es & Ht & Hi & Hr & HR). destruct q as [[o i] rows]. cbn [fst snd] in *.
  unfold corr_writes. apply opt_map_map. intros k Hk. apply in_seq in Hk. rewrite Es.
  rewrite (@cluster_sum_total sd N dims); auto.
  - cbn [option_bind]. unfold mean_over. destruct (Nat.eqb_spec (length rows) 0) as [E|]; [destruct rows; simpl in *; congruence|].
    cbn [option_bind]. unfold tmean. rewrite Es. auto.
  - rewrite (concat_length Ht), (cols_eq Ht) by lia. nia.
Qed.
Lemma inter_writes_total occu q : In q odata -> codes_ok sd N occu ->
  inter_writes occu (fst (fst q)) (snd (fst q)) (snd q) = Some [(o_id (fst (fst q)), imean occu (fst (fst q)) (snd (fst q)) (snd q))].
Proof.
  intros Hq HC. destruct (odata_ok Hq) as (dims & Es & Ht & Hi & Hr & HR). destruct q as [[o i] rows]. cbn [fst snd] in *.
  unfold inter_writes. rewrite Es. rewrite (@cluster_sum_total sd N dims); auto; [|lia].
  cbn [option_bind]. unfold mean_over. destruct (Nat.eqb_spec (length rows) 0) as [E|]; [destruct rows; simpl in *; congruence|].
  cbn [option_bind]. unfold imean. rewrite Es. auto.
Qed.

(** Differences from the clusters of a site. *)
Definition lratio (s : nat) (rows : ctable) : Qc := (Qc_of_nat (length rows) / Qc_of_nat (length (filter (has_site s) rows)))%Qc.
Lemma filter_ne_rows s (rows : ctable) : length (filter (has_site s) rows) <> 0 -> length rows <> 0.
Proof. destruct rows; simpl; auto. Qed.
Lemma lratio_nz s rows : length (filter (has_site s) rows) <> 0 -> lratio s rows <> 0%Qc.
Proof.
  intros H E. unfold lratio in E. pose proof (filter_ne_rows H) as Hr.
  assert (E2 : Qc_of_nat (length rows) = 0%Qc).
  { rewrite <- (Qcdiv_cancel (Qc_of_nat (length rows)) (Qc_of_nat_nz H)). rewrite E. ring. }
  apply (Qc_of_nat_nz Hr); auto.
Qed.
Lemma ratio_cancel s rows d : length (filter (has_site s) rows) <> 0 ->
  (d / lratio s rows / Qc_of_nat (length (filter (has_site s) rows)) = d / Qc_of_nat (length rows))%Qc.
Proof.
  intros H. pose proof (Qc_of_nat_nz H). pose proof (Qc_of_nat_nz (filter_ne_rows H)). unfold lratio. field. auto.
Qed.
Lemma ratio_mean_total s rows d : length (filter (has_site s) rows) <> 0 ->
  ratio_mean (lratio s rows) (length (filter (has_site s) rows)) d = Some (d / Qc_of_nat (length rows))%Qc.
Proof.
  intros H. unfold ratio_mean, mean_over. destruct (Qceqb_spec (lratio s rows) 0) as [E|_]; [destruct (lratio_nz H E)|].
  destruct (Nat.eqb_spec (length (filter (has_site s) rows)) 0) as [E|_]; [contradiction|].
  rewrite ratio_cancel; auto.
Qed.
Lemma rows_ok_filter dims rows f : rows_ok sd N dims rows -> rows_ok sd N dims (filter f rows).
Proof. intros H row Hr. apply filter_In in Hr as [Hr _]. auto. Qed.

Lemma dcorr_writes_total occu s c q : In q odata -> codes_ok sd N occu -> codes_ok sd N (upd occu s c) ->
  length (filter (has_site s) (snd q)) <> 0 ->
  dcorr_writes (upd occu s c) occu (lratio s (snd q)) (fst (fst q)) (filter (has_site s) (snd q)) =
  Some (map (fun k => (o_bit (fst (fst q)) + k, Qcminus (tmean (upd occu s c) (fst (fst q)) (snd q) k) (tmean occu (fst (fst q)) (snd q) k))) (seq 0 (o_rows (fst (fst q))))).
Proof.
  intros Hq HC HC' Hf. destruct (odata_ok Hq) as (dims & Es & Ht & Hi & Hr & HR). destruct q as [[o i] rows]. cbn [fst snd] in *.
  unfold dcorr_writes. apply opt_map_map. intros k Hk. apply in_seq in Hk. rewrite Es.
  rewrite (@cluster_dsum_total sd N dims); auto.
  - cbn [option_bind]. rewrite ratio_mean_total by auto. cbn [option_bind]. unfold tmean. rewrite Es.
    rewrite <- csum_local. do 2 f_equal. unfold Qcdiv. ring.
  - apply rows_ok_filter; auto.
  - rewrite (concat_length Ht), (cols_eq Ht) by lia. nia.
Qed.
Lemma dinter_writes_total occu s c q : In q odata -> codes_ok sd N occu -> codes_ok sd N (upd occu s c) ->
  length (filter (has_site s) (snd q)) <> 0 ->
  dinter_writes (upd occu s c) occu (lratio s (snd q)) (fst (fst q)) (snd (fst q)) (filter (has_site s) (snd q)) =
  Some [(o_id (fst (fst q)), Qcminus (imean (upd occu s c) (fst (fst q)) (snd (fst q)) (snd q)) (imean occu (fst (fst q)) (snd (fst q)) (snd q)))].
Proof.
  intros Hq HC HC' Hf. destruct (odata_ok Hq) as (dims & Es & Ht & Hi & Hr & HR). destruct q as [[o i] rows]. cbn [fst snd] in *.
  unfold dinter_writes. rewrite Es. rewrite (@cluster_dsum_total sd N dims); auto; [|apply rows_ok_filter; auto|lia].
  cbn [option_bind]. rewrite ratio_mean_total by auto. cbn [option_bind]. unfold imean. rewrite Es.
  rewrite <- csum_local. do 3 f_equal. unfold Qcdiv. ring.
Qed.
(** Without clusters there is no difference. *)
Lemma tmean_same occu s c o rows k : length (filter (has_site s) rows) = 0 -> tmean (upd occu s c) o rows k = tmean occu o rows k.
Proof.
  intros H. unfold tmean. f_equal.
  pose proof (csum_local (concat (o_tensors o)) (k * o_cols o) (o_strides o) occu s c rows) as E.
  destruct (filter (has_site s) rows); [|discriminate]. unfold csum at 3 4 in E. simpl in E.
  match goal with |- ?a = ?b => transitivity (b + (a - b))%Qc; [ring|rewrite E; ring] end.
Qed.
Lemma imean_same occu s c o i rows : length (filter (has_site s) rows) = 0 -> imean (upd occu s c) o i rows = imean occu o i rows.
Proof.
  intros H. unfold imean. f_equal.
  pose proof (csum_local i 0 (o_strides o) occu s c rows) as E.
  destruct (filter (has_site s) rows); [|discriminate]. unfold csum at 3 4 in E. simpl in E.
  match goal with |- ?a = ?b => transitivity (b + (a - b))%Qc; [ring|rewrite E; ring] end.
Qed.

Lemma opt_map_comp {A B C} (f : B -> option C) (g : A -> B) l : opt_map f (map g l) = opt_map (fun x => f (g x)) l.
Proof. induction l as [|a l IH]; simpl; auto. rewrite IH. auto. Qed.
Lemma NoDup_flat_filter {A B} (f : A -> list B) (g : A -> bool) l : NoDup (flat_map f l) -> NoDup (flat_map f (filter g l)).
Proof.
  induction l as [|a l IH]; simpl; auto. intros H. destruct (g a); simpl.
  - apply NoDup_app_intro.
    + apply NoDup_app_remove_r in H; auto.
    + apply IH. apply NoDup_app_remove_l in H; auto.
    + intros x Hx Hx'. apply (@NoDup_app_disj _ _ _ _ H Hx). apply in_flat_map in Hx' as (y & Hy & Hxy). apply in_flat_map.
      apply filter_In in Hy as [Hy _]. eauto.
  - apply IH. apply NoDup_app_remove_l in H; auto.
Qed.
Definition cw (occu : list nat) (q : orbit * list Qc * ctable) : list (nat * Qc) :=
  map (fun k => (o_bit (fst (fst q)) + k, tmean occu (fst (fst q)) (snd q) k)) (seq 0 (o_rows (fst (fst q)))).
Definition iw (occu : list nat) (q : orbit * list Qc * ctable) : list (nat * Qc) :=
  [(o_id (fst (fst q)), imean occu (fst (fst q)) (snd (fst q)) (snd q))].
Lemma slots_seq {V} (o : orbit) (f : nat -> V) n : map fst (map (fun k => (o_bit o + k, f k)) (seq 0 n)) = seq (o_bit o) n.
Proof.
  rewrite map_map. cbn [fst]. generalize (o_bit o) as b. clear. intros b.
  assert (H : forall m, map (fun k => b + k) (seq m n) = seq (b + m) n).
  { induction n as [|n IH]; intros m; simpl; auto. rewrite IH. f_equal. f_equal. lia. }
  rewrite H, Nat.add_0_r. auto.
Qed.
Lemma map_fst_concat {A V} (f : A -> list (nat * V)) (l : list A) : map fst (concat (map f l)) = flat_map (fun x => map fst (f x)) l.
Proof. induction l as [|a l IH]; simpl; auto. rewrite map_app, IH. auto. Qed.

Lemma corr_work_total occu : codes_ok sd N occu -> corr_work ev occu (p_tables P) = Some (map (cw occu) odata).
Proof.
  intros HC. unfold corr_work, zip_orbits. pose proof (ok_tables HP) as H2. fold ev in H2. rewrite H2, Nat.leb_refl, odata_pairs, opt_map_comp.
  apply opt_map_map. intros q Hq. cbn [fst snd]. apply corr_writes_total; auto.
Qed.
Lemma inter_work_total occu : codes_ok sd N occu -> inter_work ev occu (p_tables P) = Some (map (iw occu) odata).
Proof.
  intros HC. unfold inter_work, zip_orbits. pose proof (ok_inter HP) as H1. pose proof (ok_tables HP) as H2. fold ev in H1, H2.
  rewrite H2, combine_length, H1, Nat.min_id, Nat.leb_refl.
  apply opt_map_map. intros q Hq. destruct q as [[o i] rows]. cbn [fst snd]. apply (@inter_writes_total _ (o, i, rows)); auto.
Qed.
Lemma nth_init n c j : nth j (upd (repeat (Q2Qc 0) n) 0 c) 0%Qc = if (j =? 0) && (0 <? n) then c else 0%Qc.
Proof.
  destruct n as [|n]; simpl; [destruct j; auto|]. destruct j as [|j]; simpl; auto. apply nth_repeat.
Qed.
Lemma init_out_ok n c : 0 < n -> init_out n c = Some (upd (repeat (Q2Qc 0) n) 0 c).
Proof. intros H. unfold init_out. destruct (Nat.eqb_spec n 0); [lia|auto]. Qed.

Definition corr_at (occu : list nat) (j : nat) : Qc := ((if j =? 0 then 1 else 0) + qsum (map (fun q => contrib (cw occu q) j) odata))%Qc.
Definition inter_at (occu : list nat) (j : nat) : Qc := ((if j =? 0 then e_offset ev else 0) + qsum (map (fun q => contrib (iw occu q) j) odata))%Qc.
Lemma correlations_total occu : codes_ok sd N occu ->
  exists v, correlations ev occu (p_tables P) = Some v /\ length v = e_num_corr ev /\ forall j, nth j v 0%Qc = corr_at occu j.
Proof.
  intros HC. unfold correlations, run_work. destruct (ok_num HP) as [Hn _]. fold ev in Hn.
  rewrite init_out_ok, corr_work_total by auto. cbn [option_bind].
  assert (Hf : flat_map (fun q => map fst (cw occu q)) odata = flat_map (fun o => seq (o_bit o) (o_rows o)) (e_orbits ev)).
  { rewrite <- odata_orbits. rewrite !flat_map_concat_map, map_map. f_equal. apply map_ext. intros q. apply slots_seq. }
  destruct (@write_all_sum (upd (repeat (Q2Qc 0) (e_num_corr ev)) 0 1%Qc) (concat (map (cw occu) odata))) as (r & E & L & V).
  - rewrite map_fst_concat, Hf. intros i Hi. apply in_flat_map in Hi as (o & Ho & Hi). apply in_seq in Hi.
    pose proof (@ok_bits_in _ _ _ HP o (i - o_bit o) Ho) as Hb. fold ev in Hb. rewrite length_upd, repeat_length, nth_init.
    destruct (Nat.eqb_spec i 0); simpl; [lia|]. split; auto; lia.
  - rewrite map_fst_concat, Hf. apply (ok_bits HP).
  - exists r. split; auto. rewrite length_upd, repeat_length in L. split; auto. intros j. rewrite V, nth_init, contrib_concat, map_map.
    destruct (Nat.ltb_spec 0 (e_num_corr ev)); [|lia]. rewrite andb_true_r. auto.
Qed.
Lemma interactions_total occu : codes_ok sd N occu ->
  exists v, interactions ev occu (p_tables P) = Some v /\ length v = e_num_orbits ev /\ forall j, nth j v 0%Qc = inter_at occu j.
Proof.
  intros HC. unfold interactions, run_work. destruct (ok_num HP) as [_ Hn]. fold ev in Hn.
  rewrite init_out_ok, inter_work_total by auto. cbn [option_bind].
  assert (Hf : flat_map (fun q => map fst (iw occu q)) odata = map o_id (e_orbits ev)).
  { rewrite <- odata_orbits. rewrite map_map. clear. induction odata as [|q l IH]; simpl; auto. }
  destruct (@write_all_sum (upd (repeat (Q2Qc 0) (e_num_orbits ev)) 0 (e_offset ev)) (concat (map (iw occu) odata))) as (r & E & L & V).
  - rewrite map_fst_concat, Hf. intros i Hi. apply in_map_iff in Hi as (o & <- & Ho).
    pose proof (@ok_ids_in _ _ _ HP o Ho) as Hb. fold ev in Hb. rewrite length_upd, repeat_length, nth_init.
    destruct (Nat.eqb_spec (o_id o) 0); simpl; [lia|]. split; auto; lia.
  - rewrite map_fst_concat, Hf. apply (ok_ids HP).
  - exists r. split; auto. rewrite length_upd, repeat_length in L. split; auto. intros j. rewrite V, nth_init, contrib_concat, map_map.
    destruct (Nat.ltb_spec 0 (e_num_orbits ev)); [|lia]. rewrite andb_true_r. auto.
Qed.

(** *** Local data *)
Definition touches (s : nat) (q : orbit * list Qc * ctable) : bool := negb (length (filter (has_site s) (snd q)) =? 0).
Definition ldata (s : nat) := filter (touches s) odata.
Lemma local_rows_eq s : local_rows P s = map (fun q => (fst q, filter (has_site s) (snd q), lratio s (snd q))) (ldata s).
Proof.
  unfold local_rows, ldata. fold ev. fold odata. induction odata as [|q l IH]; simpl; auto.
  unfold touches at 1. destruct (Nat.eqb_spec (length (filter (has_site s) (snd q))) 0); simpl; rewrite IH; auto.
Qed.
Lemma ldata_ne s : in_cluster P s -> ldata s <> [].
Proof.
  intros (rows & row & H1 & H2 & H3). rewrite <- odata_tables in H1. apply in_map_iff in H1 as (q & <- & Hq).
  intros E. assert (Hin : In q (ldata s)).
  { apply filter_In. split; auto. unfold touches. destruct (Nat.eqb_spec (length (filter (has_site s) (snd q))) 0) as [E0|]; auto.
    exfalso. apply length_zero_iff_nil in E0. assert (In row []) as []. rewrite <- E0. apply filter_In. split; auto.
    apply existsb_exists. exists s. split; auto. apply Nat.eqb_refl. }
  rewrite E in Hin. auto.
Qed.
Definition leval (s : nat) : evaluator :=
  mkEval (map (fun q => fst (fst q)) (ldata s)) (e_num_orbits ev) (e_num_corr ev) (e_offset ev) (map (fun q => snd (fst q)) (ldata s)).
Lemma local_eval_eq s : in_cluster P s ->
  local_eval P s = Some (mkLocal (leval s) (map (fun q => filter (has_site s) (snd q)) (ldata s)) (map (fun q => lratio s (snd q)) (ldata s))).
Proof.
  intros H. pose proof (ldata_ne H) as Hne. unfold local_eval. rewrite local_rows_eq. unfold leval.
  destruct (ldata s) as [|q l] eqn:E; [congruence|]. cbn [map fst snd]. rewrite !map_map. reflexivity.
Qed.
Lemma local_eval_none s : ~ in_cluster P s -> local_eval P s = None.
Proof.
  intros H. unfold local_eval. rewrite local_rows_eq. destruct (ldata s) as [|q l] eqn:E; auto. exfalso.
  assert (Hq : In q (ldata s)) by (rewrite E; simpl; auto). apply filter_In in Hq as [Hq Ht]. unfold touches in Ht.
  destruct (filter (has_site s) (snd q)) as [|row rows] eqn:Ef; [discriminate|].
  assert (Hr : In row (filter (has_site s) (snd q))) by (rewrite Ef; simpl; auto). apply filter_In in Hr as [Hr Hs].
  apply existsb_exists in Hs as (y & Hy & Ey). apply Nat.eqb_eq in Ey. subst y. apply H. exists (snd q), row. split; auto.
  rewrite <- odata_tables. apply in_map; auto.
Qed.

Definition dcw (occu : list nat) (s c : nat) (q : orbit * list Qc * ctable) : list (nat * Qc) :=
  map (fun k => (o_bit (fst (fst q)) + k, Qcminus (tmean (upd occu s c) (fst (fst q)) (snd q) k) (tmean occu (fst (fst q)) (snd q) k))) (seq 0 (o_rows (fst (fst q)))).
Definition diw (occu : list nat) (s c : nat) (q : orbit * list Qc * ctable) : list (nat * Qc) :=
  [(o_id (fst (fst q)), Qcminus (imean (upd occu s c) (fst (fst q)) (snd (fst q)) (snd q)) (imean occu (fst (fst q)) (snd (fst q)) (snd q)))].
Lemma contrib_dcw occu s c q j : contrib (dcw occu s c q) j = (contrib (cw (upd occu s c) q) j - contrib (cw occu q) j)%Qc.
Proof.
  unfold contrib, dcw, cw. rewrite !map_map. cbn [fst snd]. rewrite <- qsum_map_sub. apply qsum_map_ext. intros k _.
  destruct (_ =? j); ring.
Qed.
Lemma contrib_diw occu s c q j : contrib (diw occu s c q) j = (contrib (iw (upd occu s c) q) j - contrib (iw occu q) j)%Qc.
Proof.
  unfold contrib, diw, iw. cbn [map fst snd qsum fold_right]. unfold qsum. cbn [fold_right]. destruct (_ =? j); ring.
Qed.
Lemma cw_same occu s c q : touches s q = false -> cw (upd occu s c) q = cw occu q.
Proof.
  intros H. unfold touches in H. apply negb_false_iff, Nat.eqb_eq in H. unfold cw. apply map_ext. intros k. rewrite tmean_same; auto.
Qed.
Lemma iw_same occu s c q : touches s q = false -> iw (upd occu s c) q = iw occu q.
Proof.
  intros H. unfold touches in H. apply negb_false_iff, Nat.eqb_eq in H. unfold iw. rewrite imean_same; auto.
Qed.
Lemma qsum_filter {A} (f : A -> Qc) (g : A -> bool) l : (forall x, In x l -> g x = false -> f x = 0%Qc) -> qsum (map f (filter g l)) = qsum (map f l).
Proof.
  induction l as [|a l IH]; simpl; auto. intros H. destruct (g a) eqn:E; unfold qsum in *; simpl; rewrite IH; auto.
  rewrite (H a); auto. ring.
Qed.
Lemma nth_zeros n j : nth j (repeat (Q2Qc 0) n) 0%Qc = 0%Qc.
Proof. apply nth_repeat. Qed.

Lemma delta_corr_total occu s c : in_cluster P s -> codes_ok sd N occu -> codes_ok sd N (upd occu s c) ->
  exists d, (let? L := local_eval P s in delta_correlations (l_eval L) (upd occu s c) occu (l_ratios L) (l_tables L)) = Some d /\
    length d = e_num_corr ev /\ forall j, nth j d 0%Qc = (corr_at (upd occu s c) j - corr_at occu j)%Qc.
Proof.
  intros Hs HC HC'. rewrite local_eval_eq by auto. cbn [option_bind l_eval l_ratios l_tables].
  assert (Hsub : forall q, In q (ldata s) -> In q odata /\ length (filter (has_site s) (snd q)) <> 0).
  { intros q Hq. apply filter_In in Hq as [Hq Ht]. split; auto. unfold touches in Ht. apply negb_true_iff, Nat.eqb_neq in Ht. auto. }
  unfold delta_correlations, run_work, dcorr_work, zip_orbits. cbn [leval e_orbits e_num_corr option_bind].
  rewrite combine_length, !map_length, Nat.min_id, Nat.leb_refl, !combine_map2, opt_map_comp. cbn [fst snd].
  rewrite opt_map_map with (g := dcw occu s c).
  2:{ intros q Hq. destruct (Hsub _ Hq). apply dcorr_writes_total; auto. }
  cbn [option_bind].
  assert (Hf : flat_map (fun q => map fst (dcw occu s c q)) (ldata s) = flat_map (fun q => seq (o_bit (fst (fst q))) (o_rows (fst (fst q)))) (ldata s)).
  { rewrite !flat_map_concat_map. f_equal. apply map_ext. intros q. apply slots_seq. }
  destruct (@write_all_sum (repeat (Q2Qc 0) (e_num_corr ev)) (concat (map (dcw occu s c) (ldata s)))) as (r & E & L & V).
  - rewrite map_fst_concat, Hf. intros i Hi. apply in_flat_map in Hi as (q & Hq & Hi). apply in_seq in Hi.
    destruct (Hsub _ Hq) as [Hq' _].
    pose proof (@ok_bits_in _ _ _ HP (fst (fst q)) (i - o_bit (fst (fst q)))) as Hb. fold ev in Hb. rewrite repeat_length, nth_zeros.
    split; auto. assert (In (fst (fst q)) (e_orbits ev)) by (rewrite <- odata_orbits; apply (in_map (fun q => fst (fst q))); auto).
    specialize (Hb H ltac:(lia)). lia.
  - rewrite map_fst_concat, Hf. apply NoDup_flat_filter. pose proof (ok_bits HP) as Hb. fold ev in Hb. rewrite <- odata_orbits in Hb.
    rewrite flat_map_concat_map in Hb |- *. rewrite map_map in Hb. auto.
  - exists r. split; auto. rewrite repeat_length in L. split; auto. intros j. rewrite V, nth_zeros, contrib_concat, map_map.
    unfold corr_at, ldata. rewrite (qsum_filter (f := fun q => contrib (dcw occu s c q) j)).
    + rewrite (@qsum_map_ext _ (fun q => contrib (dcw occu s c q) j) (fun q => Qcminus (contrib (cw (upd occu s c) q) j) (contrib (cw occu q) j)))
        by (intros; apply contrib_dcw).
      rewrite qsum_map_sub. ring.
    + intros q _ Ht. rewrite contrib_dcw, cw_same by auto. ring.
Qed.
Lemma delta_inter_total occu s c : in_cluster P s -> codes_ok sd N occu -> codes_ok sd N (upd occu s c) ->
  exists d, (let? L := local_eval P s in delta_interactions (l_eval L) (upd occu s c) occu (l_ratios L) (l_tables L)) = Some d /\
    length d = e_num_orbits ev /\ forall j, nth j d 0%Qc = (inter_at (upd occu s c) j - inter_at occu j)%Qc.
Proof.
  intros Hs HC HC'. rewrite local_eval_eq by auto. cbn [option_bind l_eval l_ratios l_tables].
  assert (Hsub : forall q, In q (ldata s) -> In q odata /\ length (filter (has_site s) (snd q)) <> 0).
  { intros q Hq. apply filter_In in Hq as [Hq Ht]. split; auto. unfold touches in Ht. apply negb_true_iff, Nat.eqb_neq in Ht. auto. }
  unfold delta_interactions, run_work, dinter_work, zip_orbits. cbn [leval e_orbits e_inter e_num_orbits option_bind].
  rewrite !combine_length, !map_length, !Nat.min_id, Nat.leb_refl, !combine_map2, opt_map_comp. cbn [fst snd].
  rewrite opt_map_map with (g := diw occu s c).
  2:{ intros q Hq. destruct (Hsub _ Hq). apply dinter_writes_total; auto. }
  cbn [option_bind].
  assert (Hf : flat_map (fun q => map fst (diw occu s c q)) (ldata s) = flat_map (fun q => [o_id (fst (fst q))]) (ldata s)).
  { rewrite !flat_map_concat_map. f_equal. }
  destruct (@write_all_sum (repeat (Q2Qc 0) (e_num_orbits ev)) (concat (map (diw occu s c) (ldata s)))) as (r & E & L & V).
  - rewrite map_fst_concat, Hf. intros i Hi. apply in_flat_map in Hi as (q & Hq & [<-|[]]).
    destruct (Hsub _ Hq) as [Hq' _].
    pose proof (@ok_ids_in _ _ _ HP (fst (fst q))) as Hb. fold ev in Hb. rewrite repeat_length, nth_zeros.
    split; auto. assert (In (fst (fst q)) (e_orbits ev)) by (rewrite <- odata_orbits; apply (in_map (fun q => fst (fst q))); auto).
    specialize (Hb H). lia.
  - rewrite map_fst_concat, Hf. apply NoDup_flat_filter. pose proof (ok_ids HP) as Hb. fold ev in Hb. rewrite <- odata_orbits, map_map in Hb.
    rewrite flat_map_concat_map. clear - Hb. replace (concat (map (fun q => [o_id (fst (fst q))]) odata)) with (map (fun q => o_id (fst (fst q))) odata); auto.
    clear. induction odata as [|q l IH]; simpl; auto. rewrite IH. auto.
  - exists r. split; auto. rewrite repeat_length in L. split; auto. intros j. rewrite V, nth_zeros, contrib_concat, map_map.
    unfold inter_at, ldata. rewrite (qsum_filter (f := fun q => contrib (diw occu s c q) j)).
    + rewrite (@qsum_map_ext _ (fun q => contrib (diw occu s c q) j) (fun q => Qcminus (contrib (iw (upd occu s c) q) j) (contrib (iw occu q) j)))
        by (intros; apply contrib_diw).
      rewrite qsum_map_sub. ring.
    + intros q _ Ht. rewrite contrib_diw, iw_same by auto. ring.
Qed.
End WF.
