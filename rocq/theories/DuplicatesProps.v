(** C47, C49, C74: duplicate feature vectors, structure filters and constant features. *)
From Verif Require Export Duplicates.
From Verif Require Import LibProofs SublatticeProofs.
From Coq Require Import Lqa Sorted Relations.
Set Implicit Arguments.
Unset Strict Implicit.
Local Open Scope Qc_scope.

(** ** Specification *)
(** [gs] are the classes with at least two members of a relation on the indices below [n]. *)
Definition classes (dom : nat -> Prop) (R : nat -> nat -> Prop) (gs : list (list nat)) : Prop :=
  NoDup (concat gs) /\
  (forall g, In g gs -> StronglySorted lt g /\ (2 <= length g)%nat /\ forall i, In i g -> dom i) /\
  (forall i j, dom i -> dom j -> i <> j -> ((exists g, In g gs /\ In i g /\ In j g) <-> R i j)).
(** Two rows agree on some columns after rounding. *)
Definition agree (rnd : Qc -> Qc) (cols : nat -> Prop) (m : list (list Qc)) (i j : nat) : Prop :=
  forall c, cols c -> rnd (nth c (nth i m []) 0) = rnd (nth c (nth j m []) 0).
Definition rectangular (m : list (list Qc)) (n : nat) : Prop := forall r, In r m -> length r = n.

(** ** Rows *)
Lemma row_insert_perm x l : Permutation (row_insert x l) (x :: l).
Proof. induction l as [|y l IH]; simpl; auto. destruct (row_leb x y); auto. rewrite IH. apply perm_swap. Qed.
Lemma unique_rows_perm l : Permutation (unique_rows l) (nodup row_eq_dec l).
Proof. unfold unique_rows. induction (nodup row_eq_dec l) as [|x k IH]; simpl; auto. rewrite row_insert_perm. auto. Qed.
Lemma unique_rows_In x l : In x (unique_rows l) <-> In x l.
Proof.
  rewrite <- (nodup_In row_eq_dec l). split; apply Permutation_in; [|apply Permutation_sym]; apply unique_rows_perm.
Qed.
Lemma row_index_nth x l : In x l -> nth_error l (row_index x l) = Some x.
Proof. induction l as [|y l IH]; [contradiction|]. simpl. destruct (row_eq_dec x y) as [->|N]; auto. intros [->|H]; [congruence|]. simpl. auto. Qed.
Lemma row_index_inj x y l : In x l -> In y l -> row_index x l = row_index y l -> x = y.
Proof. intros Hx Hy E. apply row_index_nth in Hx, Hy. rewrite E in Hx. congruence. Qed.

Lemma where_eq_In inv i k : In k (where_eq inv i) <-> (k < length inv)%nat /\ nth k inv 0%nat = i.
Proof. unfold where_eq. rewrite filter_In, in_seq, Nat.eqb_eq. split; intros [? ?]; split; auto; lia. Qed.
Lemma seq_sorted a n : StronglySorted lt (seq a n).
Proof.
  revert a. induction n as [|n IH]; intros a; simpl; constructor; auto. apply Forall_forall. intros x Hx. apply in_seq in Hx. lia.
Qed.
Lemma where_eq_sorted inv i : StronglySorted lt (where_eq inv i).
Proof. apply sorted_filter, seq_sorted. Qed.

Lemma NoDup_concat_disjoint {A} (gs : list (list A)) :
  NoDup gs -> (forall g, In g gs -> NoDup g) -> (forall g h x, In g gs -> In h gs -> In x g -> In x h -> g = h) -> NoDup (concat gs).
Proof.
  induction gs as [|g gs IH]; intros N1 N2 D; simpl; [constructor|]. apply NoDup_cons_iff in N1 as [N0 N1].
  apply NoDup_app_intro; [apply N2; left; auto|apply IH; auto; [intros h Hh; apply N2; right; auto|intros g' h x Hg Hh; apply D; right; auto]|].
  intros x Hx Hc. apply in_concat in Hc as (h & Hh & Hxh). apply N0. rewrite (D g h x); auto; [left|right]; auto.
Qed.
Lemma NoDup_concat_same {A} (gs : list (list A)) : NoDup (concat gs) -> forall g h x, In g gs -> In h gs -> In x g -> In x h -> g = h.
Proof.
  induction gs as [|k gs IH]; simpl; intros N g h x Hg Hh Hx Hy; [contradiction|].
  assert (N1 : NoDup (concat gs)). { clear - N. induction k; simpl in *; auto. apply NoDup_cons_iff in N as [_ N]. auto. }
  assert (N2 : forall y, In y k -> ~ In y (concat gs)).
  { clear - N. induction k as [|a k IH]; simpl in *; intros y Hy; [contradiction|]. apply NoDup_cons_iff in N as [N0 N]. destruct Hy as [<-|Hy]; [|auto].
    intros H. apply N0. apply in_or_app. auto. }
  destruct Hg as [<-|Hg], Hh as [<-|Hh]; auto.
  - exfalso. apply (N2 x Hx). apply in_concat. eauto.
  - exfalso. apply (N2 x Hy). apply in_concat. eauto.
  - eapply IH; eauto.
Qed.

Lemma duplicate_groups_classes rows : classes (fun i => (i < length rows)%nat) (fun i j => nth i rows [] = nth j rows []) (duplicate_groups rows).
Proof.
  unfold duplicate_groups. set (u := unique_rows rows). set (inv := map (fun r => row_index r u) rows).
  assert (Li : length inv = length rows) by apply map_length.
  assert (Hinv : forall i, (i < length rows)%nat -> nth i inv 0%nat = row_index (nth i rows []) u).
  { intros i Hi. unfold inv. rewrite nth_indep with (d' := row_index [] u) by (rewrite map_length; auto). apply (map_nth (fun r => row_index r u)). }
  assert (Hg : forall g, In g (filter (fun g => (1 <? length g)%nat) (map (where_eq inv) (np_unique inv))) ->
    exists v, In v inv /\ g = where_eq inv v /\ (2 <= length g)%nat).
  { intros g H. apply filter_In in H as [H L]. apply in_map_iff in H as (v & <- & Hv). exists v. split; [apply np_unique_In; auto|]. split; auto. apply Nat.ltb_lt in L. lia. }
  split; [|split].
  - apply NoDup_concat_disjoint.
    + apply NoDup_filter. assert (N : NoDup (np_unique inv)) by apply sorted_NoDup, np_unique_sorted.
      assert (I : forall v, In v (np_unique inv) -> In v inv) by (intros v Hv; apply np_unique_In; auto).
      revert N I. generalize (np_unique inv) as l. induction l as [|v l IH]; simpl; intros N I; constructor.
      * intros H. apply in_map_iff in H as (w & E & Hw). apply NoDup_cons_iff in N as [N0 _]. apply N0. replace v with w; auto.
        destruct (In_nth inv v 0%nat (I v (or_introl eq_refl))) as (k & Hk & Ek).
        assert (K : In k (where_eq inv v)) by (apply where_eq_In; auto). rewrite <- E in K. apply where_eq_In in K as [_ K]. congruence.
      * apply NoDup_cons_iff in N as [_ N]. apply IH; auto.
    + intros g H. destruct (Hg g H) as (v & _ & -> & _). apply sorted_NoDup, where_eq_sorted.
    + intros g h x H1 H2 X1 X2. destruct (Hg g H1) as (v & _ & -> & _). destruct (Hg h H2) as (w & _ & -> & _).
      apply where_eq_In in X1 as [_ <-]. apply where_eq_In in X2 as [_ <-]. reflexivity.
  - intros g H. destruct (Hg g H) as (v & _ & -> & L). split; [apply where_eq_sorted|]. split; auto. intros i Hi. apply where_eq_In in Hi as [Hi _]. lia.
  - intros i j Hi Hj D. split.
    + intros (g & H & I & J). destruct (Hg g H) as (v & _ & -> & _). apply where_eq_In in I as [_ I]. apply where_eq_In in J as [_ J].
      rewrite Hinv in I, J by auto. apply (@row_index_inj _ _ u); try congruence; apply unique_rows_In, nth_In; auto.
    + intros E. exists (where_eq inv (nth i inv 0%nat)).
      assert (I : In i (where_eq inv (nth i inv 0%nat))) by (apply where_eq_In; split; [lia|auto]).
      assert (J : In j (where_eq inv (nth i inv 0%nat))) by (apply where_eq_In; split; [lia|rewrite !Hinv by auto; congruence]).
      split; auto. apply filter_In. split.
      * apply in_map, np_unique_In, nth_In. lia.
      * apply Nat.ltb_lt. destruct (where_eq inv (nth i inv 0%nat)) as [|a [|b l]]; simpl in *; try lia; tauto.
Qed.

(** ** Columns *)
Lemma select_rows inds m n rows : rectangular m n -> select_columns inds m = Some rows ->
  length rows = length m /\ forall i, (i < length m)%nat -> nth i rows [] = map (fun c => nth c (nth i m []) 0) inds.
Proof.
  intros HR. unfold select_columns. revert rows. induction m as [|r m IH]; simpl; intros rows H; [injection H as <-; split; auto; intros; lia|].
  destruct (opt_map (nth_error r) inds) as [r'|] eqn:E; [|discriminate]. destruct (opt_map _ m) as [rs|] eqn:E2; [|discriminate]. injection H as <-.
  destruct (IH (fun x Hx => HR x (or_intror Hx)) rs eq_refl) as [L H]. split; [simpl; lia|]. intros [|i] Hi; simpl; [|apply H; lia].
  clear - E. revert r' E. induction inds as [|c inds IH]; simpl; intros r' E; [injection E as <-; auto|].
  destruct (nth_error r c) as [x|] eqn:Ex; [|discriminate]. destruct (opt_map _ inds) as [xs|]; [|discriminate]. injection E as <-.
  rewrite (nth_error_nth _ _ 0 Ex). f_equal. auto.
Qed.
Lemma select_some inds m n : rectangular m n -> (forall c, In c inds -> (c < n)%nat) -> exists rows, select_columns inds m = Some rows.
Proof.
  intros HR HC. unfold select_columns. induction m as [|r m IH]; simpl; [eauto|].
  assert (exists r', opt_map (nth_error r) inds = Some r') as (r' & ->).
  { assert (L : length r = n) by (apply HR; left; auto). clear - HC L. induction inds as [|c inds IH]; simpl; [eauto|].
    destruct (nth_error r c) as [x|] eqn:E. 2:{ apply nth_error_None in E. specialize (HC c (or_introl eq_refl)). lia. }
    destruct IH as (xs & ->); [intros; apply HC; right; auto|]. eauto. }
  destruct IH as (rs & ->); [intros x Hx; apply HR; right; auto|]. eauto.
Qed.
Lemma map_eq_iff {A B} (f g : A -> B) l : map f l = map g l <-> forall x, In x l -> f x = g x.
Proof.
  split; [|intros; apply map_ext_in; auto]. induction l as [|a l IH]; simpl; intros H x [].
  - subst. injection H; auto.
  - injection H as _ H. auto.
Qed.
Lemma classes_ext (dom : nat -> Prop) (R R' : nat -> nat -> Prop) gs : (forall i j, dom i -> dom j -> (R i j <-> R' i j)) -> classes dom R gs -> classes dom R' gs.
Proof. intros E (H1 & H2 & H3). split; auto. split; auto. intros i j Hi Hj D. rewrite <- E by auto. auto. Qed.

Lemma classes_ext_neq (dom : nat -> Prop) (R R' : nat -> nat -> Prop) gs : (forall i j, dom i -> dom j -> i <> j -> (R i j <-> R' i j)) -> classes dom R gs -> classes dom R' gs.
Proof. intros E (H1 & H2 & H3). split; auto. split; auto. intros i j Hi Hj D. rewrite <- E by auto. auto. Qed.

Lemma rounded_rect rnd m n : rectangular m n -> rectangular (map (map rnd) m) n.
Proof. intros H r Hr. apply in_map_iff in Hr as (x & <- & Hx). rewrite map_length. auto. Qed.
Lemma rounded_nth (rnd : Qc -> Qc) m n i c : rectangular m n -> (i < length m)%nat -> (c < n)%nat ->
  nth c (nth i (map (map rnd) m) []) 0 = rnd (nth c (nth i m []) 0).
Proof.
  intros HR Hi Hc. rewrite (map_nth (map rnd) m [] i : nth i (map (map rnd) m) [] = _).
  rewrite nth_indep with (d' := rnd 0) by (rewrite map_length, (HR _ (nth_In _ _ Hi)); auto). apply map_nth.
Qed.

(** Rounding of [get_duplicate_corr_indices]. *)
Definition rounding (decimals : option nat) : Qc -> Qc := match decimals with None => fun x => x | Some d => around d end.

Lemma duplicates_of_columns m n inds decimals rows : rectangular m n -> (forall c, In c inds -> (c < n)%nat) ->
  select_columns inds (match decimals with None => m | Some d => map (map (around d)) m end) = Some rows ->
  classes (fun i => (i < length m)%nat) (agree (rounding decimals) (fun c => In c inds) m) (duplicate_groups rows).
Proof.
  intros HR HC HS.
  assert (HR' : rectangular (match decimals with None => m | Some d => map (map (around d)) m end) n) by (destruct decimals; auto using rounded_rect).
  destruct (select_rows HR' HS) as [L E].
  assert (L' : length rows = length m) by (destruct decimals; rewrite ?map_length in L; auto).
  assert (N : forall i c, (i < length m)%nat -> In c inds ->
     nth c (nth i (match decimals with None => m | Some d => map (map (around d)) m end) []) 0 = rounding decimals (nth c (nth i m []) 0)).
  { intros i c Hi Hc. destruct decimals as [d|]; simpl; auto. apply (@rounded_nth _ m n); auto. }
  pose proof (duplicate_groups_classes rows) as C. rewrite L' in C. eapply classes_ext; [|exact C]. intros i j Hi Hj. cbn beta.
  rewrite !E by (destruct decimals; rewrite ?map_length; auto). rewrite map_eq_iff. unfold agree. split; intros H c Hc; specialize (H c Hc); rewrite ?N in * by auto; auto.
Qed.

(** ** C47: groups of equal rows *)
(** Without cutoffs the groups are the classes of rows that agree on every correlation, external terms left out. *)
Theorem C47_duplicates_partial : forall orbits n next m decimals, rectangular m n ->
  exists gs, get_duplicates orbits n next m None decimals true = Some gs /\
    classes (fun i => (i < length m)%nat) (agree (rounding decimals) (fun c => (c < n - next)%nat) m) gs.
Proof.
  intros orbits n next m decimals HR. unfold get_duplicates. destruct m as [|r m].
  - exists []. split; auto. split; [constructor|]. split; [contradiction|]. intros i j Hi. simpl in Hi. lia.
  - cbn [option_bind negb]. set (M := r :: m) in *.
    assert (HC : forall c, In c (seq 0 (n - next)) -> (c < n)%nat) by (intros c Hc; apply in_seq in Hc; lia).
    assert (HR' : rectangular (match decimals with None => M | Some d => map (map (around d)) M end) n) by (destruct decimals; auto using rounded_rect).
    destruct (select_some HR' HC) as (rows & E). rewrite E. cbn [option_bind]. exists (duplicate_groups rows). split; auto.
    eapply classes_ext; [|apply (duplicates_of_columns HR HC E)]. intros i j _ _. unfold agree. split; intros H c Hc; apply H; try (apply in_seq in Hc); try apply in_seq; lia.
Qed.

Lemma opt_map_In {A B} (f : A -> option B) l ys y : opt_map f l = Some ys -> (In y ys <-> exists x, In x l /\ f x = Some y).
Proof.
  revert ys. induction l as [|x l IH]; simpl; intros ys H.
  - injection H as <-. split; [contradiction|intros (? & [] & _)].
  - destruct (f x) as [z|] eqn:E; [|discriminate]. destruct (opt_map f l) as [zs|]; [|discriminate]. injection H as <-. simpl. rewrite (IH zs eq_refl). split.
    + intros [<-|(w & Hw & Ew)]; eauto.
    + intros (w & [<-|Hw] & Ew); [left; congruence|right; eauto].
Qed.

(** The columns of the orbits within the cutoff of their size. *)
Definition cut_of (u : cutoffs) (k : nat) (c : Qc) : Prop := match u with Single x => c = x | PerSize d => In (k, c) d end.
Lemma size_some orbits k os : orbits_of_size orbits k = Some os -> os = filter (fun o => (oi_size o =? k)%nat) orbits.
Proof. unfold orbits_of_size. destruct (filter _ orbits); [discriminate|]. intros [= <-]. reflexivity. Qed.
Lemma cutoff_columns orbits u inds : function_inds_from_cutoffs orbits u = Some inds ->
  forall c, In c inds <-> exists o x, In o orbits /\ cut_of u (oi_size o) x /\ 0 <= oi_diameter o /\ oi_diameter o <= x /\ (oi_first o <= c < oi_first o + oi_len o)%nat.
Proof.
  unfold function_inds_from_cutoffs, orbits_from_cutoffs. set (d := match u with Single c => _ | PerSize d => d end).
  destruct (opt_map _ d) as [ls|] eqn:E; [|discriminate]. cbn [option_bind]. intros [= <-] c. rewrite in_flat_map.
  assert (K : forall o x, In o orbits -> (In (oi_size o, x) d <-> cut_of u (oi_size o) x)).
  { intros o x Ho. unfold d. destruct u as [y|d']; simpl; [|tauto]. rewrite in_map_iff. split.
    - intros (k & [= _ <-] & _). reflexivity.
    - intros ->. exists (oi_size o). split; auto. apply nodup_In, in_map, Ho. }
  split.
  - intros (o & Ho & Hc). apply in_concat in Ho as (os & Hos & Ho). apply (opt_map_In _ E) in Hos as ([k x] & Hk & Ek). cbn [fst snd] in Ek.
    destruct (orbits_of_size orbits k) as [os'|] eqn:Ef; [|discriminate]. apply size_some in Ef. subst os'. cbn [option_bind] in Ek. injection Ek as <-. apply filter_In in Ho as [Ho Hd]. apply filter_In in Ho as [Ho Hs]. apply Nat.eqb_eq in Hs. subst k.
    apply andb_true_iff in Hd as [D1 D2]. destruct (Qcleb_spec 0 (oi_diameter o)); [|discriminate]. destruct (Qcleb_spec (oi_diameter o) x); [|discriminate].
    exists o, x. apply in_seq in Hc. split; auto. split; [apply K; auto|]. auto.
  - intros (o & x & Ho & Hx & D1 & D2 & Hc). exists o. split; [|apply in_seq; auto]. apply in_concat.
    exists (filter (fun o => Qcleb 0 (oi_diameter o) && Qcleb (oi_diameter o) x) (filter (fun o' => (oi_size o' =? oi_size o)%nat) orbits)). split.
    + apply (opt_map_In _ E). exists (oi_size o, x). split; [apply K; auto|]. cbn [fst snd]. unfold orbits_of_size.
      destruct (filter (fun o' => (oi_size o' =? oi_size o)%nat) orbits) as [|o0 l0] eqn:Ef; [|reflexivity].
      exfalso. assert (H : In o []) by (rewrite <- Ef; apply filter_In; split; [auto|apply Nat.eqb_refl]). contradiction.
    + apply filter_In. split; [apply filter_In; split; [auto|apply Nat.eqb_refl]|]. apply andb_true_iff. split.
      * destruct (Qcleb_spec 0 (oi_diameter o)); auto.
      * destruct (Qcleb_spec (oi_diameter o) x); auto.
Qed.

(** With cutoffs the rows are compared on the functions of the clusters within them. *)
Theorem C47_cutoffs_partial : forall orbits n next m u decimals gs, rectangular m n ->
  (forall o, In o orbits -> (oi_first o + oi_len o <= n)%nat) ->
  get_duplicates orbits n next m (Some u) decimals true = Some gs ->
  classes (fun i => (i < length m)%nat)
    (agree (rounding decimals) (fun c => exists o x, In o orbits /\ cut_of u (oi_size o) x /\ 0 <= oi_diameter o /\ oi_diameter o <= x /\ (oi_first o <= c < oi_first o + oi_len o)%nat) m) gs.
Proof.
  intros orbits n next m u decimals gs HR HO H. unfold get_duplicates in H. destruct m as [|r m].
  - injection H as <-. split; [constructor|]. split; [contradiction|]. intros i j Hi. simpl in Hi. lia.
  - set (M := r :: m) in *. destruct (function_inds_from_cutoffs orbits u) as [inds|] eqn:EI; [|discriminate]. cbn [option_bind negb] in H.
    assert (exists rows, select_columns inds (match decimals with None => M | Some d => map (map (around d)) M end) = Some rows /\ gs = duplicate_groups rows) as (rows & E & ->).
    { destruct inds as [|c inds]; [discriminate|]. cbn [option_bind] in H. destruct (select_columns _ _) as [rows|]; [|discriminate]. injection H as <-. eauto. }
    assert (HC : forall c, In c inds -> (c < n)%nat).
    { intros c Hc. apply (cutoff_columns EI) in Hc as (o & x & Ho & _ & _ & _ & Hc). specialize (HO o Ho). lia. }
    eapply classes_ext; [|apply (duplicates_of_columns HR HC E)]. intros i j _ _. unfold agree. split; intros H0 c Hc; apply H0; apply (cutoff_columns EI); auto.
Qed.

(** Asking for the external terms raises on every wrangler that holds data. *)
Theorem C47_external_refuted : forall orbits n next m u decimals, m <> [] -> get_duplicates orbits n next m u decimals false = None.
Proof.
  intros orbits n next m u decimals H. unfold get_duplicates. destruct m; [congruence|]. destruct u as [u|]; auto.
  destruct (function_inds_from_cutoffs orbits u) as [[|? ?]|]; auto.
Qed.

(** ** Merging *)
Lemma pairs2_In {A} (l : list A) x y : In (x, y) (pairs2 l) -> In x l /\ In y l.
Proof.
  induction l as [|a l IH]; simpl; [tauto|]. rewrite in_app_iff, in_map_iff. intros [(b & [= <- <-] & Hb)|H]; [auto|]. destruct (IH H); auto.
Qed.
Lemma pairs2_neq {A} (l : list A) x y : NoDup l -> In (x, y) (pairs2 l) -> x <> y.
Proof.
  induction l as [|a l IH]; simpl; intros N; [tauto|]. apply NoDup_cons_iff in N as [N0 N]. rewrite in_app_iff, in_map_iff.
  intros [(b & [= <- <-] & Hb)|H]; [intros ->; auto|auto].
Qed.
Lemma pairs2_all {A} (l : list A) x y : In x l -> In y l -> x <> y -> In (x, y) (pairs2 l) \/ In (y, x) (pairs2 l).
Proof.
  induction l as [|a l IH]; simpl; [tauto|]. rewrite !in_app_iff, !in_map_iff. intros [->|Hx] [->|Hy] D; try congruence; eauto.
  destruct (IH Hx Hy D); auto.
Qed.
Lemma overlap_iff s t : overlap s t = true <-> exists x, In x s /\ In x t.
Proof.
  unfold overlap. rewrite existsb_exists. split; intros (x & Hx & H); exists x; split; auto.
  - apply existsb_exists in H as (y & Hy & E). apply Nat.eqb_eq in E. subst; auto.
  - apply existsb_exists. exists x. split; auto. apply Nat.eqb_refl.
Qed.
Lemma set_in_iff s l : set_in s l = true <-> In s l.
Proof. unfold set_in. destruct (in_dec _ s l); split; intros; auto; discriminate. Qed.
Lemma union_In s t x : In x (set_union s t) <-> In x s \/ In x t.
Proof. unfold set_union. rewrite np_unique_In, in_app_iff. tauto. Qed.
Lemma overlaps_In ms s t : NoDup ms -> In (s, t) (overlaps ms) -> In s ms /\ In t ms /\ s <> t /\ exists x, In x s /\ In x t.
Proof.
  intros N H. apply filter_In in H as [H O]. apply overlap_iff in O. destruct (pairs2_In H). split; auto. split; auto. split; auto. apply (pairs2_neq N H).
Qed.
Lemma overlaps_all ms s t x : In s ms -> In t ms -> s <> t -> In x s -> In x t -> In (s, t) (overlaps ms) \/ In (t, s) (overlaps ms).
Proof.
  intros Hs Ht D Xs Xt. destruct (pairs2_all Hs Ht D) as [H|H]; [left|right]; apply filter_In; split; auto; apply overlap_iff; exists x; auto.
Qed.

Lemma merge_fold ov acc u : let r := fold_left (fun acc p => let u := set_union (fst p) (snd p) in if set_in u acc then acc else acc ++ [u]) ov acc in
  (In u r <-> In u acc \/ exists s t, In (s, t) ov /\ u = set_union s t) /\ (NoDup acc -> NoDup r).
Proof.
  cbn zeta. revert acc. induction ov as [|[s t] ov IH]; intros acc; cbn [fold_left fst snd].
  - split; auto. split; [auto|]. intros [H|(? & ? & [] & _)]; auto.
  - set (v := set_union s t). destruct (set_in v acc) eqn:E.
    + destruct (IH acc) as [H1 H2]. split; auto. rewrite H1. apply set_in_iff in E. split; intros [H|(a & b & Hab & ->)]; auto.
      * right. exists a, b. split; [right; auto|auto].
      * destruct Hab as [[= <- <-]|Hab]; [left; auto|right; eauto].
    + destruct (IH (acc ++ [v])) as [H1 H2]. split.
      * rewrite H1, in_app_iff. simpl. split.
        -- intros [[H|[<-|[]]]|(a & b & Hab & ->)]; auto; right; [exists s, t|exists a, b]; auto.
        -- intros [H|(a & b & [[= <- <-]|Hab] & ->)]; auto. right. eauto.
      * intros N. apply H2. apply NoDup_app_intro; auto; [repeat constructor; auto|]. intros y Hy [<-|[]]. apply set_in_iff in Hy. congruence.
Qed.
Definition crossing (ms : list (list nat)) (s : list nat) : Prop := exists t x, In t ms /\ t <> s /\ In x s /\ In x t.
Lemma merge_pass_In ms u : NoDup ms -> (In u (merge_pass ms) <->
  (In u ms /\ ~ crossing ms u) \/ exists s t x, In s ms /\ In t ms /\ s <> t /\ In x s /\ In x t /\ (u = set_union s t \/ u = set_union t s) /\ In (s, t) (overlaps ms)) /\ NoDup (merge_pass ms).
Proof.
  intros N. unfold merge_pass. destruct (merge_fold (overlaps ms) (filter (fun s => negb (set_in s (flat_map (fun p => [fst p; snd p]) (overlaps ms)))) ms) u) as [H1 H2].
  cbn zeta in *. split; [|apply H2, NoDup_filter, N]. rewrite H1. clear H1 H2. rewrite filter_In, negb_true_iff.
  assert (C : set_in u (flat_map (fun p => [fst p; snd p]) (overlaps ms)) = false <-> (In u ms -> ~ crossing ms u)).
  { split.
    - intros E Hu (t & x & Ht & D & X1 & X2). assert (In u (flat_map (fun p => [fst p; snd p]) (overlaps ms))); [|apply set_in_iff in H; congruence].
      apply in_flat_map. destruct (@overlaps_all ms u t x) as [H|H]; auto; eexists; split; eauto; simpl; auto.
    - intros H. destruct (set_in u _) eqn:E; auto. exfalso. apply set_in_iff, in_flat_map in E as ([s t] & Hst & E). simpl in E.
      destruct (overlaps_In N Hst) as (Hs & Ht & D & x & X1 & X2). destruct E as [->|[->|[]]].
      + apply (H Hs). exists t, x. auto.
      + apply (H Ht). exists s, x. auto. }
  rewrite C. split.
  - intros [[Hu H]|(s & t & Hst & ->)]; [left; auto|right]. destruct (overlaps_In N Hst) as (Hs & Ht & D & x & X1 & X2). exists s, t, x. auto 10.
  - intros [[Hu H]|(s & t & x & Hs & Ht & D & X1 & X2 & Hu & Hst)]; [left; auto|right]. exists s, t. split; auto.
    destruct Hu as [->| ->]; auto. apply sorted_ext; try apply np_unique_sorted. intros y. fold (set_union t s). fold (set_union s t). rewrite !union_In. tauto.
Qed.

Section Merge.
Variable inds : list nat.
Variable edge : nat -> nat -> Prop.
Notation linked := (clos_refl_sym_trans nat edge).
(** What the passes keep. *)
Record good (ms : list (list nat)) : Prop := {
  g_nodup : NoDup ms;
  g_sorted : forall s, In s ms -> StronglySorted lt s /\ (2 <= length s)%nat /\ incl s inds;
  g_linked : forall s x y, In s ms -> In x s -> In y s -> linked x y;
  g_edges : forall x y, edge x y -> exists s, In s ms /\ In x s /\ In y s }.

Lemma good_pass ms : good ms -> good (merge_pass ms).
Proof.
  intros [N S L E]. constructor.
  - apply (@merge_pass_In ms [] N).
  - intros u Hu. apply (merge_pass_In u N) in Hu as [[Hu _]|(s & t & x & Hs & Ht & D & X1 & X2 & Hu & _)]; [auto|].
    assert (H : forall a b, In a ms -> In b ms -> StronglySorted lt (set_union a b) /\ (2 <= length (set_union a b))%nat /\ incl (set_union a b) inds).
    { intros a b Ha Hb. destruct (S a Ha) as (Sa & La & Ia). destruct (S b Hb) as (Sb & Lb & Ib). split; [apply np_unique_sorted|]. split.
      - assert (incl a (set_union a b)) by (intros y Hy; apply union_In; auto). apply NoDup_incl_length in H; [lia|]. apply sorted_NoDup, Sa.
      - intros y Hy. apply union_In in Hy as [?|?]; auto. }
    destruct Hu as [->| ->]; auto.
  - intros u a b Hu Ha Hb. apply (merge_pass_In u N) in Hu as [[Hu _]|(s & t & x & Hs & Ht & D & X1 & X2 & Hu & _)]; [eauto|].
    assert (K : forall z, In z u -> linked z x).
    { intros z Hz. assert (In z s \/ In z t) as [H|H] by (destruct Hu as [->| ->]; apply union_In in Hz; tauto); eauto. }
    eapply rst_trans; [apply K; auto|]. apply rst_sym, K, Hb.
  - intros a b Hab. destruct (E a b Hab) as (s & Hs & Ha & Hb).
    destruct (in_dec (list_eq_dec Nat.eq_dec) s (merge_pass ms)) as [I|I]; [eauto|].
    assert (C : ~ ~ crossing ms s) by (intros C; apply I, (merge_pass_In s N); auto).
    assert (C' : exists t, In t ms /\ In t (filter (fun t => negb (if list_eq_dec Nat.eq_dec t s then true else false) && overlap s t) ms)).
    { destruct (filter (fun t => negb (if list_eq_dec Nat.eq_dec t s then true else false) && overlap s t) ms) as [|t l] eqn:F.
      - exfalso. apply C. intros (t & x & Ht & D & X1 & X2).
        assert (H : In t []); [|contradiction]. rewrite <- F. apply filter_In. split; auto. destruct (list_eq_dec Nat.eq_dec t s); [congruence|]. simpl. apply overlap_iff. eauto.
      - assert (H : In t (t :: l)) by (left; auto). exists t. split; [|left; auto]. rewrite <- F in H. apply filter_In in H. apply H. }
    destruct C' as (t & _ & Ft). apply filter_In in Ft as [Ht Ft]. apply andb_true_iff in Ft as [D O]. apply overlap_iff in O as (x & X1 & X2).
    assert (D' : s <> t) by (intros ->; destruct (list_eq_dec Nat.eq_dec t t); [discriminate|congruence]).
    exists (set_union s t). split; [|split; apply union_In; auto]. apply (merge_pass_In _ N). right.
    destruct (@overlaps_all ms s t x) as [H|H]; auto; [exists s, t, x|exists t, s, x]; auto 10.
Qed.

Definition wide (k : nat) (ms : list (list nat)) : Prop := forall s, In s ms -> crossing ms s -> (k <= length s)%nat.

Lemma union_longer a b k : StronglySorted lt a -> StronglySorted lt b -> a <> b -> (k <= length a)%nat -> (k <= length b)%nat -> (S k <= length (set_union a b))%nat.
Proof.
  intros Sa Sb D Ka Kb. destruct (le_lt_dec (S k) (length (set_union a b))) as [|G]; auto. exfalso. apply D.
  assert (Ia : incl a (set_union a b)) by (intros y Hy; apply union_In; auto).
  assert (Ib : incl b (set_union a b)) by (intros y Hy; apply union_In; auto).
  assert (Ja : incl (set_union a b) a) by (apply NoDup_length_incl; auto; [apply sorted_NoDup, Sa|lia]).
  assert (Jb : incl (set_union a b) b) by (apply NoDup_length_incl; auto; [apply sorted_NoDup, Sb|lia]).
  apply sorted_ext; auto. intros y. split; auto.
Qed.

Lemma wide_pass k ms : good ms -> wide k ms -> wide (S k) (merge_pass ms).
Proof.
  intros G W u Hu (v & x & Hv & D & Xu & Xv). destruct G as [N S _ _].
  apply (merge_pass_In u N) in Hu. apply (merge_pass_In v N) in Hv.
  assert (K : forall s t, In s ms -> In t ms -> s <> t -> (exists x, In x s /\ In x t) -> (Datatypes.S k <= length (set_union s t))%nat).
  { intros s t Hs Ht D' (y & Y1 & Y2). apply union_longer; auto; try apply S; auto; apply W; auto; [exists t, y|exists s, y]; auto. }
  assert (I : forall w s t y, In w ms -> ~ crossing ms w -> In s ms -> In t ms -> s <> t -> (exists z, In z s /\ In z t) -> In y w -> (In y s \/ In y t) -> False).
  { intros w s t y Hw Nw Hs Ht Dst (z & Z1 & Z2) Yw Yst. apply Nw. destruct (list_eq_dec Nat.eq_dec s w) as [->|Ds].
    - exists t, z. auto.
    - destruct (list_eq_dec Nat.eq_dec t w) as [->|Dt]; [exists s, z; auto|]. destruct Yst as [Y|Y]; [exists s, y|exists t, y]; auto. }
  destruct Hu as [[Hu Nu]|(s & t & z & Hs & Ht & Dst & Z1 & Z2 & Eu & _)].
  - exfalso. destruct Hv as [[Hv _]|(s & t & z & Hs & Ht & Dst & Z1 & Z2 & Ev & _)].
    + apply Nu. exists v, x. auto.
    + apply (I u s t x); eauto. destruct Ev as [->| ->]; apply union_In in Xv; tauto.
  - destruct Eu as [->| ->]; apply K; eauto.
Qed.

Lemma merge_done ms : good ms -> overlaps ms = [] -> classes (fun i => In i inds) linked ms.
Proof.
  intros [N S L E] O.
  assert (Dj : forall g h x, In g ms -> In h ms -> In x g -> In x h -> g = h).
  { intros g h x Hg Hh Xg Xh. destruct (list_eq_dec Nat.eq_dec g h) as [|D]; auto. exfalso. destruct (@overlaps_all ms g h x) as [H|H]; auto; rewrite O in H; contradiction. }
  split; [apply NoDup_concat_disjoint; auto; intros g Hg; apply sorted_NoDup, S, Hg|]. split; [intros g Hg; destruct (S g Hg) as (? & ? & ?); auto|].
  intros i j Hi Hj D. split; [intros (g & Hg & Ig & Jg); eauto|]. intros H.
  assert (C : forall x y, linked x y -> (x = y \/ exists g, In g ms /\ In x g /\ In y g)).
  { clear i j Hi Hj D H. intros x y H. induction H as [x y H|x|x y H IH|x y z H1 IH1 H2 IH2]; auto.
    - destruct IH as [->|(g & ? & ? & ?)]; eauto.
    - destruct IH1 as [->|(g & Hg & X1 & Y1)]; auto. destruct IH2 as [<-|(h & Hh & Y2 & Z2)]; eauto. right. assert (g = h) by (eapply Dj; eauto). subst h. eauto. }
  destruct (C i j H) as [->|]; [congruence|auto].
Qed.

Lemma merge_loop_some fuel : forall k ms, good ms -> wide k ms -> (length (nodup Nat.eq_dec inds) <= fuel + k)%nat ->
  exists ms', merge_loop fuel ms = Some ms' /\ classes (fun i => In i inds) linked ms'.
Proof.
  induction fuel as [|fuel IH]; intros k ms G W Hf; cbn [merge_loop]; destruct (overlaps ms) as [|[s t] ov] eqn:O; try (exists ms; split; auto; apply merge_done; auto).
  - exfalso. assert (Hst : In (s, t) (overlaps ms)) by (rewrite O; left; auto). destruct (overlaps_In (g_nodup G) Hst) as (Hs & Ht & D & x & X1 & X2).
    assert (L : (S k <= length (set_union s t))%nat).
    { apply union_longer; auto; try (apply G; auto); apply W; auto; [exists t, x|exists s, x]; auto. }
    assert (incl (set_union s t) (nodup Nat.eq_dec inds)).
    { intros y Hy. apply nodup_In. destruct (g_sorted G Hs) as (_ & _ & I1). destruct (g_sorted G Ht) as (_ & _ & I2). apply union_In in Hy as [?|?]; auto. }
    apply NoDup_incl_length in H; [simpl in Hf; lia|]. apply sorted_NoDup, np_unique_sorted.
  - apply (IH (S k)); [apply good_pass, G|apply wide_pass; auto|lia].
Qed.
End Merge.

(** Two members of a group match directly: the matcher accepts them, the one listed first first. *)
Definition matched (fit : nat -> nat -> bool) (inds : list nat) (x y : nat) : Prop := In (x, y) (pairs2 inds) /\ fit x y = true.
Lemma set_pair x y : x <> y -> StronglySorted lt (set_union [x] [y]) /\ length (set_union [x] [y]) = 2%nat /\ (forall z, In z (set_union [x] [y]) <-> z = x \/ z = y).
Proof.
  intros D. split; [apply np_unique_sorted|]. split.
  - unfold set_union, np_unique. simpl. destruct (Nat.ltb_spec x y); [reflexivity|]. destruct (Nat.eqb_spec x y); [congruence|reflexivity].
  - intros z. rewrite union_In. simpl. intuition.
Qed.
Lemma set_pair_inj x y x' y' : x <> y -> x' <> y' -> set_union [x] [y] = set_union [x'] [y'] -> (x = x' /\ y = y') \/ (x = y' /\ y = x').
Proof.
  intros D D' E. assert (H : forall z, z = x \/ z = y <-> z = x' \/ z = y').
  { intros z. rewrite <- (proj2 (proj2 (set_pair D))), <- (proj2 (proj2 (set_pair D'))), E. tauto. }
  destruct (proj1 (H x)) as [->| ->]; auto; destruct (proj1 (H y)) as [->| ->]; auto; congruence.
Qed.
Lemma pairs2_nodup_map (inds : list nat) (f : nat * nat -> bool) : NoDup inds ->
  NoDup (map (fun p => set_union [fst p] [snd p]) (filter f (pairs2 inds))).
Proof.
  intros N. induction inds as [|a l IH]; simpl; [constructor|]. apply NoDup_cons_iff in N as [N0 N]. rewrite filter_app, map_app. apply NoDup_app_intro; auto.
  - assert (Ha : ~ In a l) by auto. clear IH N0. induction l as [|b l IH]; simpl; [constructor|]. apply NoDup_cons_iff in N as [Nb N].
    assert (Ha' : ~ In a l) by (intros H; apply Ha; right; auto). assert (Dab : a <> b) by (intros ->; apply Ha; left; auto).
    destruct (f (a, b)); simpl; auto. constructor; auto. intros H. apply in_map_iff in H as ([a' b'] & E & H). apply filter_In in H as [H _].
    apply in_map_iff in H as (c & [= <- <-] & Hc). simpl in E. apply set_pair_inj in E; [|intros ->; auto|auto]. destruct E as [[_ ->]|[-> _]]; auto.
  - intros s H1 H2. apply in_map_iff in H1 as ([x y] & <- & H1). apply filter_In in H1 as [H1 _]. apply in_map_iff in H1 as (c & [= <- <-] & Hc). simpl in H2.
    apply in_map_iff in H2 as ([x y] & E & H2). apply filter_In in H2 as [H2 _]. simpl in E. assert (D := pairs2_neq N H2). apply pairs2_In in H2 as [Hx Hy].
    apply set_pair_inj in E; auto; [|intros ->; auto]. destruct E as [[-> _]|[_ ->]]; auto.
Qed.

(** The matching groups of a duplicate group are the connected components of the matcher; the loop ends. *)
Theorem C47_matching_groups : forall fit inds, NoDup inds ->
  exists ms, matching_groups fit inds = Some ms /\ classes (fun i => In i inds) (clos_refl_sym_trans nat (matched fit inds)) ms.
Proof.
  intros fit inds N. unfold matching_groups. set (ms := map _ _).
  apply (@merge_loop_some inds (matched fit inds) (length inds) 0 ms).
  - assert (M : forall s, In s ms <-> exists x y, matched fit inds x y /\ s = set_union [x] [y]).
    { intros s. unfold ms. rewrite in_map_iff. split.
      - intros ([x y] & <- & H). apply filter_In in H. exists x, y. split; auto.
      - intros (x & y & [H1 H2] & ->). exists (x, y). split; auto. apply filter_In. auto. }
    constructor.
    + apply (@pairs2_nodup_map inds (fun p => fit (fst p) (snd p)) N).
    + intros s Hs. apply M in Hs as (x & y & [H _] & ->). assert (D := pairs2_neq N H). destruct (set_pair D) as (S & L & I). split; auto. split; [lia|].
      intros z Hz. apply I in Hz. apply pairs2_In in H. destruct Hz as [->| ->]; tauto.
    + intros s a b Hs Ha Hb. apply M in Hs as (x & y & E & ->). assert (D := pairs2_neq N (proj1 E)). apply (set_pair D) in Ha. apply (set_pair D) in Hb.
      destruct Ha as [->| ->], Hb as [->| ->]; [apply rst_refl|apply rst_step; auto|apply rst_sym, rst_step; auto|apply rst_refl].
    + intros x y E. exists (set_union [x] [y]). split; [apply M; eauto|]. split; apply union_In; simpl; auto.
  - intros s _ _. lia.
  - assert (length (nodup Nat.eq_dec inds) <= length inds)%nat by (apply NoDup_incl_length; [apply NoDup_nodup|intros x Hx; apply nodup_In in Hx; auto]). lia.
Qed.

Lemma pairs2_sorted l : StronglySorted lt l -> forall x y, In (x, y) (pairs2 l) <-> In x l /\ In y l /\ (x < y)%nat.
Proof.
  induction 1 as [|a l S IH F]; intros x y; simpl; [tauto|]. rewrite Forall_forall in F. rewrite in_app_iff, in_map_iff, IH. split.
  - intros [(b & [= <- <-] & Hb)|(Hx & Hy & L)]; auto.
  - intros ([->|Hx] & [->|Hy] & L); auto; try lia; [left; eauto|]. exfalso. specialize (F x Hx). lia.
Qed.
Lemma concat_classes dom R gs ls (P : list nat -> nat -> nat -> Prop) :
  classes dom R gs -> Forall2 (fun g ms => classes (fun i => In i g) (P g) ms) gs ls ->
  classes dom (fun i j => exists g, In g gs /\ In i g /\ In j g /\ P g i j) (concat ls).
Proof.
  intros (N & G & _) F. split; [|split].
  - clear G. induction F as [|g ms gs ls C F IH]; simpl; [constructor|]. simpl in N. destruct C as (Nm & Gm & _). rewrite concat_app. apply NoDup_app_intro; auto.
    + apply IH. clear - N. induction g; simpl in *; auto. apply NoDup_cons_iff in N as [_ N]. auto.
    + intros x H1 H2. apply in_concat in H1 as (m & Hm & Xm). destruct (Gm m Hm) as (_ & _ & D). specialize (D x Xm).
      assert (X2 : In x (concat gs)).
      { clear - F H2. induction F as [|g ms gs ls (_ & Gm & _) F IH]; simpl in *; auto. rewrite concat_app in H2. apply in_app_iff in H2 as [H2|H2]; apply in_app_iff; auto.
        left. apply in_concat in H2 as (m & Hm & Xm). destruct (Gm m Hm) as (_ & _ & D). auto. }
      clear - N D X2. induction g as [|a g IH]; simpl in *; [contradiction|]. apply NoDup_cons_iff in N as [N0 N]. destruct D as [->|D]; auto. apply N0, in_or_app. auto.
  - assert (H : forall m, In m (concat ls) -> exists g ms, In g gs /\ In m ms /\ classes (fun i => In i g) (P g) ms).
    { clear - F. induction F as [|g ms gs ls C F IH]; simpl; [contradiction|]. intros m Hm. apply in_app_iff in Hm as [Hm|Hm]; [exists g, ms; auto|].
      destruct (IH m Hm) as (g' & ms' & ? & ? & ?). exists g', ms'. auto. }
    intros m Hm. destruct (H m Hm) as (g & ms & Hg & Hms & (_ & Gm & _)). destruct (Gm m Hms) as (S & L & D). split; auto. split; auto. intros i Hi. apply (G g Hg). auto.
  - intros i j Hi Hj D. split.
    + intros (m & Hm & Im & Jm).
      assert (H : exists g ms, In g gs /\ In m ms /\ classes (fun i => In i g) (P g) ms).
      { clear - F Hm. induction F as [|g ms gs ls C F IH]; simpl in *; [contradiction|]. apply in_app_iff in Hm as [Hm|Hm]; [exists g, ms; auto|].
        destruct (IH Hm) as (g' & ms' & ? & ? & ?). exists g', ms'. auto. }
      destruct H as (g & ms & Hg & Hms & (_ & Gm & Em)). destruct (Gm m Hms) as (_ & _ & Dm). exists g. split; auto. split; auto. split; auto.
      apply Em; auto. eauto.
    + intros (g & Hg & Ig & Jg & Pg).
      assert (H : exists ms, incl ms (concat ls) /\ classes (fun i => In i g) (P g) ms).
      { clear - F Hg. induction F as [|g' ms gs ls C F IH]; simpl in *; [contradiction|]. destruct Hg as [->|Hg].
        - exists ms. split; auto. intros x Hx. apply in_or_app. auto.
        - destruct (IH Hg) as (ms' & I & C'). exists ms'. split; auto. intros x Hx. apply in_or_app. auto. }
      destruct H as (ms & I & (_ & _ & Em)). destruct (proj2 (Em i j Ig Jg D) Pg) as (m & Hm & Im & Jm). exists m. auto.
Qed.

(** The columns compared when matching structures with [decimals] decimals. *)
Definition near_columns (orbits : list orbit_info) (d : Qc) (c : nat) : Prop :=
  exists o, In o orbits /\ 0 <= oi_diameter o /\ oi_diameter o <= d /\ (oi_first o <= c < oi_first o + oi_len o)%nat.

(** Matching structures are grouped by connected components of the matcher among the rows that agree to twelve decimals
    on the functions of the clusters whose diameter is at most the number given as [decimals].
    Missing: all correlations take part and the rounding is the one asked for, which is false of the code. *)
Theorem C47_matching_partial : forall orbits n next m decimals fit gs, rectangular m n ->
  (forall o, In o orbits -> (oi_first o + oi_len o <= n)%nat) ->
  get_matching orbits n next m decimals fit = Some gs ->
  classes (fun i => (i < length m)%nat)
    (clos_refl_sym_trans nat (fun i j => (i < j < length m)%nat /\ fit i j = true /\ agree (around 12) (near_columns orbits (Qc_of_nat decimals)) m i j)) gs.
Proof.
  intros orbits n next m decimals fit gs HR HO H. unfold get_matching in H.
  destruct (get_duplicates orbits n next m (Some (Single (Qc_of_nat decimals))) (Some 12%nat) true) as [groups|] eqn:EG; [|discriminate]. cbn [option_bind] in H.
  pose proof (C47_cutoffs_partial HR HO EG) as C.
  destruct (opt_map (matching_groups fit) groups) as [ls|] eqn:EL; [|discriminate]. injection H as <-.
  set (near := near_columns orbits (Qc_of_nat decimals)).
  assert (C' : classes (fun i => (i < length m)%nat) (agree (around 12) near m) groups).
  { eapply classes_ext; [|exact C]. intros i j _ _. unfold agree, near, near_columns. simpl rounding. split; intros H c Hc; apply H.
    - destruct Hc as (o & Ho & D1 & D2 & Hc). exists o, (Qc_of_nat decimals). simpl. auto.
    - destruct Hc as (o & x & Ho & Hx & D1 & D2 & Hc). simpl in Hx. subst x. eauto. }
  clear C. destruct C' as (N & G & R).
  assert (F : Forall2 (fun g ms => classes (fun i => In i g) (clos_refl_sym_trans nat (matched fit g)) ms) groups ls).
  { assert (S : forall g, In g groups -> NoDup g) by (intros g Hg; apply sorted_NoDup, G, Hg). clear - S EL. revert ls EL.
    induction groups as [|g groups IH]; simpl; intros ls EL; [injection EL as <-; constructor|].
    destruct (matching_groups fit g) as [ms|] eqn:Em; [|discriminate]. destruct (opt_map _ groups) as [ls'|]; [|discriminate]. injection EL as <-.
    constructor; [|apply IH; auto; intros; apply S; right; auto]. destruct (@C47_matching_groups fit g (S g (or_introl eq_refl))) as (ms' & E & C). rewrite Em in E. injection E as <-. exact C. }
  assert (CC : classes (fun i => (i < length m)%nat) (agree (around 12) near m) groups) by (split; auto).
  eapply classes_ext_neq; [|apply (concat_classes CC F)]. intros i j Hi Hj Dij. cbn beta.
  set (edge := fun i j => (i < j < length m)%nat /\ fit i j = true /\ agree (around 12) near m i j).
  assert (EE : forall g x y, In g groups -> In x g -> In y g -> (matched fit g x y <-> edge x y)).
  { intros g x y Hg Xg Yg. unfold matched, edge. destruct (G g Hg) as (S & _ & D). rewrite (pairs2_sorted S). split.
    - intros ((_ & _ & L) & E). split; [split; [auto|apply D, Yg]|]. split; auto. apply R; auto; [lia|]. eauto.
    - intros ([L _] & E & _). auto. }
  assert (K : forall x y, clos_refl_sym_trans nat edge x y -> x = y \/ exists g, In g groups /\ In x g /\ In y g /\ clos_refl_sym_trans nat (matched fit g) x y).
  { intros x y H. induction H as [x y H|x|x y H IH|x y z H1 IH1 H2 IH2]; auto.
    - right. destruct H as ([L1 L2] & E & A). destruct (proj2 (R x y ltac:(lia) ltac:(lia) ltac:(lia)) A) as (g & Hg & Xg & Yg). exists g. split; auto. split; auto. split; auto.
      apply rst_step. apply EE; auto. split; auto.
    - destruct IH as [->|(g & ? & ? & ? & ?)]; auto. right. exists g. split; auto. split; auto. split; auto. apply rst_sym. auto.
    - destruct IH1 as [->|(g & Hg & X1 & Y1 & L1)]; auto. destruct IH2 as [<-|(h & Hh & Y2 & Z2 & L2)]; [right; exists g; auto|].
      right. assert (g = h) by (eapply (NoDup_concat_same N); eauto). subst h. exists g. split; auto. split; auto. split; auto. eapply rst_trans; eauto. }
  split.
  - intros (g & Hg & Ig & Jg & H). clear Hi Hj.
    assert (Q : In i g -> clos_refl_sym_trans nat edge i j /\ (In i g <-> In j g)).
    { intros _. clear Ig Jg Dij. induction H as [x y H|x|x y H IH|x y z H1 IH1 H2 IH2].
      - assert (In x g /\ In y g) as [Xg Yg] by (destruct H as [H _]; apply pairs2_In in H; auto). split; [apply rst_step, (EE g); auto|tauto].
      - split; [apply rst_refl|tauto].
      - split; [apply rst_sym; tauto|tauto].
      - split; [eapply rst_trans; [apply IH1|apply IH2]|tauto]. }
    apply Q; auto.
  - intros H. destruct (K i j H) as [->|]; auto. congruence.
Qed.

(** ** C47: concrete cases *)
Definition ex_orbs := [mkOI 1 0 1 1; mkOI 2 (Qc_of_nat 3) 2 1].
Definition ex_feats : list (list Qc) :=
  [[1; 0; 1]; [1; Qc_frac 1 2; 0]; [1; 0; - (1)]; [1; Qc_frac 1 2; Q2Qc (1 # 10000000000000)]; [1; 0; 1]].
Example C47_case : get_duplicates ex_orbs 3 0 ex_feats None (Some 12%nat) true = Some [[0; 4]; [1; 3]]%nat /\
  get_duplicates ex_orbs 3 0 ex_feats None None true = Some [[0; 4]]%nat /\
  get_duplicates ex_orbs 3 0 ex_feats (Some (PerSize [(1%nat, Qc_of_nat 5)])) (Some 12%nat) true = Some [[0; 2; 4]; [1; 3]]%nat.
Proof. split; [|split]; vm_compute; reflexivity. Qed.
(** A chain of matches is merged through several passes. *)
Example C47_chain : matching_groups (fun i j => (j =? S i)%nat) [3; 4; 5; 6; 9; 20; 21]%nat = Some [[20; 21]; [3; 4; 5; 6]]%nat.
Proof. vm_compute. reflexivity. Qed.

(** With [decimals] = 2 structures whose pair correlations are 1 and -1 are reported as equivalent duplicates. *)
Theorem C47_decimals_refuted : exists orbits n m gs i j, rectangular m n /\ (forall o, In o orbits -> (oi_first o + oi_len o <= n)%nat) /\
  get_matching orbits n 0 m 2 (fun _ _ => true) = Some gs /\ In [i; j] gs /\ ~ agree (around 2) (fun c => (c < n)%nat) m i j.
Proof.
  exists ex_orbs, 3%nat, [[1; 0; 1]; [1; 0; - (1)]], [[0; 1]]%nat, 0%nat, 1%nat. split; [intros r [<-|[<-|[]]]; reflexivity|]. split; [intros o [<-|[<-|[]]]; simpl; lia|].
  split; [vm_compute; reflexivity|]. split; [left; reflexivity|]. intros H. specialize (H 2%nat (le_n 3)). apply (f_equal this) in H. vm_compute in H. discriminate.
Qed.

(** ** Filters *)
Section Best.
Variable f : Qc -> Qc.
Variable better : Qc -> Qc -> bool.
Hypothesis Hb : forall a b, better a b = true <-> f a < f b.
Lemma argbest_spec l : l <> [] -> let k := argbest better l in (k < length l)%nat /\
  (forall j, (j < length l)%nat -> f (nth k l 0) <= f (nth j l 0)) /\ (forall j, (j < k)%nat -> f (nth k l 0) < f (nth j l 0)).
Proof using Hb.
  cbn zeta. induction l as [|x l IH]; [congruence|]. intros _. destruct l as [|y l].
  - simpl. split; [lia|]. split; [|intros; lia]. intros [|j] Hj; [apply Qcle_refl|simpl in Hj; lia].
  - destruct IH as (I1 & I2 & I3); [discriminate|]. remember (y :: l) as t eqn:Et. change (argbest better (x :: t)) with (match t with [] => 0%nat | _ => let k := argbest better t in if better (nth k t 0) x then S k else 0%nat end).
    replace (match t with [] => 0%nat | _ => let k := argbest better t in if better (nth k t 0) x then S k else 0%nat end) with (if better (nth (argbest better t) t 0) x then S (argbest better t) else 0%nat) by (subst t; reflexivity).
    set (k := argbest better t) in *. destruct (better (nth k t 0) x) eqn:B.
    + apply Hb in B. cbn [length nth]. split; [lia|]. split.
      * intros [|j] Hj; [apply Qclt_le_weak; auto|]. apply I2. lia.
      * intros [|j] Hj; auto. apply I3. lia.
    + assert (B' : f x <= f (nth k t 0)). { apply Qcnot_lt_le. intros H. apply Hb in H. congruence. }
      cbn [length nth]. split; [lia|]. split; [|intros; lia]. intros [|j] Hj; [apply Qcle_refl|]. eapply Qcle_trans; [exact B'|]. apply I2. lia.
Qed.

Lemma unique_spec R dupes n prop : classes (fun i => (i < n)%nat) R dupes -> length prop = n ->
  let '(idx, comp) := unique_indices (argbest better) prop dupes n in
  StronglySorted lt idx /\ StronglySorted lt comp /\ (forall i, In i idx \/ In i comp <-> (i < n)%nat) /\ (forall i, In i idx -> In i comp -> False) /\
  forall i, (i < n)%nat -> exists k, In k idx /\ (k = i \/ R k i) /\
    (forall k', In k' idx -> k' = i \/ R k' i -> k' = k) /\
    (forall j, (j < n)%nat -> j = i \/ R j i -> f (nth k prop 0) <= f (nth j prop 0) /\ (f (nth k prop 0) = f (nth j prop 0) -> (k <= j)%nat)).
Proof using Hb.
  intros (N & G & HR) HL. unfold unique_indices.
  set (pick := fun g => nth (argbest better (map (fun i => nth i prop 0) g)) g 0%nat).
  assert (P : forall g, In g dupes -> In (pick g) g /\ forall j, In j g -> f (nth (pick g) prop 0) <= f (nth j prop 0) /\ (f (nth (pick g) prop 0) = f (nth j prop 0) -> (pick g <= j)%nat)).
  { intros g Hg. destruct (G g Hg) as (S & L & D). set (vals := map (fun i => nth i prop 0) g).
    assert (NE : vals <> []) by (unfold vals; destruct g; [simpl in L; lia|discriminate]).
    destruct (argbest_spec NE) as (A1 & A2 & A3). unfold pick. fold vals. set (k := argbest better vals) in *.
    assert (Lv : length vals = length g) by apply map_length. rewrite Lv in *.
    assert (V : forall j, (j < length g)%nat -> nth j vals 0 = nth (nth j g 0%nat) prop 0).
    { intros j Hj. unfold vals. rewrite nth_indep with (d' := (fun i => nth i prop 0) 0%nat) by (rewrite map_length; auto). apply (map_nth (fun i => nth i prop 0)). }
    split; [apply nth_In; auto|]. intros j Hj. apply (In_nth _ _ 0%nat) in Hj as (p & Hp & <-). split.
    - rewrite <- !V by auto. auto.
    - intros E. rewrite <- !V in E by auto. destruct (le_lt_dec k p) as [H|H].
      + destruct (Nat.eq_dec k p) as [->|D']; [lia|]. clearbody k. clear - S Hp H D'. assert (H' : (k < p)%nat) by lia. clear H D'. revert k p Hp H'.
        induction S as [|a g S IH F]; intros k p Hp H; simpl in Hp; [lia|]. destruct k as [|k], p as [|p]; simpl; try lia.
        * rewrite Forall_forall in F. assert (Hp' : (p < length g)%nat) by lia. specialize (F (nth p g 0%nat) (nth_In _ _ Hp')). lia.
        * apply IH; lia.
      + exfalso. specialize (A3 p H). rewrite E in A3. apply (Qclt_not_eq _ _ A3). reflexivity. }
  set (kept := map pick dupes). set (dup := filter _ (np_unique (concat dupes))).
  assert (Hdup : forall i, In i dup <-> exists g, In g dupes /\ In i g /\ i <> pick g).
  { intros i. unfold dup. rewrite filter_In, np_unique_In, in_concat, negb_true_iff. split.
    - intros ((g & Hg & Ig) & E). exists g. split; auto. split; auto. intros ->. assert (existsb (Nat.eqb (pick g)) kept = true); [|congruence].
      apply existsb_exists. exists (pick g). split; [apply in_map; auto|apply Nat.eqb_refl].
    - intros (g & Hg & Ig & D). split; [eauto|]. destruct (existsb (Nat.eqb i) kept) eqn:E; auto. exfalso.
      apply existsb_exists in E as (k & Hk & E). apply Nat.eqb_eq in E. subst k. apply in_map_iff in Hk as (h & Eh & Hh).
      assert (g = h). { eapply (NoDup_concat_same N); eauto. rewrite <- Eh. apply P, Hh. } subst h. congruence. }
  assert (Hidx : forall i, In i (filter (fun i => negb (existsb (Nat.eqb i) dup)) (seq 0 n)) <-> (i < n)%nat /\ ~ In i dup).
  { intros i. rewrite filter_In, in_seq, negb_true_iff. split.
    - intros [H1 H2]. split; [lia|]. intros H. assert (existsb (Nat.eqb i) dup = true); [|congruence]. apply existsb_exists. exists i. split; auto. apply Nat.eqb_refl.
    - intros [H1 H2]. split; [lia|]. destruct (existsb (Nat.eqb i) dup) eqn:E; auto. exfalso. apply existsb_exists in E as (k & Hk & E). apply Nat.eqb_eq in E. subst. auto. }
  assert (Dn : forall i, In i dup -> (i < n)%nat) by (intros i H; apply Hdup in H as (g & Hg & Ig & _); apply (G g Hg); auto).
  split; [apply sorted_filter, seq_sorted|]. split; [apply sorted_filter, np_unique_sorted|]. split.
  { intros i. rewrite Hidx. split; [intros [[? _]|?]; auto|]. intros Hi. destruct (in_dec Nat.eq_dec i dup); auto. }
  split; [intros i H1 H2; apply Hidx in H1; tauto|].
  intros i Hi. destruct (in_dec Nat.eq_dec i (concat dupes)) as [I|I].
  - apply in_concat in I as (g & Hg & Ig). destruct (P g Hg) as [P1 P2]. destruct (G g Hg) as (_ & _ & D).
    assert (Q : forall j, (j < n)%nat -> j = i \/ R j i -> In j g).
    { intros j Hj [->|H]; auto. destruct (Nat.eq_dec j i) as [->|Dj]; auto. destruct (proj2 (HR j i Hj Hi Dj) H) as (h & Hh & Jh & Ih).
      assert (g = h) by (apply (@NoDup_concat_same _ _ N g h i); auto). subst h. auto. }
    exists (pick g). split.
    + apply Hidx. split; [auto|]. intros H. apply Hdup in H as (h & Hh & Ih & Dh). assert (g = h) by (apply (@NoDup_concat_same _ _ N g h (pick g)); auto). subst h. congruence.
    + split; [|split].
      * destruct (Nat.eq_dec (pick g) i) as [E|E]; auto. right. apply HR; eauto.
      * intros k' Hk' Rk. apply Hidx in Hk' as [Hk' ND]. destruct (Nat.eq_dec k' (pick g)) as [|Dk]; auto. exfalso. apply ND, Hdup. exists g. auto.
      * intros j Hj Rj. apply P2, Q; auto.
  - assert (Q : forall j, (j < n)%nat -> j = i \/ R j i -> j = i).
    { intros j Hj [->|H]; auto. destruct (Nat.eq_dec j i) as [|Dj]; auto. exfalso. destruct (proj2 (HR j i Hj Hi Dj) H) as (h & Hh & Jh & Ih). apply I, in_concat. eauto. }
    exists i. split; [apply Hidx; split; auto; intros H; apply Hdup in H as (g & Hg & Ig & _); apply I, in_concat; eauto|]. split; auto. split.
    + intros k' Hk' Rk. apply Q; auto. apply Hidx in Hk'. tauto.
    + intros j Hj Rj. rewrite (Q j Hj Rj). split; [apply Qcle_refl|auto].
Qed.
End Best.

(** ** C49 *)
(** Property value compared when filtering: the value itself or its negative. *)
Definition signed (by_max : bool) (x : Qc) : Qc := if by_max then - x else x.
(** One structure of every class of equal correlation vectors is kept: the one with the extreme value of the property,
    the first of those; the others are returned as the complement. *)
Theorem C49_unique : forall orbits n next m prop by_max, rectangular m n -> length prop = length m ->
  exists idx comp, unique_corr_vector_indices orbits n next m prop by_max None = Some (idx, comp) /\
  let same := agree (around 12) (fun c => (c < n - next)%nat) m in
  StronglySorted lt idx /\ StronglySorted lt comp /\ (forall i, In i idx \/ In i comp <-> (i < length m)%nat) /\ (forall i, In i idx -> In i comp -> False) /\
  forall i, (i < length m)%nat -> exists k, In k idx /\ (k = i \/ same k i) /\
    (forall k', In k' idx -> k' = i \/ same k' i -> k' = k) /\
    (forall j, (j < length m)%nat -> j = i \/ same j i ->
       signed by_max (nth k prop 0) <= signed by_max (nth j prop 0) /\ (nth k prop 0 = nth j prop 0 -> (k <= j)%nat)).
Proof.
  intros orbits n next m prop by_max HR HL. unfold unique_corr_vector_indices.
  destruct (@C47_duplicates_partial orbits n next m (Some 12%nat) HR) as (gs & EG & C). rewrite EG. cbn [option_bind].
  assert (H : exists better, (forall a b, better a b = true <-> signed by_max a < signed by_max b) /\ (if by_max then argmax else argmin) = argbest better).
  { destruct by_max; [exists (fun a b => Qcltb b a)|exists Qcltb]; (split; [|reflexivity]); intros a b; simpl signed.
    - destruct (Qcltb_spec b a) as [H|H]; split; intros H'; try discriminate; auto; [qclra|]. exfalso. apply H. qclra.
    - destruct (Qcltb_spec a b) as [H|H]; split; intros H'; try discriminate; auto; contradiction. }
  destruct H as (better & Hb & ->). pose proof (@unique_spec (signed by_max) better Hb _ gs (length m) prop C HL) as U.
  destruct (unique_indices (argbest better) prop gs (length m)) as [idx comp]. exists idx, comp. split; auto. cbn zeta.
  destruct U as (U1 & U2 & U3 & U4 & U5). split; auto. split; auto. split; auto. split; auto. intros i Hi. destruct (U5 i Hi) as (k & K1 & K2 & K3 & K4).
  exists k. split; auto. split; auto. split; auto. intros j Hj Rj. destruct (K4 j Hj Rj) as [Q1 Q2]. split; auto. intros E. apply Q2. congruence.
Qed.

Lemma comp_lookup_head c k e d : comp_lookup c ((k, e) :: d) = if (k =? c)%nat then Some e else comp_lookup c d.
Proof. reflexivity. Qed.
Lemma min_by_comp_spec data c : match comp_lookup c (min_by_comp data) with
  | None => forall e, ~ In (e, c) data
  | Some m => In (m, c) data /\ forall e, In (e, c) data -> m <= e end.
Proof.
  unfold min_by_comp. rewrite <- (rev_involutive data). generalize (rev data). clear data. intros data. change (fold_left min_update (rev data) []) with (fold_left (fun d p => min_update d p) (rev data) []). rewrite <- (fold_left_rev_right (fun p d => min_update d p) (rev data) []), rev_involutive.
  induction data as [|[e k] data IH]; cbn [fold_right]; [simpl; tauto|]. set (d := fold_right _ _ data) in *. cbn [rev]. unfold min_update. cbn [fst snd].
  destruct (Nat.eq_dec k c) as [->|Dk].
  - destruct (comp_lookup c d) as [m|] eqn:E.
    + destruct IH as [I1 I2]. destruct (Qcltb_spec e m) as [L|L].
      * rewrite comp_lookup_head, Nat.eqb_refl. split; [apply in_or_app; right; left; auto|]. intros x Hx. apply in_app_iff in Hx as [Hx|[[= <-]|[]]]; [|apply Qcle_refl].
        specialize (I2 x Hx). qclra.
      * rewrite E. split; [apply in_or_app; auto|]. intros x Hx. apply in_app_iff in Hx as [Hx|[[= <-]|[]]]; auto. apply Qcnot_lt_le. auto.
    + rewrite comp_lookup_head, Nat.eqb_refl. split; [apply in_or_app; right; left; auto|]. intros x Hx. apply in_app_iff in Hx as [Hx|[[= <-]|[]]]; [|apply Qcle_refl].
      exfalso. apply (IH x Hx).
  - assert (E : comp_lookup c (match comp_lookup k d with Some e0 => if Qcltb e e0 then (k, e) :: d else d | None => (k, e) :: d end) = comp_lookup c d).
    { destruct (comp_lookup k d) as [e0|]; [destruct (Qcltb e e0)|]; rewrite ?comp_lookup_head; try (rewrite (proj2 (Nat.eqb_neq k c) Dk)); reflexivity. }
    rewrite E. destruct (comp_lookup c d) as [m|].
    + destruct IH as [I1 I2]. split; [apply in_or_app; auto|]. intros x Hx. apply in_app_iff in Hx as [Hx|[[= _ H]|[]]]; auto. congruence.
    + intros x Hx. apply in_app_iff in Hx as [Hx|[[= _ H]|[]]]; [apply (IH x Hx)|congruence].
Qed.

Section Data.
Variables (energies : list Qc) (comps : list nat).
Hypothesis HL : length energies = length comps.
Notation e i := (nth i energies 0) (only parsing).
Notation comp i := (nth i comps 0%nat) (only parsing).
Notation n := (length energies) (only parsing).
Lemma data_nth i : (i < n)%nat -> nth_error (combine energies comps) i = Some (e i, comp i).
Proof using HL. intros Hi. rewrite <- combine_nth by auto. apply nth_error_nth'. rewrite combine_length. lia. Qed.
Lemma data_In x c : In (x, c) (combine energies comps) <-> exists i, (i < n)%nat /\ x = e i /\ c = comp i.
Proof using HL.
  split.
  - intros H. apply (In_nth _ _ (0, 0%nat)) in H as (i & Hi & E). rewrite combine_length in Hi. rewrite combine_nth in E by auto. injection E as <- <-. exists i. split; [lia|auto].
  - intros (i & Hi & -> & ->). apply nth_error_In with (n := i). apply data_nth; auto.
Qed.
(** Index [j] has the lowest energy of its composition. *)
Definition lowest (j : nat) : Prop := (j < n)%nat /\ forall k, (k < n)%nat -> comp k = comp j -> e j <= e k.
Lemma lookup_lowest i : (i < n)%nat -> exists j, lowest j /\ comp j = comp i /\ comp_lookup (comp i) (min_by_comp (combine energies comps)) = Some (e j).
Proof using HL.
  intros Hi. pose proof (min_by_comp_spec (combine energies comps) (comp i)) as M.
  destruct (comp_lookup (comp i) (min_by_comp (combine energies comps))) as [m|].
  - destruct M as [M1 M2]. apply data_In in M1 as (j & Hj & -> & Ec). exists j. split; [|split; congruence]. split; auto. intros k Hk Ek. apply M2. apply data_In. exists k. split; auto. split; auto. congruence.
  - exfalso. apply (M (e i)). apply data_In. exists i. auto.
Qed.
End Data.

(** The indices kept are those of the energies less than the threshold above the lowest one of the same composition; the
    others make the complement. *)
Theorem C49_ewald : forall energies comps cutoff, length energies = length comps ->
  let '(idx, compl) := ewald_indices energies comps cutoff in
  StronglySorted lt idx /\ StronglySorted lt compl /\
  forall i, (In i idx <-> (i < length energies)%nat /\ exists j, lowest energies comps j /\ nth j comps 0%nat = nth i comps 0%nat /\ nth i energies 0 - nth j energies 0 < cutoff) /\
            (In i compl <-> (i < length energies)%nat /\ ~ In i idx).
Proof.
  intros energies comps cutoff HL. unfold ewald_indices. set (data := combine energies comps). set (low := fun i => match nth_error data i with Some _ => _ | None => _ end).
  assert (LD : length data = length energies) by (unfold data; rewrite combine_length; lia).
  split; [apply sorted_filter, seq_sorted|]. split; [apply sorted_filter, seq_sorted|].
  assert (L : forall i, (i < length energies)%nat -> (low i = true <-> exists j, lowest energies comps j /\ nth j comps 0%nat = nth i comps 0%nat /\ nth i energies 0 - nth j energies 0 < cutoff)).
  { intros i Hi. unfold low, data. rewrite (data_nth HL Hi). destruct (lookup_lowest HL Hi) as (j & Lj & Cj & Ej). rewrite Ej. split.
    - intros H. exists j. split; auto. split; auto. destruct (Qcltb_spec (nth i energies 0 - nth j energies 0) cutoff); [auto|discriminate].
    - intros (k & Lk & Ck & H). destruct (Qcltb_spec (nth i energies 0 - nth j energies 0) cutoff) as [|N]; auto. exfalso. apply N.
      destruct Lj as [Hj Lj]. destruct Lk as [Hk Lk]. assert (nth j energies 0 <= nth k energies 0) by (apply Lj; auto; congruence).
      assert (nth k energies 0 <= nth j energies 0) by (apply Lk; auto; congruence). qclra. }
  intros i. split.
  - rewrite filter_In, in_seq. split; [intros [Hi H]; split; [lia|]; apply L; [lia|auto]|intros [Hi H]; split; [lia|]; apply L; auto].
  - rewrite filter_In, in_seq, negb_true_iff. change ((0 <= i < 0 + length data)%nat /\ low i = false <-> (i < length energies)%nat /\ ~ In i (filter low (seq 0 (length data)))). split.
    + intros [Hi H]. split; [lia|]. intros H'. apply filter_In in H' as [_ H']. congruence.
    + intros [Hi H]. split; [lia|]. destruct (low i) eqn:E; auto. exfalso. apply H. apply filter_In. split; auto. apply in_seq. lia.
Qed.
(** Every composition keeps its lowest energy when the threshold is positive. *)
Theorem C49_minimum_kept : forall energies comps cutoff, length energies = length comps -> 0 < cutoff ->
  forall i, (i < length energies)%nat -> exists j, In j (fst (ewald_indices energies comps cutoff)) /\ nth j comps 0%nat = nth i comps 0%nat /\ lowest energies comps j.
Proof.
  intros energies comps cutoff HL Hc i Hi. pose proof (C49_ewald cutoff HL) as E. destruct (ewald_indices energies comps cutoff) as [idx compl]. destruct E as (_ & _ & E).
  destruct (lookup_lowest HL Hi) as (j & Lj & Cj & _). exists j. split; [|auto]. apply (E j). split; [apply Lj|]. exists j. split; auto. split; auto. qclra.
Qed.
(** The energies compared are those of the Ewald term when it is the last external term of the subspace.
    Missing: other positions, for which it is false. *)
Theorem C49_energies_partial : forall before corrs exts computed,
  length corrs = length exts -> (forall x, In x exts -> length x = S (length before)) ->
  filter_energies (before ++ [true]) (map (fun p => fst p ++ snd p) (combine corrs exts)) computed = map (fun x => nth (length before) x 0) exts.
Proof.
  intros before corrs exts computed HL HX. unfold filter_energies. rewrite existsb_app. simpl. rewrite orb_true_r. revert corrs HL.
  induction exts as [|x exts IH]; intros [|c corrs] HL; try discriminate; auto. cbn [combine map fst snd]. f_equal.
  - assert (L : length x = S (length before)) by (apply HX; left; auto). destruct (exists_last (l := x)) as (x' & y & ->); [destruct x; discriminate|].
    rewrite app_length in L. simpl in L. assert (L' : length x' = length before) by lia. rewrite app_assoc, last_last, <- L', app_nth2, Nat.sub_diag by lia. reflexivity.
  - apply IH; auto. intros; apply HX; right; auto.
Qed.
Theorem C49_last_term_refuted : exists terms corrs exts computed, nth 0 terms false = true /\ length corrs = length exts /\
  (forall x, In x exts -> length x = length terms) /\
  filter_energies terms (map (fun p => fst p ++ snd p) (combine corrs exts)) computed <> map (fun x => nth 0 x 0) exts.
Proof.
  exists [true; false], [[1]; [1]], [[0; 1]; [1; 0]], []. split; auto. split; auto. split; [intros x [<-|[<-|[]]]; reflexivity|].
  intros H. apply (f_equal (map this)) in H. vm_compute in H. discriminate.
Qed.

(** Energies above the composition are not negative and zero exactly at the lowest energies per atom. *)
Theorem C49_above : forall energies sizes comps, length energies = length sizes -> length energies = length comps ->
  let per := map (fun p => fst p / Qc_of_nat (snd p)) (combine energies sizes) in
  length (energies_above energies sizes comps) = length energies /\
  forall i, (i < length energies)%nat -> 0 <= nth i (energies_above energies sizes comps) 0 /\
    (nth i (energies_above energies sizes comps) 0 = 0 <-> lowest per comps i) /\
    exists j, lowest per comps j /\ nth j comps 0%nat = nth i comps 0%nat /\ nth i (energies_above energies sizes comps) 0 = nth i per 0 - nth j per 0.
Proof.
  intros energies sizes comps H1 H2 per. assert (Lp : length per = length energies) by (unfold per; rewrite map_length, combine_length; lia).
  assert (HL : length per = length comps) by lia. unfold energies_above. fold per. split; [rewrite map_length, combine_length; lia|].
  intros i Hi. assert (Hi' : (i < length per)%nat) by lia. destruct (lookup_lowest HL Hi') as (j & Lj & Cj & Ej).
  set (g := fun p : Qc * nat => match comp_lookup (snd p) (min_by_comp (combine per comps)) with Some m => fst p - m | None => 0 end).
  assert (E : nth i (map g (combine per comps)) 0 = nth i per 0 - nth j per 0).
  { pose proof (data_nth HL Hi') as D. apply (map_nth_error g) in D. rewrite (nth_error_nth _ _ 0 D). unfold g. cbn [fst snd]. rewrite Ej. reflexivity. }
  rewrite E. destruct Lj as [Hj Lj]. assert (B := Lj i Hi' (eq_sym Cj)). split; [qclra|]. split; [|exists j; split; [split; auto|auto]]. split.
  - intros Z. split; auto. intros k Hk Ek. assert (nth j per 0 <= nth k per 0) by (apply Lj; auto; congruence). qclra.
  - intros [_ Li]. assert (nth i per 0 <= nth j per 0) by (apply Li; auto). qclra.
Qed.

(** *** Concrete cases *)
Example C49_case : unique_corr_vector_indices ex_orbs 3 0 ex_feats [Qc_of_nat 5; Qc_of_nat 2; 0; Qc_of_nat 1; Qc_of_nat 5] false None = Some ([0; 2; 3]%nat, [1; 4]%nat) /\
  unique_corr_vector_indices ex_orbs 3 0 ex_feats [Qc_of_nat 5; Qc_of_nat 2; 0; Qc_of_nat 1; Qc_of_nat 6] true None = Some ([1; 2; 4]%nat, [0; 3]%nat) /\
  ewald_indices [1; Qc_of_nat 5; 0; Qc_of_nat 4; Qc_of_nat 3] [0; 1; 0; 1; 0]%nat (Qc_of_nat 2) = ([0; 1; 2; 3]%nat, [4]%nat).
Proof. split; [|split]; vm_compute; reflexivity. Qed.

(** ** C74: constant features *)
(** The constant features are the columns with one value in all rows, without the first column when that is constant (it
    belongs to the empty cluster). *)
Theorem C74_constant : forall m n, rectangular m (S n) -> m <> [] -> (forall i, (i < length m)%nat -> nth 0 (nth i m []) 0 = 1) ->
  exists cs, get_constant_features m = Some cs /\ StronglySorted lt cs /\
    forall c, In c cs <-> (0 < c <= n)%nat /\ forall i j, (i < length m)%nat -> (j < length m)%nat -> nth c (nth i m []) 0 = nth c (nth j m []) 0.
Proof.
  intros m n HR HN H0. unfold get_constant_features, constant_columns. destruct m as [|r0 m]; [congruence|]. cbn [option_bind].
  set (M := r0 :: m) in *. assert (L0 : length r0 = S n) by (apply HR; left; auto). rewrite L0.
  set (p := fun j => forallb (fun r => Qceqb (nth j r 0) (nth j r0 0)) M).
  assert (P : forall c, p c = true <-> forall i j, (i < length M)%nat -> (j < length M)%nat -> nth c (nth i M []) 0 = nth c (nth j M []) 0).
  { intros c. unfold p. rewrite forallb_forall. split.
    - intros H i j Hi Hj. assert (Q : forall k, (k < length M)%nat -> nth c (nth k M []) 0 = nth c r0 0).
      { intros k Hk. specialize (H _ (nth_In M [] Hk)). destruct (Qceqb_spec (nth c (nth k M []) 0) (nth c r0 0)); [auto|discriminate]. }
      rewrite !Q; auto.
    - intros H r Hr. apply (In_nth _ _ []) in Hr as (k & Hk & <-). destruct (Qceqb_spec (nth c (nth k M []) 0) (nth c r0 0)) as [|N]; auto. exfalso. apply N.
      apply (H k 0%nat); auto. simpl. lia. }
  assert (P0 : p 0%nat = true) by (apply P; intros i j Hi Hj; rewrite !H0; auto).
  exists (tl (filter p (seq 0 (S n)))). split; auto. cbn [seq filter]. rewrite P0. cbn [tl]. split; [apply sorted_filter, seq_sorted|].
  intros c. rewrite filter_In, in_seq, P. split; intros [Hc H]; split; auto; lia.
Qed.
Example C74_case : get_constant_features [[1; 0; 1; Qc_of_nat 2]; [1; 1; 1; Qc_of_nat 2]; [1; 0; 1; Qc_of_nat 2]] = Some [2; 3]%nat.
Proof. vm_compute. reflexivity. Qed.

Print Assumptions C47_duplicates_partial.
Print Assumptions C47_cutoffs_partial.
Print Assumptions C47_external_refuted.
Print Assumptions C47_matching_groups.
Print Assumptions C47_matching_partial.
Print Assumptions C47_decimals_refuted.
Print Assumptions C49_unique.
Print Assumptions C49_ewald.
Print Assumptions C49_minimum_kept.
Print Assumptions C49_energies_partial.
Print Assumptions C49_last_term_refuted.
Print Assumptions C49_above.
Print Assumptions C74_constant.
