From Verif Require Export SiteTable OccuUtilsSpec OccuUtilsProofs KernelSpec KernelProofs.
Set Implicit Arguments.
Unset Strict Implicit.
Open Scope nat_scope.

Definition vshape (t : vtable) (n m : nat) := length t = n /\ forall i row, nth_error t i = Some row -> length row = m.

Lemma nth_upd_same {A} (l : list A) i x : i < length l -> nth_error (upd l i x) i = Some x.
Proof. revert i; induction l as [|a l IH]; intros [|i] H; simpl in *; try lia; auto. apply IH; lia. Qed.
Lemma nth_upd_other {A} (l : list A) i j x : i <> j -> nth_error (upd l i x) j = nth_error l j.
Proof.
  revert i j; induction l as [|a l IH]; intros [|i] [|j] H; simpl; auto; try congruence.
Qed.

Lemma put_codes_spec enc : forall row vals,
  length vals = length enc -> NoDup enc -> (forall c, In c enc -> c < length row) ->
  exists row', put_codes row enc vals = Some row' /\ length row' = length row /\
    (forall p c v, nth_error enc p = Some c -> nth_error vals p = Some v -> nth_error row' c = Some v) /\
    (forall c, ~ In c enc -> nth_error row' c = nth_error row c).
Proof.
  induction enc as [|c enc IH]; intros row vals Hl Hnd Hc; simpl.
  - exists row. repeat split; auto. intros p c v Hp. destruct p; discriminate.
  - destruct vals as [|v vals]; [discriminate|].
    assert (E : c <? length row = true) by (apply Nat.ltb_lt; apply Hc; simpl; auto). rewrite E.
    inversion Hnd as [|? ? Hn Hnd']; subst.
    destruct (IH (upd row c v) vals) as (row' & E' & L & P & Q); auto.
    { intros c' H. rewrite length_upd. apply Hc; simpl; auto. }
    exists row'. split; auto. rewrite length_upd in L. split; auto. split.
    + intros [|p] c' v' Hp Hv; simpl in *.
      * injection Hp as <-. injection Hv as <-. rewrite Q by auto. apply nth_upd_same. apply Nat.ltb_lt; auto.
      * eauto.
    + intros c' H. rewrite Q by tauto. apply nth_upd_other. tauto.
Qed.

Lemma put_sites_spec sites : forall t n m enc vals,
  vshape t n m -> (forall s, In s sites -> s < n) -> length vals = length enc -> NoDup enc -> (forall c, In c enc -> c < m) ->
  exists t', put_sites t sites enc vals = Some t' /\ vshape t' n m /\
    (forall s p c v, In s sites -> nth_error enc p = Some c -> nth_error vals p = Some v -> get_val t' s c = Some v) /\
    (forall s c, ~ In s sites \/ ~ In c enc -> get_val t' s c = get_val t s c).
Proof.
  induction sites as [|s sites IH]; intros t n m enc vals [L R] Hs Hl Hnd Hc; simpl.
  - exists t. repeat split; auto. intros; contradiction.
  - destruct (nth_error t s) as [row|] eqn:Er.
    2:{ apply nth_error_None in Er. specialize (Hs s (or_introl eq_refl)). lia. }
    simpl. destruct (@put_codes_spec enc row vals) as (row' & E & L' & P & Q); auto.
    { intros c H. rewrite (R _ _ Er). auto. }
    rewrite E. simpl.
    assert (Hsl : s < length t) by (apply nth_error_Some; congruence).
    destruct (IH (upd t s row') n m enc vals) as (t' & Et & S & P' & Q'); auto.
    { split; [rewrite length_upd; auto|]. intros i r Hi. destruct (Nat.eq_dec s i) as [<-|Hne].
      - rewrite nth_upd_same in Hi by auto. injection Hi as <-. rewrite L'. eauto.
      - rewrite nth_upd_other in Hi by auto. eauto. }
    { intros; apply Hs; simpl; auto. }
    exists t'. split; auto. split; auto. split.
    + intros s' p c v Hin Hp Hv. destruct (in_dec Nat.eq_dec s' sites) as [Hi|Hi]; [eauto|].
      destruct Hin as [->|Hin]; [|contradiction]. rewrite Q' by auto.
      unfold get_val. rewrite nth_upd_same by auto. simpl. eauto.
    + intros s' c H. rewrite Q' by (simpl in H; tauto).
      unfold get_val. destruct (Nat.eq_dec s s') as [<-|Hne].
      * rewrite nth_upd_same, Er by auto. simpl. apply Q. destruct H as [H|H]; auto; simpl in H; tauto.
      * rewrite nth_upd_other by auto. auto.
Qed.

Definition bk_disjoint := ForallOrdPairs (fun a b => forall s, In s (bk_sites a) -> ~ In s (bk_sites b)).
Definition block_ok n m (b : block) :=
  (forall s, In s (bk_sites b) -> s < n) /\ length (bk_vals b) = length (bk_enc b) /\ NoDup (bk_enc b) /\
  (forall c, In c (bk_enc b) -> c < m).

Lemma bcast_exact vals k : length vals = k -> bcast vals k = Some vals.
Proof. intros <-. unfold bcast. rewrite Nat.eqb_refl. auto. Qed.

Lemma put_blocks_spec n m : forall bs t, vshape t n m -> (forall b, In b bs -> block_ok n m b) ->
  bk_disjoint bs ->
  exists t', put_blocks t bs = Some t' /\ vshape t' n m /\
    (forall b s p c v, In b bs -> In s (bk_sites b) -> nth_error (bk_enc b) p = Some c -> nth_error (bk_vals b) p = Some v ->
       get_val t' s c = Some v) /\
    (forall s c, (forall b, In b bs -> In s (bk_sites b) -> ~ In c (bk_enc b)) -> get_val t' s c = get_val t s c).
Proof.
  induction bs as [|b bs IH]; intros t S Hok Hd; simpl.
  - exists t. split; auto. split; auto. split; auto. intros; contradiction.
  - destruct (Hok b (or_introl eq_refl)) as (A & B & C & D).
    unfold put_block. rewrite bcast_exact by auto. simpl.
    destruct (@put_sites_spec (bk_sites b) t n m (bk_enc b) (bk_vals b) S A B C D) as (t1 & E1 & S1 & P1 & Q1).
    rewrite E1. simpl. inversion Hd as [|? ? Hd1 Hd2]; subst. rewrite Forall_forall in Hd1.
    destruct (IH t1 S1) as (t' & E & S' & P & Q); auto.
    { intros; apply Hok; simpl; auto. }
    exists t'. split; auto. split; auto. split.
    + intros b' s p c v [<-|Hin] Hs Hp Hv; [|eauto].
      rewrite Q; [eauto|]. intros b' Hb' Hs' _. apply (Hd1 b' Hb' s); auto.
    + intros s c H. rewrite Q.
      * apply Q1. destruct (in_dec Nat.eq_dec s (bk_sites b)) as [Hi|Hi]; [right; apply H; simpl; auto|left; auto].
      * intros b' Hb'. apply H. simpl; auto.
Qed.

Lemma vshape_repeat d n m : vshape (repeat (repeat d m) n) n m.
Proof.
  split; [apply repeat_length|]. intros i row H. apply nth_error_In, repeat_spec in H. subst. apply repeat_length.
Qed.
Lemma nth_repeat' {A} (x : A) n i : i < n -> nth_error (repeat x n) i = Some x.
Proof. revert i; induction n as [|n IH]; intros [|i] H; simpl; try lia; auto. apply IH; lia. Qed.
Lemma get_val_repeat d n m s c : s < n -> c < m -> get_val (repeat (repeat d m) n) s c = Some d.
Proof. intros Hs Hc. unfold get_val. rewrite nth_repeat' by auto. simpl. apply nth_repeat'; auto. Qed.

Theorem build_table_spec d n m bs : (forall b, In b bs -> block_ok n m b) -> bk_disjoint bs ->
  exists t, build_table d n m bs = Some t /\ vshape t n m /\
    (forall b s p c v, In b bs -> In s (bk_sites b) -> nth_error (bk_enc b) p = Some c -> nth_error (bk_vals b) p = Some v ->
       get_val t s c = Some v) /\
    (forall s c, s < n -> c < m -> (forall b, In b bs -> In s (bk_sites b) -> ~ In c (bk_enc b)) -> get_val t s c = Some d).
Proof.
  intros Hok Hd. destruct (@put_blocks_spec n m bs (repeat (repeat d m) n)) as (t & E & S & P & Q); auto.
  { apply vshape_repeat. }
  exists t. split; auto. split; auto. split; auto.
  intros s c Hs Hc H. rewrite Q by auto. apply get_val_repeat; auto.
Qed.

(** ** Sums over sites *)
Lemma opt_map_seq {A B} (f : nat * A -> option B) (g : nat -> B) : forall (l : list A) k,
  (forall i a, nth_error l i = Some a -> f (k + i, a) = Some (g (k + i))) ->
  opt_map f (combine (seq k (length l)) l) = Some (map g (seq k (length l))).
Proof.
  induction l as [|a l IH]; intros k H; simpl; auto.
  assert (E := H 0 a eq_refl). rewrite Nat.add_0_r in E. rewrite E. rewrite IH; auto.
  intros i b Hi. specialize (H (S i) b Hi). rewrite Nat.add_succ_r in H. auto.
Qed.

Definition val (t : vtable) s c : Qc := match get_val t s c with Some v => v | None => 0%Qc end.
Definition code (o : list nat) s := nth s o 0.
Definition all_defined (t : vtable) (o : list nat) := forall s c, nth_error o s = Some c -> get_val t s c <> None.

Lemma site_values_eq t o : all_defined t o ->
  site_values t o = Some (map (fun s => val t s (code o s)) (seq 0 (length o))).
Proof.
  intros H. unfold site_values. apply opt_map_seq. intros i c Hi. simpl.
  unfold val, code. rewrite (nth_error_nth _ _ 0 Hi). specialize (H i c Hi).
  destruct (get_val t i c); congruence.
Qed.

(** Changing the summand at one point. *)
Lemma qsum_point (f g : nat -> Qc) k l : NoDup l -> In k l -> (forall s, s <> k -> f s = g s) ->
  qsum (map f l) = (qsum (map g l) + (f k - g k))%Qc.
Proof.
  intros Hnd Hin H. induction l as [|a l IH]; [inversion Hin|]. inversion Hnd as [|? ? Hn Hnd']; subst.
  cbn [map qsum]. destruct (Nat.eq_dec a k) as [->|Hne].
  - assert (E : map f l = map g l).
    { apply map_ext_in. intros s Hs. apply H. intros ->. auto. }
    rewrite E. ring.
  - rewrite IH by (auto; destruct Hin; congruence). rewrite (H a Hne). ring.
Qed.
Lemma rsum_point (f g : nat -> R) k l : NoDup l -> In k l -> (forall s, s <> k -> f s = g s) ->
  rsum (map f l) = (rsum (map g l) + (f k - g k))%R.
Proof.
  intros Hnd Hin H. induction l as [|a l IH]; [inversion Hin|]. inversion Hnd as [|? ? Hn Hnd']; subst.
  cbn [map rsum]. destruct (Nat.eq_dec a k) as [->|Hne].
  - assert (E : map f l = map g l).
    { apply map_ext_in. intros s Hs. apply H. intros ->. auto. }
    rewrite E. lra.
  - rewrite IH by (auto; destruct Hin; congruence). rewrite (H a Hne). lra.
Qed.

(** A dictionary of flips applied to an occupancy. *)
Lemma code_upd o s c k : s < length o -> code (upd o s c) k = if k =? s then c else code o k.
Proof.
  intros H. unfold code. destruct (Nat.eqb_spec k s) as [->|Hne].
  - apply nth_error_nth. apply nth_upd_same; auto.
  - destruct (nth_error o k) as [x|] eqn:E.
    + rewrite (nth_error_nth _ _ _ E). apply nth_error_nth. rewrite nth_upd_other by auto. auto.
    + apply nth_error_None in E. rewrite !nth_overflow; auto. rewrite length_upd. auto.
Qed.

Lemma qsum_step (g : nat -> nat -> Qc) N : forall st o, length o = N -> (forall f, In f st -> fst f < N) ->
  NoDup (map fst st) ->
  (qsum (map (fun s => g s (code (apply_step o st) s)) (seq 0 N)) =
   qsum (map (fun s => g s (code o s)) (seq 0 N)) + qsum (map (fun f => g (fst f) (snd f) - g (fst f) (code o (fst f))) st))%Qc.
Proof.
  induction st as [|[s c] st IH]; intros o Hl Hs Hnd; cbn [map qsum].
  - simpl. ring.
  - simpl in Hnd. inversion Hnd as [|? ? Hn Hnd']; subst.
    change (apply_step o ((s, c) :: st)) with (apply_step (upd o s c) st).
    assert (Hlt : s < length o) by (apply (Hs (s, c)); simpl; auto).
    rewrite IH; auto; [|apply length_upd|intros; apply Hs; simpl; auto].
    rewrite (@qsum_point (fun x => g x (code (upd o s c) x)) (fun x => g x (code o x)) s).
    + rewrite code_upd, Nat.eqb_refl by auto. simpl fst; simpl snd.
      rewrite (map_ext_in (fun f => g (fst f) (snd f) - g (fst f) (code (upd o s c) (fst f)))%Qc
                (fun f => g (fst f) (snd f) - g (fst f) (code o (fst f)))%Qc st); [ring|].
      intros [s' c'] Hf. simpl. rewrite code_upd by auto. destruct (Nat.eqb_spec s' s) as [->|]; auto.
      exfalso. apply Hn. apply in_map_iff. exists (s, c'); auto.
    + apply seq_NoDup.
    + apply in_seq. lia.
    + intros x Hx. rewrite code_upd by auto. apply Nat.eqb_neq in Hx. rewrite Hx. auto.
Qed.
Lemma rsum_step (g : nat -> nat -> R) N : forall st o, length o = N -> (forall f, In f st -> fst f < N) ->
  NoDup (map fst st) ->
  (rsum (map (fun s => g s (code (apply_step o st) s)) (seq 0 N)) =
   rsum (map (fun s => g s (code o s)) (seq 0 N)) + rsum (map (fun f => g (fst f) (snd f) - g (fst f) (code o (fst f))) st))%R.
Proof.
  induction st as [|[s c] st IH]; intros o Hl Hs Hnd; cbn [map rsum].
  - simpl. lra.
  - simpl in Hnd. inversion Hnd as [|? ? Hn Hnd']; subst.
    change (apply_step o ((s, c) :: st)) with (apply_step (upd o s c) st).
    assert (Hlt : s < length o) by (apply (Hs (s, c)); simpl; auto).
    rewrite IH; auto; [|apply length_upd|intros; apply Hs; simpl; auto].
    rewrite (@rsum_point (fun x => g x (code (upd o s c) x)) (fun x => g x (code o x)) s).
    + rewrite code_upd, Nat.eqb_refl by auto. simpl fst; simpl snd.
      rewrite (map_ext_in (fun f => g (fst f) (snd f) - g (fst f) (code (upd o s c) (fst f)))%R
                (fun f => g (fst f) (snd f) - g (fst f) (code o (fst f)))%R st); [lra|].
      intros [s' c'] Hf. simpl. rewrite code_upd by auto. destruct (Nat.eqb_spec s' s) as [->|]; auto.
      exfalso. apply Hn. apply in_map_iff. exists (s, c'); auto.
    + apply seq_NoDup.
    + apply in_seq. lia.
    + intros x Hx. rewrite code_upd by auto. apply Nat.eqb_neq in Hx. rewrite Hx. auto.
Qed.

(** The dictionary of a step. *)
Lemma dict_put_keys d k v x : In x (map fst (dict_put d k v)) <-> x = k \/ In x (map fst d).
Proof.
  induction d as [|[k' v'] d IH]; simpl.
  - intuition.
  - destruct (Nat.eqb_spec k' k) as [->|H]; simpl; [intuition|]. rewrite IH. intuition.
Qed.
Lemma dict_put_nodup d k v : NoDup (map fst d) -> NoDup (map fst (dict_put d k v)).
Proof.
  induction d as [|[k' v'] d IH]; simpl; intros H.
  - constructor; auto.
  - inversion H as [|? ? Hn Hd]; subst. destruct (Nat.eqb_spec k' k) as [->|Hne]; simpl.
    + constructor; auto.
    + constructor; auto. rewrite dict_put_keys. intuition.
Qed.
Lemma upd_comm {A} (o : list A) i j a b : i <> j -> upd (upd o i a) j b = upd (upd o j b) i a.
Proof. revert i j; induction o as [|x o IH]; intros [|i] [|j] H; simpl; auto; try congruence. f_equal. apply IH. congruence. Qed.
Lemma upd_twice {A} (o : list A) i a b : upd (upd o i a) i b = upd o i b.
Proof. revert i; induction o as [|x o IH]; intros [|i]; simpl; auto. f_equal. auto. Qed.
Lemma apply_other st : forall o s c, ~ In s (map fst st) -> apply_step (upd o s c) st = upd (apply_step o st) s c.
Proof.
  induction st as [|[s' c'] st IH]; intros o s c H; simpl; auto.
  unfold apply_step in *. simpl in *. rewrite upd_comm by intuition. apply IH. intuition.
Qed.
Lemma apply_dict_put : forall d o k v, NoDup (map fst d) -> apply_step o (dict_put d k v) = upd (apply_step o d) k v.
Proof.
  induction d as [|[k' v'] d IH]; intros o k v H; simpl; auto.
  simpl in H. inversion H as [|? ? Hn Hd]; subst. destruct (Nat.eqb_spec k' k) as [->|Hne].
  - change (apply_step (upd o k v) d = upd (apply_step (upd o k v') d) k v).
    rewrite !apply_other by auto. rewrite upd_twice. auto.
  - change (apply_step (upd o k' v') (dict_put d k v) = upd (apply_step (upd o k' v') d) k v). apply IH. auto.
Qed.
Lemma step_dict_spec st : NoDup (map fst (step_dict st)) /\ (forall o, apply_step o (step_dict st) = apply_step o st) /\ (forall f, In f (step_dict st) -> In f st).
Proof.
  unfold step_dict.
  assert (G : forall st d, NoDup (map fst d) -> let d' := fold_left (fun d f => dict_put d (fst f) (snd f)) st d in
     NoDup (map fst d') /\ (forall o, apply_step o d' = apply_step (apply_step o d) st) /\ (forall f, In f d' -> In f d \/ In f st)).
  { clear st. induction st as [|[s c] st IH]; intros d Hd; cbn [fold_left].
    - repeat split; auto.
    - simpl fst; simpl snd. destruct (IH (dict_put d s c)) as (A & B & C); [apply dict_put_nodup; auto|].
      repeat split; auto.
      + intros o. rewrite B. rewrite apply_dict_put by auto. reflexivity.
      + intros f Hf. destruct (C f Hf) as [H|H]; [|simpl; auto].
        assert (P : forall d, In f (dict_put d s c) -> In f d \/ f = (s, c)).
        { clear. induction d as [|[k v] d IH]; simpl; [intuition|]. destruct (Nat.eqb_spec k s) as [->|]; simpl; intuition. }
        apply P in H. simpl. intuition. }
  destruct (G st [] (NoDup_nil _)) as (A & B & C). repeat split; auto.
  intros f Hf. destruct (C f Hf) as [[]|]; auto.
Qed.

(** ** Tables of layouts *)
Definition sl_disjoint := ForallOrdPairs (fun a b : sublattice => forall s, In s (sl_sites a) -> ~ In s (sl_sites b)).

Lemma disjoint_FOP sls : disjoint_sites sl_sites sls -> sl_disjoint sls.
Proof.
  induction sls as [|sl sls IH]; simpl; intros H; constructor.
  - destruct H as [H _]. apply Forall_forall. intros b Hb s Hs. eauto.
  - apply IH. tauto.
Qed.
Lemma layout_disjoint sls N : layout sls N -> sl_disjoint sls.
Proof.
  intros L. apply disjoint_FOP, NoDup_concat_disjoint.
  eapply Permutation_NoDup; [apply Permutation_sym, (lay_sites L)|apply seq_NoDup].
Qed.
Lemma FOP_filter {A} (R : A -> A -> Prop) f l : ForallOrdPairs R l -> ForallOrdPairs R (filter f l).
Proof.
  induction 1 as [|a l Ha H IH]; simpl; [constructor|]. destruct (f a); auto. constructor; auto.
  rewrite Forall_forall in *. intros x Hx. apply filter_In in Hx. apply Ha; tauto.
Qed.
Lemma FOP_firstn {A} (R : A -> A -> Prop) k l : ForallOrdPairs R l -> ForallOrdPairs R (firstn k l).
Proof.
  intros H. revert k. induction H as [|a l Ha H IH]; intros [|k]; simpl; try constructor; auto.
  rewrite Forall_forall in *. intros x Hx. apply Ha. rewrite <- (firstn_skipn k l). apply in_or_app; auto.
Qed.
Lemma layout_rows sls N : layout sls N -> num_rows sls = N.
Proof.
  intros L. unfold num_rows. rewrite list_sum_length. rewrite (Permutation_length (lay_sites L)). apply seq_length.
Qed.
Lemma layout_cols sls N : layout sls N -> num_cols sls = Some (n_cols sls).
Proof.
  intros L. unfold num_cols, n_cols. destruct sls as [|sl sls].
  { destruct (lay_nonempty L). auto. }
  assert (E : existsb (fun sl => length (sl_encoding sl) =? 0) (sl :: sls) = false).
  { apply not_true_iff_false. intros H. apply existsb_exists in H as (x & Hx & E). apply Nat.eqb_eq in E.
    destruct (lay_codes L _ Hx) as [_ Hne]. destruct (sl_encoding x); auto. discriminate. }
  rewrite E. reflexivity.
Qed.
Lemma code_lt_cols sls sl c : In sl sls -> In c (sl_encoding sl) -> c < n_cols sls.
Proof.
  intros Hin Hc. unfold n_cols. assert (c <= max_list (sl_encoding sl)) by (apply max_list_ge; auto).
  assert (max_list (sl_encoding sl) <= max_list (map (fun sl => max_list (sl_encoding sl)) sls)).
  { apply max_list_ge. apply in_map_iff. eauto. }
  lia.
Qed.

Theorem layout_table sls N (dflt : Qc) (pairs : list (sublattice * list Qc)) :
  layout sls N -> (forall sl vals, In (sl, vals) pairs -> In sl sls /\ length vals = length (sl_encoding sl)) ->
  sl_disjoint (map fst pairs) ->
  exists t, build_table dflt N (n_cols sls) (map (fun p => mkBlock (sl_sites (fst p)) (sl_encoding (fst p)) (snd p)) pairs) = Some t /\
    (forall sl vals s p c v, In (sl, vals) pairs -> In s (sl_sites sl) -> nth_error (sl_encoding sl) p = Some c ->
       nth_error vals p = Some v -> get_val t s c = Some v) /\
    (forall s c, s < N -> c < n_cols sls -> (forall sl, In sl (map fst pairs) -> ~ In s (sl_sites sl)) -> get_val t s c = Some dflt).
Proof.
  intros L Hp Hd.
  destruct (@build_table_spec dflt N (n_cols sls) (map (fun p => mkBlock (sl_sites (fst p)) (sl_encoding (fst p)) (snd p)) pairs))
    as (t & E & _ & P & Q).
  - intros b Hb. apply in_map_iff in Hb as ([sl vals] & <- & Hin). destruct (Hp sl vals Hin) as [Hs Hl].
    repeat split; simpl; auto.
    + intros s. intros Hs1; apply (@layout_site_lt sls N sl s L Hs Hs1).
    + apply (lay_codes L); auto.
    + intros c. apply code_lt_cols; auto.
  - unfold bk_disjoint. revert Hd. clear. induction pairs as [|[sl vals] pairs IH]; simpl; intros H; constructor.
    + inversion H as [|? ? Ha _]; subst. rewrite Forall_forall in *. intros b Hb. apply in_map_iff in Hb as (p & <- & Hp). simpl.
      apply Ha. apply in_map; auto.
    + apply IH. inversion H; auto.
  - exists t. split; auto. split.
    + intros sl vals s p c v Hin Hs Hc Hv.
      apply (P (mkBlock (sl_sites sl) (sl_encoding sl) vals) s p c v); auto.
      apply in_map_iff. exists (sl, vals); auto.
    + intros s c Hs Hc H. apply Q; auto. intros b Hb Hsb. exfalso.
      apply in_map_iff in Hb as ([sl vals] & <- & Hin). simpl in Hsb. apply (H sl); auto. apply in_map_iff. exists (sl, vals); auto.
Qed.

(** Every cell of an allowed code is defined, for tables as above. *)
Lemma valid_step_occu sls N o st : layout sls N -> valid_occu sls N o ->
  (forall s c, In (s, c) st -> exists sl, In sl sls /\ In s (sl_sites sl) /\ In c (sl_encoding sl)) ->
  valid_occu sls N (apply_step o st).
Proof.
  intros L V H. revert o V. induction st as [|[s c] st IH]; intros o V; auto.
  change (apply_step o ((s, c) :: st)) with (apply_step (upd o s c) st). apply IH.
  - intros; apply H; simpl; auto.
  - destruct V as [Vl Vc]. split; [rewrite length_upd; auto|]. intros sl s' Hin Hs'.
    destruct (Nat.eq_dec s s') as [<-|Hne].
    + exists c. assert (s < length o) by (rewrite Vl; apply (@layout_site_lt sls N sl s L Hin Hs')).
      rewrite nth_upd_same by auto. split; auto.
      destruct (H s c (or_introl eq_refl)) as (sl' & Hin' & Hs & Hc).
      apply In_nth_error in Hin as (k & Hk). apply In_nth_error in Hin' as (k' & Hk').
      assert (k = k') by (eapply layout_unique; eauto). subst. congruence.
    + rewrite nth_upd_other by auto. auto.
Qed.
Lemma sp_lookup_In sp d v : sp_lookup sp d = Some v -> In (sp, v) d.
Proof.
  induction d as [|[k w] d IH]; simpl; [discriminate|]. destruct (sp_eqb k sp) eqn:E.
  - intros H; injection H as <-. left. f_equal. destruct k, sp; simpl in E; try discriminate; auto. apply Nat.eqb_eq in E. congruence.
  - auto.
Qed.
Lemma sp_eqb_eq a b : sp_eqb a b = true <-> a = b.
Proof. destruct a, b; simpl; split; intros H; try discriminate; auto; [apply Nat.eqb_eq in H; congruence|injection H as ->; apply Nat.eqb_refl]. Qed.
Lemma sp_mem_In a l : sp_mem a l = true <-> In a l.
Proof.
  unfold sp_mem. rewrite existsb_exists. split.
  - intros (x & Hx & E). apply sp_eqb_eq in E. congruence.
  - intros H. exists a. split; auto. apply sp_eqb_eq; auto.
Qed.
Lemma sp_lookup_defined sp d : In sp (map fst d) -> exists v, sp_lookup sp d = Some v.
Proof.
  induction d as [|[k w] d IH]; simpl; [tauto|]. intros H. destruct (sp_eqb k sp) eqn:E; eauto.
  destruct H as [->|H]; auto. rewrite (proj2 (sp_eqb_eq sp sp)) in E by auto. discriminate.
Qed.
Lemma same_species_spec a b : same_species a b = true <-> forall x, In x a <-> In x b.
Proof.
  unfold same_species. rewrite andb_true_iff, !forallb_forall. split.
  - intros [H1 H2] x. split; intros H; apply sp_mem_In; auto.
  - intros H. split; intros x Hx; apply sp_mem_In; apply H; auto.
Qed.
Lemma species_values_spec d sl : (forall sp, In sp (sl_species sl) -> In sp (map fst d)) ->
  exists vals, species_values d sl = Some vals /\ length vals = length (sl_species sl) /\
    forall p sp, nth_error (sl_species sl) p = Some sp -> nth_error vals p = sp_lookup sp d.
Proof.
  intros H. unfold species_values.
  destruct (@opt_map_all _ _ (fun sp => sp_lookup sp d) (sl_species sl)) as (vals & E).
  { intros sp Hs. destruct (sp_lookup_defined (H sp Hs)) as (v & Hv). congruence. }
  exists vals. split; auto. split; [apply (@opt_map_length _ _ _ _ _ E)|].
  intros p sp Hp. destruct (@opt_map_nth _ _ _ _ _ _ _ E Hp) as (v & Hv & Hn). congruence.
Qed.
