(** C48: entries, properties, weights and index sets of a wrangler stay aligned. *)
From Verif Require Export Wrangler.
From Verif Require Import LibProofs.
Set Implicit Arguments.
Unset Strict Implicit.
Local Open Scope Qc_scope.

(** ** Specification *)
(** The value entry [e] holds under a name. *)
Definition prop_of (e : entry) (k : nat) : option Qc := option_bind (en_props e) (dget k).
Definition wt_of (e : entry) (k : nat) : option Qc := option_bind (en_wts e) (dget k).
(** A dictionary with some names. *)
Definition names (d : option dict) (P : list nat) : Prop :=
  exists p, d = Some p /\ NoDup (dkeys p) /\ forall k, In k (dkeys p) <-> In k P.
(** All entries have the same property names and the same weight names. *)
Definition uniform (es : list entry) : Prop :=
  exists P W, forall e, In e es -> names (en_props e) P /\ names (en_wts e) W.
Definition has_name (get : entry -> option dict) (es : list entry) (k : nat) : Prop :=
  exists e d, In e es /\ get e = Some d /\ In k (dkeys d).
(** An operation that gives new entries the names of the present ones: entries are added without data of their own, with
    the same properties and weights as those present; appended entries carry both dictionaries. *)
Definition complete (w : wrangler) (o : op) : Prop :=
  match o with
  | AddEntry e props wts _ _ => en_props e = None /\ en_wts e = None /\
      NoDup (dkeys (or_empty props)) /\ NoDup (dkeys (or_empty wts)) /\
      (w_entries w <> [] -> (forall k, In k (dkeys (or_empty props)) <-> has_name en_props (w_entries w) k) /\
                            (forall k, In k (dkeys (or_empty wts)) <-> has_name en_wts (w_entries w) k))
  | Append es => forall e, In e es -> (exists p, en_props e = Some p /\ NoDup (dkeys p)) /\ (exists p, en_wts e = Some p /\ NoDup (dkeys p))
  | _ => True
  end.
Fixpoint complete_run (w : wrangler) (ops : list op) : Prop :=
  match ops with [] => True | o :: ops' => complete w o /\ complete_run (fst (w_step w o)) ops' end.
(** Operations that take entries away. *)
Definition removes (o : op) : bool := match o with RemoveEntry _ | RemoveAll => true | _ => false end.

(** ** Dictionaries *)
Lemma dget_In k d : (exists v, dget k d = Some v) <-> In k (dkeys d).
Proof.
  induction d as [|[k' v'] d IH]; simpl; [split; [intros (v & H); discriminate|tauto]|]. destruct (Nat.eqb_spec k' k) as [->|N]; [split; eauto|]. rewrite IH. intuition.
Qed.
Lemma dkeys_dset k v d x : In x (dkeys (dset k v d)) <-> x = k \/ In x (dkeys d).
Proof. induction d as [|[k' v'] d IH]; simpl; [intuition|]. destruct (Nat.eqb_spec k' k) as [->|N]; simpl; [intuition|]. unfold dkeys in IH. rewrite IH. intuition. Qed.
Lemma dset_nodup k v d : NoDup (dkeys d) -> NoDup (dkeys (dset k v d)).
Proof.
  induction d as [|[k' v'] d IH]; simpl; intros N; [repeat constructor; auto|]. apply NoDup_cons_iff in N as [N0 N]. destruct (Nat.eqb_spec k' k) as [->|D]; simpl; [constructor; auto|].
  constructor; auto. intros H. apply dkeys_dset in H as [->|H]; auto.
Qed.
Lemma dget_dset k v d x : dget x (dset k v d) = if (k =? x)%nat then Some v else dget x d.
Proof.
  induction d as [|[k' v'] d IH]; simpl; auto. destruct (Nat.eqb_spec k' k) as [->|N]; simpl.
  - destruct (Nat.eqb_spec k x); auto.
  - rewrite IH. destruct (Nat.eqb_spec k' x) as [->|]; auto. destruct (Nat.eqb_spec k x); congruence.
Qed.
Lemma dget_ddel k d x : dget x (ddel k d) = if (k =? x)%nat then None else dget x d.
Proof.
  induction d as [|[k' v'] d IH]; simpl; [destruct (k =? x)%nat; auto|]. destruct (Nat.eqb_spec k' k) as [->|N]; simpl; rewrite IH.
  - destruct (Nat.eqb_spec k x); auto.
  - destruct (Nat.eqb_spec k' x) as [->|]; auto. destruct (Nat.eqb_spec k x); congruence.
Qed.
Lemma dkeys_ddel k d x : In x (dkeys (ddel k d)) <-> x <> k /\ In x (dkeys d).
Proof.
  rewrite <- !dget_In, dget_ddel. destruct (Nat.eqb_spec k x) as [->|N]; split.
  - intros (v & H). discriminate.
  - tauto.
  - intros H. split; auto.
  - tauto.
Qed.
Lemma NoDup_map_filter {A B} (f : A -> B) (g : A -> bool) l : NoDup (map f l) -> NoDup (map f (filter g l)).
Proof.
  induction l as [|x l IH]; simpl; auto. intros N. apply NoDup_cons_iff in N as [N0 N]. destruct (g x); simpl; auto. constructor; auto.
  intros H. apply N0. apply in_map_iff in H as (y & E & Hy). apply filter_In in Hy as [Hy _]. apply in_map_iff. eauto.
Qed.
Lemma same_keys_iff a b : same_keys a b = true <-> forall k, In k a <-> In k b.
Proof.
  unfold same_keys. rewrite andb_true_iff, !forallb_forall. split.
  - intros [H1 H2] k. split; intros H; [apply H1 in H|apply H2 in H]; apply existsb_exists in H as (y & Hy & E); apply Nat.eqb_eq in E; subst; auto.
  - intros H. split; intros k Hk; apply existsb_exists; exists k; (split; [apply H; auto|apply Nat.eqb_refl]).
Qed.

(** ** The invariant *)
Section Names.
Variable get : entry -> option dict.
Definition all_names es P := forall e, In e es -> names (get e) P.
Lemma available_some es P : all_names es P -> exists av, available get es = Some av /\ forall k, In k av <-> has_name get es k.
Proof.
  intros H. unfold available.
  assert (exists ds, opt_map get es = Some ds /\ forall k, (exists d, In d ds /\ In k (dkeys d)) <-> has_name get es k) as (ds & -> & E).
  { induction es as [|e es IH]; simpl; [exists []; split; auto; intros k; split; [intros (d & [] & _)|intros (e & d & [] & _)]|].
    destruct (H e (or_introl eq_refl)) as (p & Ep & _). rewrite Ep. destruct IH as (ds & -> & E); [intros e' He'; apply H; right; auto|].
    exists (p :: ds). split; auto. intros k. split.
    - intros (d & [<-|Hd] & Hk); [exists e, p; simpl; auto|]. destruct (proj1 (E k)) as (e' & d' & He' & Ed' & Hk'); [eauto|]. exists e', d'. simpl; auto.
    - intros (e' & d' & [<-|He'] & Ed' & Hk').
      + rewrite Ep in Ed'. injection Ed' as <-. exists p. simpl; auto.
      + destruct (proj2 (E k)) as (d & Hd & Hk); [exists e', d'; auto|]. exists d. simpl; auto. }
  cbn [option_bind]. eexists. split; [reflexivity|]. intros k. rewrite nodup_In, in_flat_map. apply E.
Qed.
Lemma has_name_all es P k : es <> [] -> all_names es P -> (has_name get es k <-> In k P).
Proof.
  intros NE H. split.
  - intros (e & d & He & Ed & Hk). destruct (H e He) as (p & Ep & _ & E). rewrite Ep in Ed. injection Ed as <-. apply E; auto.
  - intros Hk. destruct es as [|e es]; [congruence|]. destruct (H e (or_introl eq_refl)) as (p & Ep & _ & E). exists e, p. split; [left; auto|]. split; auto. apply E; auto.
Qed.
End Names.

Lemma uniform_two es : uniform es <-> exists P W, all_names en_props es P /\ all_names en_wts es W.
Proof. split; intros (P & W & H); exists P, W; [split; intros e He; apply H, He|intros e He; split; apply H, He]. Qed.
Lemma uniform_nil : uniform [].
Proof. exists [], []. intros e []. Qed.
Lemma uniform_app es e p w : uniform es -> en_props e = Some p -> en_wts e = Some w -> NoDup (dkeys p) -> NoDup (dkeys w) ->
  (es <> [] -> (forall k, In k (dkeys p) <-> has_name en_props es k) /\ (forall k, In k (dkeys w) <-> has_name en_wts es k)) -> uniform (es ++ [e]).
Proof.
  intros U Ep Ew Np Nw H. destruct es as [|e0 es].
  - exists (dkeys p), (dkeys w). intros x [<-|[]]. split; [exists p|exists w]; split; auto; split; auto; tauto.
  - destruct (H ltac:(discriminate)) as [H1 H2]. apply uniform_two in U as (P & W & UP & UW). set (l := e0 :: es) in *. assert (NE : l <> []) by discriminate.
    exists P, W. intros x Hx. apply in_app_iff in Hx as [Hx|[<-|[]]]; [split; [apply UP|apply UW]; auto|]. split; [exists p|exists w]; split; auto; split; auto; intros k.
    + rewrite H1. apply has_name_all; auto.
    + rewrite H2. apply has_name_all; auto.
Qed.

Lemma each_spec f vs es : (forall v e, In e es -> exists e', f v e = Some e') -> length es = length vs ->
  exists r, each f vs es = (r, true) /\ Forall2 (fun p e' => f (fst p) (snd p) = Some e') (combine vs es) r.
Proof.
  revert es. induction vs as [|v vs IH]; intros [|e es] H L; try discriminate; simpl; [exists []; split; auto|].
  destruct (H v e (or_introl eq_refl)) as (e' & E). rewrite E. destruct (IH es) as (r & -> & F); [intros; apply H; right; auto|simpl in L; lia|]. exists (e' :: r). split; auto.
Qed.
Lemma Forall2_In_r {A B} (R : A -> B -> Prop) l1 l2 y : Forall2 R l1 l2 -> In y l2 -> exists x, In x l1 /\ R x y.
Proof. induction 1 as [|a b l1 l2 H F IH]; intros []; [subst; exists a; simpl; auto|destruct (IH H0) as (x & ? & ?); exists x; simpl; auto]. Qed.

Lemma remove_property_spec k es P : all_names en_props es P ->
  Forall2 (fun e e' => en_key e' = en_key e /\ en_attr e' = en_attr e /\ en_size e' = en_size e /\ en_wts e' = en_wts e /\
    exists d d', en_props e = Some d /\ en_props e' = Some d' /\ NoDup (dkeys d') /\ forall x, dget x d' = if (k =? x)%nat then None else dget x d) es (remove_property k es).
Proof.
  intros H. destruct (in_dec Nat.eq_dec k P) as [I|I].
  - induction es as [|e es IH]; simpl; [constructor|]. destruct (H e (or_introl eq_refl)) as (p & Ep & Np & E). rewrite Ep.
    destruct (proj2 (dget_In k p)) as (v & Ev); [apply E; auto|]. rewrite Ev. constructor; [|apply IH; intros e' He'; apply H; right; auto].
    cbn [en_key en_attr en_size en_wts en_props]. do 4 (split; auto). exists p, (ddel k p). split; auto. split; auto. split; [apply NoDup_map_filter; auto|]. intros x. apply dget_ddel.
  - assert (N : remove_property k es = es).
    { destruct es as [|e es]; auto. simpl. destruct (H e (or_introl eq_refl)) as (p & Ep & Np & E). rewrite Ep. destruct (dget k p) as [v|] eqn:Ev; auto. exfalso. apply I, E, dget_In. eauto. }
    rewrite N. clear N. induction es as [|e es IH]; constructor; [|apply IH; intros e' He'; apply H; right; auto].
    do 4 (split; auto). destruct (H e (or_introl eq_refl)) as (p & Ep & Np & E). exists p, p. split; auto. split; auto. split; auto.
    intros x. destruct (Nat.eqb_spec k x) as [<-|]; auto. destruct (dget k p) as [v|] eqn:Ev; auto. exfalso. apply I, E, dget_In. eauto.
Qed.
Lemma remove_property_names k es P : all_names en_props es P -> all_names en_props (remove_property k es) (filter (fun x => negb (x =? k)%nat) P).
Proof.
  intros H e' He'. destruct (Forall2_In_r (@remove_property_spec k es P H) He') as (e & He & _ & _ & _ & _ & d & d' & Ed & Ed' & N & G).
  destruct (H e He) as (p & Ep & Np & E). rewrite Ep in Ed. injection Ed as <-. exists d'. split; auto. split; auto. intros x.
  rewrite <- dget_In, G, filter_In, negb_true_iff, Nat.eqb_neq. destruct (Nat.eqb_spec k x) as [->|D].
  - split; [intros (v & Hv); discriminate|]. tauto.
  - rewrite dget_In, E. intuition.
Qed.
Lemma remove_property_wts k es P W : all_names en_props es P -> all_names en_wts es W -> all_names en_wts (remove_property k es) W.
Proof.
  intros H HW e' He'. destruct (Forall2_In_r (@remove_property_spec k es P H) He') as (e & He & _ & _ & _ & Ew & _). rewrite Ew. apply HW, He.
Qed.

Lemma step_uniform w o : uniform (w_entries w) -> complete w o -> uniform (w_entries (fst (w_step w o))).
Proof.
  intros U C. destruct o as [e props wts m rf|es|k v|k v|ks|key| |name inds]; simpl.
  - destruct C as (C1 & C2 & C3 & C4 & C5). unfold process_entry. destruct (match w_entries w with [] => _ | _ => _ end) as [ok|]; simpl; auto.
    destruct ok; simpl; auto. destruct m; simpl; [|destruct rf; auto]. rewrite C1, C2. simpl. eapply uniform_app; simpl; eauto.
  - destruct (append_entries (w_entries w) es) as [r ok] eqn:E. simpl. simpl in C. revert r ok E. generalize (w_entries w), U. clear U w.
    induction es as [|e es IH]; intros l U r ok E; simpl in E; [injection E as <- <-; auto|]. destruct (fits l e) eqn:F; [|injection E as <- <-; auto].
    refine (IH _ (l ++ [e]) _ r ok E); [intros e' He'; apply C; right; auto|]. destruct (C e (or_introl eq_refl)) as [(p & Ep & Np) (q & Eq & Nq)].
    eapply uniform_app; eauto. intros NE. unfold fits in F. apply andb_true_iff in F as [_ F]. destruct l as [|e0 l]; [congruence|]. rewrite Ep, Eq in F.
    apply uniform_two in U as (P & W & UP & UW). destruct (available_some UP) as (ap & Ea & Ha). destruct (available_some UW) as (aw & Eb & Hb). rewrite Ea, Eb in F.
    apply andb_true_iff in F as [F1 F2]. rewrite same_keys_iff in F1, F2. split; intros x; [rewrite F1; apply Ha|rewrite F2; apply Hb].
  - unfold add_vector. destruct (Nat.eqb_spec (length (w_entries w)) (length v)) as [L|L]; [|simpl; auto].
    apply uniform_two in U as (P & W & UP & UW). destruct (@each_spec (set_wt k) v (w_entries w)) as (r & E & F); auto.
    { intros x e He. destruct (UW e He) as (q & Eq & _). unfold set_wt. rewrite Eq. simpl. eauto. }
    rewrite E. simpl. exists P, (k :: W). intros e' He'. destruct (Forall2_In_r F He') as ([x e] & He & Es). simpl in Es. apply in_combine_r in He.
    destruct (UW e He) as (q & Eq & Nq & HQ). unfold set_wt in Es. rewrite Eq in Es. injection Es as <-. cbn [en_props en_wts]. split; [apply UP, He|].
    exists (dset k x q). split; auto. split; [apply dset_nodup, Nq|]. intros y. rewrite dkeys_dset, HQ. simpl. intuition.
  - unfold add_vector. destruct (Nat.eqb_spec (length (w_entries w)) (length v)) as [L|L]; [|simpl; auto].
    apply uniform_two in U as (P & W & UP & UW). destruct (@each_spec (set_prop k) v (w_entries w)) as (r & E & F); auto.
    { intros x e He. destruct (UP e He) as (q & Eq & _). unfold set_prop. rewrite Eq. simpl. eauto. }
    rewrite E. simpl. exists (k :: P), W. intros e' He'. destruct (Forall2_In_r F He') as ([x e] & He & Es). simpl in Es. apply in_combine_r in He.
    destruct (UP e He) as (q & Eq & Nq & HQ). unfold set_prop in Es. rewrite Eq in Es. injection Es as <-. cbn [en_props en_wts]. split; [|apply UW, He].
    exists (dset k x q). split; auto. split; [apply dset_nodup, Nq|]. intros y. rewrite dkeys_dset, HQ. simpl. intuition.
  - apply uniform_two in U as (P & W & UP & UW). revert P UP UW. generalize (w_entries w). clear C. induction ks as [|k ks IH]; intros es P UP UW; simpl.
    + apply uniform_two. eauto.
    + eapply IH; [apply remove_property_names, UP|]. eapply remove_property_wts; eauto.
  - destruct U as (P & W & U). exists P, W. intros e He. apply U. clear - He. induction (w_entries w) as [|a l IH]; simpl in *; auto. destruct (en_key a =? key)%nat; [right; auto|].
    destruct He as [->|He]; [left; auto|right; auto].
  - apply uniform_nil.
  - destruct (forallb _ inds); auto.
Qed.
Lemma run_uniform ops : complete_run w_empty ops -> uniform (w_entries (w_run ops)).
Proof.
  unfold w_run. intros C. assert (U : uniform (w_entries w_empty)) by apply uniform_nil. revert C U. generalize w_empty. induction ops as [|o ops IH]; intros w C U; simpl; auto.
  destruct C as [C1 C2]. apply IH; auto. apply step_uniform; auto.
Qed.

(** ** C48 *)
Lemma vector_of es P k : all_names en_props es P -> has_name en_props es k ->
  exists v, property_vector es k false = Some v /\ length v = length es /\ forall i e, nth_error es i = Some e -> nth_error v i = prop_of e k /\ exists x, prop_of e k = Some x.
Proof.
  intros UP HN. unfold property_vector. destruct (available_some UP) as (av & Ea & Ha). rewrite Ea. cbn [option_bind].
  assert (X : existsb (Nat.eqb k) av = true) by (apply existsb_exists; exists k; split; [apply Ha; auto|apply Nat.eqb_refl]). rewrite X.
  assert (NE : es <> []) by (destruct HN as (e & d & He & _); intros ->; contradiction).
  assert (IP : In k P) by (apply (has_name_all k NE UP); auto). clear - UP IP.
  assert (exists v, opt_map (fun e => let? d := en_props e in dget k d) es = Some v /\ length v = length es /\
     forall i e, nth_error es i = Some e -> nth_error v i = prop_of e k /\ exists x, prop_of e k = Some x) as (v & E & L & H); [|rewrite E; cbn [option_bind]; eauto].
  induction es as [|e es IH]; simpl; [exists []; split; auto; split; auto; intros [|i] e H; discriminate|].
  destruct (UP e (or_introl eq_refl)) as (p & Ep & Np & E). destruct (proj2 (dget_In k p)) as (x & Ex); [apply E; auto|].
  destruct IH as (v & Ev & L & H); [intros e' He'; apply UP; right; auto|]. rewrite Ev, Ep. cbn [option_bind]. rewrite Ex. exists (x :: v). split; auto. split; [simpl; auto|].
  intros [|i] e' H'; simpl in *; auto. injection H' as <-. unfold prop_of. rewrite Ep. simpl. rewrite Ex. eauto.
Qed.
Lemma weights_of es W k : all_names en_wts es W -> has_name en_wts es k ->
  exists v, weight_vector es k = Some v /\ length v = length es /\ forall i e, nth_error es i = Some e -> nth_error v i = wt_of e k /\ exists x, wt_of e k = Some x.
Proof.
  intros UP HN. assert (NE : es <> []) by (destruct HN as (e & d & He & _); intros ->; contradiction).
  assert (IP : In k W) by (apply (has_name_all k NE UP); auto). clear - UP IP. unfold weight_vector.
  induction es as [|e es IH]; simpl; [exists []; split; auto; split; auto; intros [|i] e H; discriminate|].
  destruct (UP e (or_introl eq_refl)) as (p & Ep & Np & E). destruct (proj2 (dget_In k p)) as (x & Ex); [apply E; auto|].
  destruct IH as (v & Ev & L & H); [intros e' He'; apply UP; right; auto|]. rewrite Ev, Ep. cbn [option_bind]. rewrite Ex. exists (x :: v). split; auto. split; [simpl; auto|].
  intros [|i] e' H'; simpl in *; auto. injection H' as <-. unfold wt_of. rewrite Ep. simpl. rewrite Ex. eauto.
Qed.

(** After any history in which entries are added with the names of the present ones, every available property and weight
    has one value per entry, the one that entry holds.
    Missing: entries added with other names, for which the claim is false. *)
Theorem C48_aligned_partial : forall ops, complete_run w_empty ops -> let es := w_entries (w_run ops) in
  (forall k, has_name en_props es k -> exists v, property_vector es k false = Some v /\ length v = length es /\
     forall i e, nth_error es i = Some e -> nth_error v i = prop_of e k /\ exists x, prop_of e k = Some x) /\
  (forall k, has_name en_wts es k -> exists v, weight_vector es k = Some v /\ length v = length es /\
     forall i e, nth_error es i = Some e -> nth_error v i = wt_of e k /\ exists x, wt_of e k = Some x).
Proof.
  intros ops C es. pose proof (run_uniform C) as U. fold es in U. apply uniform_two in U as (P & W & UP & UW). split; intros k H; [eapply vector_of|eapply weights_of]; eauto.
Qed.

(** Normalised vectors divide by the sizes. *)
Theorem C48_normalized : forall es k v, property_vector es k false = Some v -> property_vector es k true = Some (map (fun p => fst p / snd p) (combine v (map en_size es))).
Proof.
  intros es k v H. unfold property_vector in *. destruct (available en_props es); [|discriminate]. cbn [option_bind] in *. destruct (if existsb _ _ then _ else _) as [vs|]; [|discriminate].
  cbn [option_bind] in *. injection H as <-. reflexivity.
Qed.

(** Values that were added are read back, the others stay. *)
Lemma prop_of_set k x e e' y : set_prop k x e = Some e' -> prop_of e' y = (if (k =? y)%nat then Some x else prop_of e y) /\ wt_of e' y = wt_of e y /\ en_key e' = en_key e /\ en_size e' = en_size e /\ en_attr e' = en_attr e.
Proof. unfold set_prop, prop_of, wt_of. destruct (en_props e) as [d|]; [|discriminate]. intros [= <-]. cbn [en_props en_wts en_key en_size en_attr option_bind]. rewrite dget_dset. auto. Qed.
Lemma wt_of_set k x e e' y : set_wt k x e = Some e' -> wt_of e' y = (if (k =? y)%nat then Some x else wt_of e y) /\ prop_of e' y = prop_of e y /\ en_key e' = en_key e /\ en_size e' = en_size e /\ en_attr e' = en_attr e.
Proof. unfold set_wt, prop_of, wt_of. destruct (en_wts e) as [d|]; [|discriminate]. intros [= <-]. cbn [en_props en_wts en_key en_size en_attr option_bind]. rewrite dget_dset. auto. Qed.

Lemma each_nth (f : Qc -> entry -> option entry) vs es r i : length es = length vs -> Forall2 (fun p e' => f (fst p) (snd p) = Some e') (combine vs es) r ->
  length r = length es /\ forall e, nth_error es i = Some e -> exists x e', nth_error vs i = Some x /\ nth_error r i = Some e' /\ f x e = Some e'.
Proof.
  intros L F. split; [apply Forall2_length in F; rewrite combine_length in F; lia|].
  revert vs r L F i. induction es as [|a es IH]; intros [|v vs] r L F i e H; try discriminate; [destruct i; discriminate|]. simpl in F. inversion F as [|? b ? r' H1 H2]; subst.
  destruct i as [|i]; simpl in *; [injection H as <-; eauto|]. eapply IH; eauto.
Qed.
Theorem C48_add_properties : forall w k v, uniform (w_entries w) ->
  let '(w', ok) := w_step w (AddProps k v) in
  w_inds w' = w_inds w /\ length (w_entries w') = length (w_entries w) /\
  (ok = true <-> length v = length (w_entries w)) /\
  if ok then forall i e, nth_error (w_entries w) i = Some e -> exists e' x, nth_error (w_entries w') i = Some e' /\ nth_error v i = Some x /\ en_key e' = en_key e /\
      (forall y, prop_of e' y = if (k =? y)%nat then Some x else prop_of e y) /\ (forall y, wt_of e' y = wt_of e y)
  else w' = w.
Proof.
  intros w k v U. unfold w_step, add_vector. destruct (Nat.eqb_spec (length (w_entries w)) (length v)) as [L|L].
  - apply uniform_two in U as (P & W & UP & UW). destruct (@each_spec (set_prop k) v (w_entries w)) as (r & E & F); auto.
    { intros x e He. destruct (UP e He) as (q & Eq & _). unfold set_prop. rewrite Eq. simpl. eauto. }
    rewrite E. cbn [w_entries w_inds]. split; auto. split; [apply (each_nth 0%nat L F)|]. split; [split; auto; congruence|].
    intros i e He. destruct (proj2 (each_nth i L F) e He) as (x & e' & Hx & He' & Hf). exists e', x. split; auto. split; auto.
    split; [apply (prop_of_set 0%nat Hf)|]. split; intros y; apply (prop_of_set y Hf).
  - cbn [w_entries w_inds]. split; auto. split; auto. split; [split; [discriminate|congruence]|]. destruct w; auto.
Qed.
Theorem C48_add_weights : forall w k v, uniform (w_entries w) ->
  let '(w', ok) := w_step w (AddWeights k v) in
  w_inds w' = w_inds w /\ length (w_entries w') = length (w_entries w) /\
  (ok = true <-> length v = length (w_entries w)) /\
  if ok then forall i e, nth_error (w_entries w) i = Some e -> exists e' x, nth_error (w_entries w') i = Some e' /\ nth_error v i = Some x /\ en_key e' = en_key e /\
      (forall y, wt_of e' y = if (k =? y)%nat then Some x else wt_of e y) /\ (forall y, prop_of e' y = prop_of e y)
  else w' = w.
Proof.
  intros w k v U. unfold w_step, add_vector. destruct (Nat.eqb_spec (length (w_entries w)) (length v)) as [L|L].
  - apply uniform_two in U as (P & W & UP & UW). destruct (@each_spec (set_wt k) v (w_entries w)) as (r & E & F); auto.
    { intros x e He. destruct (UW e He) as (q & Eq & _). unfold set_wt. rewrite Eq. simpl. eauto. }
    rewrite E. cbn [w_entries w_inds]. split; auto. split; [apply (each_nth 0%nat L F)|]. split; [split; auto; congruence|].
    intros i e He. destruct (proj2 (each_nth i L F) e He) as (x & e' & Hx & He' & Hf). exists e', x. split; auto. split; auto.
    split; [apply (wt_of_set 0%nat Hf)|]. split; intros y; apply (wt_of_set y Hf).
  - cbn [w_entries w_inds]. split; auto. split; auto. split; [split; [discriminate|congruence]|]. destruct w; auto.
Qed.
(** An entry given with the present names is added at the end with the given values; one that does not match is left out
    or, if asked for, raises; the other entries and the index sets stay. *)
Theorem C48_add_entry : forall w e props wts matches rf, uniform (w_entries w) -> complete w (AddEntry e props wts matches rf) ->
  let '(w', ok) := w_step w (AddEntry e props wts matches rf) in
  if matches then ok = true /\ w_inds w' = w_inds w /\ exists e', w_entries w' = w_entries w ++ [e'] /\ en_key e' = en_key e /\ en_size e' = en_size e /\
      (forall k, prop_of e' k = dget k (or_empty props)) /\ (forall k, wt_of e' k = dget k (or_empty wts))
  else w' = w /\ ok = negb rf.
Proof.
  intros w e props wts m rf U (C1 & C2 & C3 & C4 & C5). cbn [w_step].
  assert (E : match w_entries w with [] => Some true | _ => let? a := check_names props (available en_props (w_entries w)) (available en_props (w_entries w)) in
                    if a then check_names wts (available en_wts (w_entries w)) (available en_props (w_entries w)) else Some false end = Some true).
  { destruct (w_entries w) as [|e0 es0] eqn:EW; auto. rewrite <- EW in *. destruct C5 as [D1 D2]; [rewrite EW; discriminate|].
    apply uniform_two in U as (P & W & UP & UW). destruct (available_some UP) as (ap & Ea & Ha). destruct (available_some UW) as (aw & Eb & Hb). rewrite Ea, Eb.
    assert (K : forall d av, (forall k, In k (dkeys (or_empty d)) <-> In k av) -> check_names d (Some av) (Some ap) = Some true).
    { intros [d|] av H; cbn [check_names option_bind]; auto. destruct ap; auto. f_equal. apply same_keys_iff, H. }
    rewrite K by (intros k; rewrite D1; symmetry; apply Ha). cbn [option_bind]. apply K. intros k. rewrite D2. symmetry. apply Hb. }
  unfold process_entry. rewrite E. cbn [option_bind negb]. destruct m; cbn [negb].
  - cbn [w_entries w_inds]. split; auto. split; auto. eexists. split; [reflexivity|]. unfold prop_of, wt_of. rewrite C1, C2. cbn. auto.
  - destruct rf; auto.
Qed.
(** Removed properties are gone from all entries, the others stay. *)
Theorem C48_remove_properties : forall w ks, uniform (w_entries w) ->
  Forall2 (fun e e' => en_key e' = en_key e /\ (forall y, wt_of e' y = wt_of e y) /\
    forall y, prop_of e' y = if existsb (Nat.eqb y) ks then None else prop_of e y) (w_entries w) (w_entries (fst (w_step w (RemoveProps ks)))).
Proof.
  intros w ks U. cbn [w_step fst w_entries]. apply uniform_two in U as (P & W & UP & UW). revert P UP UW. generalize (w_entries w).
  induction ks as [|k ks IH]; intros es P UP UW; cbn [fold_left existsb].
  - clear. induction es; constructor; auto.
  - pose proof (remove_property_spec k UP) as F1. pose proof (IH _ _ (remove_property_names (k := k) UP) (remove_property_wts (k := k) UP UW)) as F2.
    revert F1 F2. generalize (remove_property k es). intros es1. generalize (fold_left (fun es k => remove_property k es) ks es1). clear. intros es2 F1. revert es2.
    induction F1 as [|e e1 es es1 H F1 IH]; intros es2 F2; inversion F2 as [|? e2 ? es2' G F2']; subst; constructor; auto.
    destruct H as (H1 & _ & _ & H2 & d & d' & Ed & Ed' & _ & Hd). destruct G as (G1 & G2 & G3). split; [congruence|]. split; [intros y; rewrite G2; unfold wt_of; congruence|].
    intros y. rewrite G3. unfold prop_of. rewrite Ed, Ed'. cbn [option_bind]. rewrite Hd. rewrite Nat.eqb_sym. destruct (y =? k)%nat; simpl; [destruct (existsb _ ks); auto|auto].
Qed.
(** Removing an entry takes the first equal one away and keeps all others with their data, in order. *)
Theorem C48_remove_entry : forall w key, let es := w_entries w in let es' := w_entries (fst (w_step w (RemoveEntry key))) in
  (exists before e after, es = before ++ e :: after /\ en_key e = key /\ (forall x, In x before -> en_key x <> key) /\ es' = before ++ after) \/
  ((forall x, In x es -> en_key x <> key) /\ es' = es).
Proof.
  intros w key es es'. unfold es'. cbn [w_step fst w_entries]. fold es. clearbody es. clear. induction es as [|e es IH]; [right; split; auto; intros x []|]. simpl.
  destruct (Nat.eqb_spec (en_key e) key) as [E|N].
  - left. exists [], e, es. split; auto.
  - destruct IH as [(b & x & a & E1 & E2 & E3 & E4)|[H1 H2]].
    + left. exists (e :: b), x, a. rewrite E4, E1. repeat split; auto. intros y [<-|Hy]; auto.
    + right. rewrite H2. split; auto. intros x [<-|Hx]; auto.
Qed.

(** Index sets refer to existing entries as long as no entry is removed.
    Missing: histories with removals, for which the claim is false. *)
Theorem C48_indices_partial : forall ops, forallb (fun o => negb (removes o)) ops = true ->
  forall name inds i, In (name, inds) (w_inds (w_run ops)) -> In i inds -> (i < length (w_entries (w_run ops)))%nat.
Proof.
  intros ops. unfold w_run.
  assert (K : forall ops w, forallb (fun o => negb (removes o)) ops = true ->
    (forall name inds i, In (name, inds) (w_inds w) -> In i inds -> (i < length (w_entries w))%nat) ->
    let w' := fold_left (fun w o => fst (w_step w o)) ops w in forall name inds i, In (name, inds) (w_inds w') -> In i inds -> (i < length (w_entries w'))%nat).
  { clear ops. induction ops as [|o ops IH]; intros w H I; simpl; auto. simpl in H. apply andb_true_iff in H as [H1 H2]. apply IH; auto. clear IH H2 ops.
    assert (G : forall r : list entry, (length (w_entries w) <= length r)%nat -> forall name inds i, In (name, inds) (w_inds w) -> In i inds -> (i < length r)%nat).
    { intros r Hr name inds i Hn Hi. specialize (I name inds i Hn Hi). lia. }
    destruct o as [e props wts m rf|es|k v|k v|ks|key| |nm ix]; simpl in H1; try discriminate; cbn [w_step].
    - destruct (process_entry _ _ _ _ _ _) as [[e'|]|]; cbn [fst w_entries w_inds]; auto. apply G. rewrite app_length. lia.
    - destruct (append_entries (w_entries w) es) as [r ok] eqn:E. cbn [fst w_entries w_inds]. apply G. clear - E. revert r ok E. generalize (w_entries w).
      induction es as [|e es IH]; intros l r ok E; simpl in E; [injection E as <- <-; auto|]. destruct (fits l e); [|injection E as <- <-; auto]. apply IH in E. rewrite app_length in E. simpl in E. lia.
    - destruct (add_vector (set_wt k) v (w_entries w)) as [r ok] eqn:E. cbn [fst w_entries w_inds]. apply G. unfold add_vector in E. destruct (_ =? _)%nat; [|injection E as <- <-; auto].
      clear - E. revert v r ok E. induction (w_entries w) as [|e l IH]; intros [|x v] r ok E; simpl in E; try (injection E as <- <-; auto; fail).
      destruct (set_wt k x e); [|injection E as <- <-; auto]. destruct (each _ v l) as [r' ok'] eqn:E'. injection E as <- <-. apply IH in E'. simpl. lia.
    - destruct (add_vector (set_prop k) v (w_entries w)) as [r ok] eqn:E. cbn [fst w_entries w_inds]. apply G. unfold add_vector in E. destruct (_ =? _)%nat; [|injection E as <- <-; auto].
      clear - E. revert v r ok E. induction (w_entries w) as [|e l IH]; intros [|x v] r ok E; simpl in E; try (injection E as <- <-; auto; fail).
      destruct (set_prop k x e); [|injection E as <- <-; auto]. destruct (each _ v l) as [r' ok'] eqn:E'. injection E as <- <-. apply IH in E'. simpl. lia.
    - cbn [fst w_entries w_inds]. apply G. clear. generalize (w_entries w). induction ks as [|k ks IH]; intros l; simpl; auto. rewrite <- IH. clear.
      induction l as [|e l IH]; simpl; auto. destruct (en_props e); [|simpl; auto]. destruct (dget k d); simpl; [lia|auto].
    - destruct (forallb _ ix) eqn:E; cbn [fst w_entries w_inds]; auto. intros name inds i Hn Hi.
      assert (In (name, inds) (w_inds w) \/ inds = map Z.to_nat ix) as [H|H]; [|eauto|].
      { clear - Hn. induction (w_inds w) as [|[k' v'] d IH]; simpl in *; [destruct Hn as [[= _ <-]|[]]; auto|]. destruct (k' =? nm)%nat; simpl in Hn.
        - destruct Hn as [[= _ <-]|Hn]; auto.
        - destruct Hn as [H|Hn]; auto. destruct (IH Hn); auto. }
      subst inds. apply in_map_iff in Hi as (z & <- & Hz). rewrite forallb_forall in E. specialize (E z Hz). lia. }
  intros H. apply (K ops w_empty H). intros name inds i [].
Qed.

(** ** Concrete cases and the cases that are false *)
Definition ex_entry (key : nat) : entry := mkEntry key (fun k => if (k =? 99)%nat then Some (Qc_of_nat key) else None) (Qc_of_nat 2) false None None.
Definition ex_ops : list op :=
  [AddEntry (ex_entry 1) (Some [(7%nat, 1)]) None true false; AddEntry (ex_entry 2) (Some [(7%nat, 0)]) None true false;
   AddEntry (ex_entry 3) (Some [(7%nat, Qc_of_nat 3)]) None false false; AddProps 8 [Qc_of_nat 4; Qc_of_nat 5]; AddWeights 6 [1; 1]; AddIndices 1 [0; 1]%Z;
   AddEntry (ex_entry 4) (Some [(8%nat, 1); (7%nat, 0)]) (Some [(6%nat, 0)]) true false; RemoveProps [7%nat]].
Example C48_case : complete_run w_empty ex_ops /\ forallb (fun o => negb (removes o)) ex_ops = true /\
  option_map (map this) (property_vector (w_entries (w_run ex_ops)) 8 false) = Some [4 # 1; 5 # 1; 1 # 1]%Q /\
  option_map (map this) (property_vector (w_entries (w_run ex_ops)) 99 false) = Some [1 # 1; 2 # 1; 4 # 1]%Q /\
  w_inds (w_run ex_ops) = [(1, [0; 1])]%nat.
Proof.
  split; [|split; [reflexivity|split; [vm_compute; reflexivity|split; vm_compute; reflexivity]]].
  assert (N1 : forall a : nat, NoDup [a]) by (intros; repeat constructor; simpl; auto).
  assert (N2 : NoDup [8; 7]%nat) by (repeat constructor; simpl; lia).
  unfold ex_ops. cbn [complete_run complete]. repeat match goal with |- _ /\ _ => split | |- True => exact I end;
    try (simpl; auto; fail); try (simpl; constructor; fail); try (intros NE; split; intros k; split; intros H).
  all: try (exfalso; apply NE; reflexivity).
  all: try (vm_compute in H; destruct H as (e & d & He & Ed & Hk); vm_compute in He;
    repeat (destruct He as [<-|He]); try contradiction; injection Ed as <-; simpl in Hk; simpl; intuition; fail).
  all: try (simpl in H; contradiction).
  all: try (simpl in H; eexists; eexists; split; [vm_compute; left; reflexivity|split; [reflexivity|simpl; intuition]]; fail).
Qed.

(** An entry added without properties to a wrangler that has some: the property vector can no longer be read. *)
Theorem C48_missing_property_refuted : exists ops k, Forall (fun o => exists e p, o = AddEntry e p None true false) ops /\
  has_name en_props (w_entries (w_run ops)) k /\ property_vector (w_entries (w_run ops)) k false = None.
Proof.
  exists [AddEntry (ex_entry 1) (Some [(7%nat, 1)]) None true false; AddEntry (ex_entry 2) None None true false], 7%nat. split; [repeat constructor; eauto|]. split.
  - eexists. eexists. split; [vm_compute; left; reflexivity|]. split; [reflexivity|]. simpl. auto.
  - vm_compute. reflexivity.
Qed.
(** Then removing the property stops at that entry and leaves it in the later ones. *)
Theorem C48_remove_stops_refuted : exists ops k e, In e (w_entries (w_run (ops ++ [RemoveProps [k]]))) /\ exists x, prop_of e k = Some x.
Proof.
  exists [AddEntry (ex_entry 1) (Some [(7%nat, 1)]) None true false; AddEntry (ex_entry 2) None None true false; AddEntry (ex_entry 3) (Some [(7%nat, 0)]) None true false], 7%nat.
  eexists. split; [vm_compute; right; right; left; reflexivity|]. eexists. reflexivity.
Qed.
(** Removing an entry leaves index sets that point past the last entry. *)
Theorem C48_stale_indices_refuted : exists ops name inds i, In (name, inds) (w_inds (w_run ops)) /\ In i inds /\ (length (w_entries (w_run ops)) <= i)%nat.
Proof.
  exists [AddEntry (ex_entry 1) None None true false; AddEntry (ex_entry 2) None None true false; AddIndices 5 [0; 1]%Z; RemoveEntry 1], 5%nat, [0; 1]%nat, 1%nat.
  split; [vm_compute; auto|]. split; [simpl; auto|]. vm_compute. auto.
Qed.

Print Assumptions C48_aligned_partial.
Print Assumptions C48_normalized.
Print Assumptions C48_add_entry.
Print Assumptions C48_add_properties.
Print Assumptions C48_add_weights.
Print Assumptions C48_remove_properties.
Print Assumptions C48_remove_entry.
Print Assumptions C48_indices_partial.
Print Assumptions C48_missing_property_refuted.
Print Assumptions C48_remove_stops_refuted.
Print Assumptions C48_stale_indices_refuted.
