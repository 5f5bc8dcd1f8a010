(** C124, C125: entries that are shared between wranglers, and properties that are shared between entries. *)
From Verif Require Import LibProofs WranglerProps.
From Verif Require Export WranglerHeap.
Set Implicit Arguments.
Unset Strict Implicit.
Local Open Scope nat_scope.

Section Heap.
Variables (St Mx Mp Occ Fe : Type).
Notation world := (world St Mx Mp Occ Fe).
Notation act := (act St Mx Mp Occ Fe).
Notation subspace := (subspace St Mx Mp Occ Fe).
Implicit Types (w : world) (a : act) (sub : subspace).

(** ** Specification *)
(** The features and the size of an entry are those of its structure in a subspace. *)
Definition up w sub (e : nat) : Prop :=
  exists s d, entry_data w e = Some (s, d) /\ corr sub s (d_matrix d) (d_mapping d) = Some (d_corr d) /\ d_size d = c_size sub (d_matrix d).
(** Entries are given to one wrangler only, entries that are appended were processed with the same subspace, and a
    change of the subspace goes through and keeps the primitive cell. *)
Definition alone w (i e : nat) : Prop := forall j o, j <> i -> nth_error (wd_wranglers w) j = Some o -> ~ In e (wo_entries o).
Definition careful w a : Prop :=
  match a with
  | Process i e _ _ _ | Add i e _ _ _ => alone w i e
  | AppendTo i es => forall o e, nth_error (wd_wranglers w) i = Some o -> In e es -> up w (wo_sub o) e
  | Change i sub => snd (act_step w a) = true /\ forall o, nth_error (wd_wranglers w) i = Some o ->
                      (forall m, c_size sub m = c_size (wo_sub o) m) /\ forall e, In e (wo_entries o) -> alone w i e
  | _ => True
  end.
Fixpoint careful_run (acts : list act) w : Prop := match acts with [] => True | a :: acts' => careful w a /\ careful_run acts' (fst (act_step w a)) end.

(** ** Effects *)
Lemma process_effect w sub e props mx mp w' ok : process w sub e props mx mp = (w', ok) ->
  (ok = false /\ w' = w) \/
  (ok = true /\ exists o d r, nth_error (wd_entries w) e = Some o /\ wd_entries w' = upd (wd_entries w) e (mkObj (o_struct o) (Some d) r) /\ wd_wranglers w' = wd_wranglers w /\
     corr sub (o_struct o) (d_matrix d) (d_mapping d) = Some (d_corr d) /\ d_size d = c_size sub (d_matrix d)).
Proof.
  unfold process. destruct (known w props); cbn [negb]; [|intros [= <- <-]; auto]. destruct (nth_error (wd_entries w) e) as [o|] eqn:E; [|intros [= <- <-]; auto].
  destruct (match mx with Some m => Some m | None => c_match sub (o_struct o) end) as [m|]; cbn [option_bind]; [|intros [= <- <-]; auto].
  destruct (match mp with Some p => Some p | None => c_map sub m (o_struct o) end) as [p|]; cbn [option_bind]; [|intros [= <- <-]; auto].
  destruct (corr sub (o_struct o) m p) as [f|] eqn:C; cbn [option_bind]; [|intros [= <- <-]; auto].
  intros H. right. destruct (o_props o) as [r|]; [|destruct props as [q|]]; injection H as <- <-; (split; [auto|]); do 3 eexists; (split; [reflexivity|]); (split; [reflexivity|]); (split; [reflexivity|]); cbn; auto.
Qed.
Lemma up_ext w w' sub e : nth_error (wd_entries w') e = nth_error (wd_entries w) e -> up w sub e -> up w' sub e.
Proof. unfold up, entry_data. intros ->. auto. Qed.
Lemma entry_at w e o d : nth_error (wd_entries w) e = Some o -> o_data o = Some d -> entry_data w e = Some (o_struct o, d).
Proof. intros E D. unfold entry_data. rewrite E. cbn [option_bind]. rewrite D. auto. Qed.
Lemma entry_data_inv w e s d : entry_data w e = Some (s, d) -> exists o, nth_error (wd_entries w) e = Some o /\ o_struct o = s /\ o_data o = Some d.
Proof. unfold entry_data. destruct (nth_error (wd_entries w) e) as [o|]; [|discriminate]. cbn [option_bind]. destruct (o_data o) as [d'|] eqn:D; [|discriminate]. cbn [option_bind]. intros [= <- <-]. eauto. Qed.
Lemma up_valid w sub e : up w sub e -> e < length (wd_entries w).
Proof. intros (s & d & H & _). apply entry_data_inv in H as (o & H & _). apply nth_error_Some. congruence. Qed.

(** Updating entries that are up to date does nothing. *)
Lemma update_same sub es : forall w, (forall e, In e es -> up w sub e) -> update w sub es = (w, true).
Proof.
  induction es as [|e es IH]; intros w U; auto. cbn [update]. destruct (U e (or_introl eq_refl)) as (s & d & H & C & _). apply entry_data_inv in H as (o & H & S & D). rewrite H. cbn [option_bind]. rewrite D. cbn [option_bind]. rewrite S, C. cbn [option_bind].
  assert (P : put_entry w e (mkObj s (Some (mkData (d_matrix d) (d_mapping d) (d_corr d) (d_size d))) (o_props o)) = w).
  { unfold put_entry. rewrite upd_same; [destruct w; auto|]. rewrite H. destruct o, d; cbn in *; congruence. }
  rewrite P. apply IH. intros e' I. apply U. right; auto.
Qed.
Lemma update_effect sub es : forall w w', update w sub es = (w', true) ->
  wd_wranglers w' = wd_wranglers w /\ (forall e, ~ In e es -> nth_error (wd_entries w') e = nth_error (wd_entries w) e) /\
  forall e, In e es -> exists s d f, entry_data w e = Some (s, d) /\ corr sub s (d_matrix d) (d_mapping d) = Some f /\ entry_data w' e = Some (s, mkData (d_matrix d) (d_mapping d) f (d_size d)).
Proof.
  induction es as [|e0 es IH]; intros w w' H; cbn [update] in H; [injection H as <-; repeat split; auto; intros e []|].
  destruct (nth_error (wd_entries w) e0) as [o|] eqn:E; [|discriminate]. cbn [option_bind] in H. destruct (o_data o) as [d|] eqn:D; [|discriminate]. cbn [option_bind] in H. destruct (corr sub (o_struct o) (d_matrix d) (d_mapping d)) as [f|] eqn:C; [|discriminate]. cbn [option_bind] in H.
  set (o1 := mkObj _ _ _) in H. set (w1 := put_entry w e0 o1) in H. destruct (IH _ _ H) as (W & N & U).
  assert (L : e0 < length (wd_entries w)) by (apply nth_error_Some; congruence).
  assert (E1 : nth_error (wd_entries w1) e0 = Some o1) by (apply nth_error_upd_eq; auto).
  assert (ED1 : entry_data w1 e0 = Some (o_struct o, mkData (d_matrix d) (d_mapping d) f (d_size d))) by (apply (entry_at E1); auto).
  split; [rewrite W; auto|]. split.
  - intros e NI. rewrite N by (intros I; apply NI; right; auto). apply nth_error_upd_neq. intros ->. apply NI. left; auto.
  - intros e I. destruct (Nat.eq_dec e e0) as [->|NE].
    + exists (o_struct o), d, f. split; [apply entry_at; auto|]. split; auto. destruct (in_dec Nat.eq_dec e0 es) as [I2|NI].
      * destruct (U e0 I2) as (s2 & d2 & f2 & A1 & A2 & A3). rewrite ED1 in A1. injection A1 as <- <-. cbn [d_matrix d_mapping d_size] in *. rewrite A3. congruence.
      * unfold entry_data. rewrite (N e0 NI). exact ED1.
    + destruct I as [->|I]; [congruence|]. destruct (U e I) as (s2 & d2 & f2 & A1 & A2 & A3). exists s2, d2, f2. split; auto. rewrite <- A1. unfold entry_data. cbn [put_entry wd_entries w1]. rewrite nth_error_upd_neq; auto.
Qed.
Lemma set_props_effect k es : forall vs w w' ok, set_props w k vs es = (w', ok) -> wd_entries w' = wd_entries w /\ wd_wranglers w' = wd_wranglers w.
Proof.
  induction es as [|e es IH]; intros [|v vs] w w' ok H; cbn [set_props] in H; try (injection H as <- <-; auto; fail). destruct (let? o := nth_error (wd_entries w) e in o_props o) as [r|]; [|injection H as <- <-; auto]. destruct (IH _ _ _ _ H) as (A & B). auto.
Qed.
Lemma take_ready_in w es : forall r ok, take_ready w es = (r, ok) -> forall e, In e r -> In e es.
Proof.
  induction es as [|e0 es IH]; intros r ok H e I; cbn [take_ready] in H; [injection H as <- <-; destruct I|]. destruct (let? o := nth_error (wd_entries w) e0 in o_data o); [|injection H as <- <-; destruct I]. destruct (take_ready w es) as [r' ok'] eqn:T. injection H as <- <-. destruct I as [->|I]; [left; auto|right; eapply IH; eauto].
Qed.
(** Copies: new references, the same structures and data, and dictionaries with the same content. *)
Definition copied w w' (e e' : nat) : Prop :=
  exists o o', nth_error (wd_entries w) e = Some o /\ nth_error (wd_entries w') e' = Some o' /\ o_struct o' = o_struct o /\ o_data o' = o_data o /\
    match o_props o, o_props o' with
    | Some r, Some r' => length (wd_dicts w) <= r' < length (wd_dicts w') /\ (r < length (wd_dicts w) -> nth r' (wd_dicts w') [] = nth r (wd_dicts w) [])
    | None, None => True
    | _, _ => False
    end.
Lemma copy_effect es : forall w w' r, copy_entries w es = Some (w', r) -> (forall e, In e es -> e < length (wd_entries w)) ->
  wd_wranglers w' = wd_wranglers w /\ (exists x, wd_entries w' = wd_entries w ++ x) /\ (exists y, wd_dicts w' = wd_dicts w ++ y) /\
  r = seq (length (wd_entries w)) (length es) /\ length (wd_entries w') = length (wd_entries w) + length es /\
  forall j e, nth_error es j = Some e -> copied w w' e (length (wd_entries w) + j).
Proof.
  induction es as [|e0 es IH]; intros w w' r H V; cbn [copy_entries] in H.
  - injection H as <- <-. split; auto. split; [exists []; rewrite app_nil_r; auto|]. split; [exists []; rewrite app_nil_r; auto|]. split; auto. split; [cbn; lia|]. intros [|j] e; discriminate.
  - destruct (nth_error (wd_entries w) e0) as [o|] eqn:E; [|discriminate]. cbn [option_bind] in H. set (new := mkObj _ _ _) in H. set (dicts := match o_props o with Some _ => _ | None => _ end) in H. set (w1 := mkWorld _ dicts _) in H.
    destruct (copy_entries w1 es) as [[w2 r2]|] eqn:C; [|discriminate]. injection H as <- <-.
    assert (V1 : forall e, In e es -> e < length (wd_entries w1)) by (intros e I; cbn [w1 wd_entries]; rewrite app_length; cbn [length]; specialize (V e (or_intror I)); lia).
    destruct (IH _ _ _ C V1) as (W & (x & X) & (y & Y) & R & LE & CP). cbn [w1 wd_entries wd_dicts wd_wranglers] in *. rewrite app_length in *. cbn [length] in *.
    assert (D : exists z, dicts = wd_dicts w ++ z) by (unfold dicts; destruct (o_props o); [eauto|exists []; rewrite app_nil_r; auto]). destruct D as (z & D).
    split; auto. split; [exists (new :: x); rewrite X, <- app_assoc; auto|]. split; [exists (z ++ y); rewrite Y, D, <- app_assoc; auto|]. split; [rewrite R, Nat.add_1_r; auto|]. split; [lia|].
    intros [|j] e H; cbn [nth_error] in H.
    + injection H as <-. exists o, new. split; auto. split; [rewrite X, Nat.add_0_r, <- app_assoc; rewrite nth_error_app2, Nat.sub_diag by lia; auto|]. split; auto. split; auto. unfold new. cbn [o_props]. rewrite Y. unfold dicts. destruct (o_props o) as [q|]; auto. rewrite !app_length. cbn [length]. split; [lia|]. intros Q.
      rewrite <- app_assoc. rewrite app_nth2, Nat.sub_diag by lia. auto.
    + destruct (CP j e H) as (o2 & o' & A1 & A2 & A3 & A4 & A5). assert (I : e < length (wd_entries w)) by (apply V; right; eapply nth_error_In; eauto). cbn [w1 wd_entries wd_dicts] in A1, A2, A5. rewrite nth_error_app1 in A1 by auto. exists o2, o'. split; auto. split; [rewrite <- A2; f_equal; lia|]. split; auto. split; auto.
      destruct (o_props o2) as [q|], (o_props o') as [q'|]; auto. destruct A5 as (B & B2). assert (LD : length (wd_dicts w) <= length dicts) by (rewrite D, app_length; lia). split; [lia|]. intros Q. rewrite B2 by lia. rewrite D. rewrite app_nth1 by auto. auto.
Qed.

(** ** Features *)
Definition aligned w : Prop := forall i o e, nth_error (wd_wranglers w) i = Some o -> In e (wo_entries o) -> up w (wo_sub o) e.
Lemma with_new w x y z : aligned w -> (forall o e, In o z -> In e (wo_entries o) -> up (mkWorld (wd_entries w ++ x) y (wd_wranglers w ++ z)) (wo_sub o) e) ->
  aligned (mkWorld (wd_entries w ++ x) y (wd_wranglers w ++ z)).
Proof.
  intros A Z i o e H I. cbn [wd_wranglers] in H. destruct (Nat.lt_ge_cases i (length (wd_wranglers w))) as [L|L].
  - rewrite nth_error_app1 in H by auto. pose proof (A i o e H I) as U. apply up_ext with w; auto. cbn [wd_entries]. apply nth_error_app1. apply (up_valid U).
  - rewrite nth_error_app2 in H by auto. apply (Z o e); auto. eapply nth_error_In; eauto.
Qed.
Lemma aligned_ext w w' : wd_entries w' = wd_entries w -> wd_wranglers w' = wd_wranglers w -> aligned w -> aligned w'.
Proof. intros E W A i o e H I. rewrite W in H. apply up_ext with w; [rewrite E; auto|eauto]. Qed.
Lemma process_aligned w i o e props mx mp w' ok : aligned w -> nth_error (wd_wranglers w) i = Some o -> alone w i e -> process w (wo_sub o) e props mx mp = (w', ok) ->
  aligned w' /\ wd_wranglers w' = wd_wranglers w /\ (ok = true -> up w' (wo_sub o) e).
Proof.
  intros A O AL P. apply process_effect in P as [(-> & ->)|(-> & x & d & r & E & EN & W & C & SZ)]; [split; auto; split; auto; discriminate|].
  assert (L : e < length (wd_entries w)) by (apply nth_error_Some; congruence).
  assert (E1 : nth_error (wd_entries w') e = Some (mkObj (o_struct x) (Some d) r)) by (rewrite EN; apply nth_error_upd_eq; auto).
  assert (U : up w' (wo_sub o) e) by (exists (o_struct x), d; split; [apply (entry_at E1); auto|auto]). split; [|auto].
  intros j o' e' H I. rewrite W in H. destruct (Nat.eq_dec j i) as [->|NE].
  - assert (o' = o) by congruence. subst o'. destruct (Nat.eq_dec e' e) as [->|NE]; auto. apply up_ext with w; [rewrite EN; apply nth_error_upd_neq; auto|eauto].
  - apply up_ext with w; [|eauto]. rewrite EN. apply nth_error_upd_neq. intros ->. apply (AL j o' NE H I).
Qed.
Lemma put_wrangler_aligned w i o : aligned w -> (forall e, In e (wo_entries o) -> up w (wo_sub o) e) -> aligned (put_wrangler w i o).
Proof.
  intros A U j o' e H I. apply up_ext with w; auto. unfold put_wrangler in H. cbn [wd_wranglers] in H. rewrite nth_error_upd in H. destruct (Nat.eqb_spec i j) as [->|NE]; [|eauto].
  destruct (j <? length (wd_wranglers w)) eqn:L; [|discriminate]. injection H as <-. auto.
Qed.
Lemma step_aligned w a : aligned w -> careful w a -> aligned (fst (act_step w a)).
Proof.
  intros A CF. destruct a as [s|d|sub|i e props mx mp|i e props mx mp|i es|i k v|i sub|i|i j|i]; cbn [act_step careful] in *; try (destruct (nth_error (wd_wranglers w) i) as [o|] eqn:O; [|exact A]).
  - cbn [fst]. pose proof (@with_new w [mkObj s None None] (wd_dicts w) [] A) as N. rewrite app_nil_r in N. apply N. intros o e [].
  - cbn [fst]. apply (@aligned_ext w); auto.
  - cbn [fst]. pose proof (@with_new w [] (wd_dicts w) [mkWO sub []] A) as N. rewrite app_nil_r in N. apply N. intros o e [<-|[]] [].
  - destruct (process w (wo_sub o) e props mx mp) as [w' ok] eqn:P. apply (process_aligned A O CF P).
  - destruct (process w (wo_sub o) e props mx mp) as [w' ok] eqn:P. destruct (process_aligned A O CF P) as (A1 & W & U). destruct ok; cbn [fst]; auto. apply put_wrangler_aligned; auto. cbn [wo_entries wo_sub]. intros e' I. apply in_app_or in I as [I|[<-|[]]]; auto. apply (A1 i o e'); auto. rewrite W; auto.
  - destruct (take_ready w es) as [r ok] eqn:T. cbn [fst]. apply put_wrangler_aligned; auto. cbn [wo_entries wo_sub]. intros e I. apply in_app_or in I as [I|I]; [eauto|]. apply (CF o e eq_refl). apply (take_ready_in T I).
  - destruct (length (wo_entries o) =? length v)%nat; [|exact A]. destruct (set_props w k v (wo_entries o)) as [w' ok] eqn:P. destruct (set_props_effect P) as (E & W). apply (@aligned_ext w); auto.
  - destruct (update (put_wrangler w i (mkWO sub (wo_entries o))) sub (wo_entries o)) as [w' ok] eqn:P. cbn [fst snd] in *. destruct CF as (-> & CF). destruct (CF o eq_refl) as (SZ & AL). destruct (update_effect P) as (W & N & U).
    intros j o' e H I. rewrite W in H. unfold put_wrangler in H. cbn [wd_wranglers] in H. rewrite nth_error_upd in H. destruct (Nat.eqb_spec i j) as [->|NE].
    + destruct (j <? length (wd_wranglers w)) eqn:L; [|discriminate]. injection H as <-. cbn [wo_sub wo_entries] in *. destruct (U e I) as (s & d & f & E1 & C & E2). exists s, (mkData (d_matrix d) (d_mapping d) f (d_size d)). split; auto. cbn [d_matrix d_mapping d_corr d_size]. split; auto.
      destruct (A j o e O I) as (s3 & d3 & E3 & _ & Z3). change (entry_data w e = Some (s, d)) in E1. rewrite E1 in E3. injection E3 as <- <-. rewrite Z3, SZ. auto.
    + apply up_ext with w; [|eauto]. rewrite (N e); auto. intros I2. apply (AL e I2 j o'); auto.
  - rewrite update_same; [exact A|]. intros e I. eauto.
  - cbn [fst]. apply put_wrangler_aligned; auto. cbn [wo_entries wo_sub]. intros e I. apply (A i o e O). apply in_app_or in I as [I|I]; [rewrite <- (firstn_skipn j); apply in_or_app; auto|rewrite <- (firstn_skipn (S j)); apply in_or_app; auto].
  - destruct (copy_entries w (wo_entries o)) as [[w' r]|] eqn:C; [|exact A]. cbn [fst]. destruct (copy_effect C) as (W & (x & X) & _ & R & LE & CP); [intros e I; apply (up_valid (A i o e O I))|]. rewrite X, W. apply with_new; auto. intros o' e [<-|[]] I. cbn [wo_sub wo_entries] in *. rewrite R in I. apply in_seq in I.
    destruct (nth_error (wo_entries o) (e - length (wd_entries w))) as [e0|] eqn:E0; [|apply nth_error_None in E0; lia]. destruct (CP _ _ E0) as (oo & oo' & A1 & A2 & A3 & A4 & _). replace (length (wd_entries w) + (e - length (wd_entries w))) with e in A2 by lia.
    destruct (A i o e0 O (nth_error_In _ _ E0)) as (s & d & D & Z). apply entry_data_inv in D as (o3 & D1 & D2 & D3). assert (o3 = oo) by congruence. subst o3. exists s, d. split; auto. rewrite X in A2. unfold entry_data. cbn [wd_entries]. rewrite A2. cbn [option_bind]. rewrite A4, D3. cbn [option_bind]. congruence.
Qed.
Lemma run_aligned acts : forall w, aligned w -> careful_run acts w -> aligned (act_run acts w).
Proof. induction acts as [|a acts IH]; intros w A C; auto. destruct C as (C1 & C2). cbn [act_run]. apply IH; auto. apply step_aligned; auto. Qed.

(** The rows of the feature matrix are the correlation vectors of the occupancies, and the sizes those of the matrices. *)
Theorem C124_features_partial acts i o : careful_run acts nothing -> let w := act_run acts nothing in nth_error (wd_wranglers w) i = Some o ->
  exists occs rows szs ms, occupancy_strings w i = Some occs /\ feature_matrix w i = Some rows /\ sizes w i = Some szs /\
    length ms = length (wo_entries o) /\ length occs = length ms /\ length rows = length ms /\ length szs = length ms /\
    forall j m, nth_error ms j = Some m -> exists e s d occ, nth_error (wo_entries o) j = Some e /\ entry_data w e = Some (s, d) /\ d_matrix d = m /\
      c_occu (wo_sub o) s m (d_mapping d) = Some occ /\ nth_error occs j = Some occ /\ c_corr (wo_sub o) occ m = nth_error rows j /\ nth_error szs j = Some (c_size (wo_sub o) m).
Proof.
  intros C w O. assert (A : aligned w) by (apply run_aligned; auto; intros [|k] o' e H; discriminate H). unfold occupancy_strings, feature_matrix, sizes. rewrite O. cbn [option_bind].
  assert (U : forall e, In e (wo_entries o) -> up w (wo_sub o) e) by (intros e I; apply (A i o e O I)). clear C O A. induction (wo_entries o) as [|e es IH]; [exists [], [], [], []; repeat split; auto; intros [|j] m; discriminate|].
  destruct IH as (occs & rows & szs & ms & E1 & E2 & E3 & L0 & L1 & L2 & L3 & F); [intros e' I; apply U; right; auto|]. destruct (U e (or_introl eq_refl)) as (s & d & E & CR & SZ). unfold corr in CR. destruct (c_occu (wo_sub o) s (d_matrix d) (d_mapping d)) as [occ|] eqn:CO; [|discriminate]. cbn [option_bind] in CR.
  exists (occ :: occs), (d_corr d :: rows), (d_size d :: szs), (d_matrix d :: ms). cbn [opt_map]. rewrite E. cbn [option_bind]. rewrite CO, E1, E2, E3. do 3 (split; [auto|]). cbn [length]. do 4 (split; [congruence|]). intros [|j] m H; cbn [nth_error] in *; [|apply F; auto]. injection H as <-. exists e, s, d, occ. rewrite CR, SZ. repeat split; auto.
Qed.

(** ** Loading *)
Definition sound w : Prop :=
  (forall e x, nth_error (wd_entries w) e = Some x -> match o_data x, o_props x with None, None => True | Some _, Some r => r < length (wd_dicts w) | _, _ => False end) /\
  (forall i o e, nth_error (wd_wranglers w) i = Some o -> In e (wo_entries o) -> exists x d, nth_error (wd_entries w) e = Some x /\ o_data x = Some d).
(** What processing does to the dictionaries: it may write into the one of the entry, take the given one or make one. *)
Lemma process_dicts w sub e props mx mp w' : process w sub e props mx mp = (w', true) ->
  exists o d r, nth_error (wd_entries w) e = Some o /\ wd_entries w' = upd (wd_entries w) e (mkObj (o_struct o) (Some d) (Some r)) /\ wd_wranglers w' = wd_wranglers w /\
    ((o_props o = Some r /\ length (wd_dicts w') = length (wd_dicts w)) \/
     (o_props o = None /\ props = Some r /\ r < length (wd_dicts w) /\ wd_dicts w' = wd_dicts w) \/
     (o_props o = None /\ props = None /\ r = length (wd_dicts w) /\ wd_dicts w' = wd_dicts w ++ [[]])).
Proof.
  unfold process. destruct (known w props) eqn:K; cbn [negb]; [|discriminate]. destruct (nth_error (wd_entries w) e) as [o|] eqn:E; [|discriminate].
  destruct (match mx with Some m => Some m | None => c_match sub (o_struct o) end) as [m|]; cbn [option_bind]; [|discriminate].
  destruct (match mp with Some p => Some p | None => c_map sub m (o_struct o) end) as [p|]; cbn [option_bind]; [|discriminate].
  destruct (corr sub (o_struct o) m p) as [f|] eqn:C; cbn [option_bind]; [|discriminate]. intros H. destruct (o_props o) as [r|] eqn:P; [|destruct props as [q|]]; injection H as <-; do 3 eexists; (split; [reflexivity|]); (split; [reflexivity|]); (split; [reflexivity|]); cbn [put_entry put_dict wd_dicts].
  - left. rewrite length_upd. auto.
  - right. left. cbn [known] in K. apply Nat.ltb_lt in K. auto.
  - right. right. auto.
Qed.
Lemma step_process w sub e props mx mp w' ok : process w sub e props mx mp = (w', ok) -> sound w -> sound w' /\ wd_wranglers w' = wd_wranglers w /\ length (wd_entries w') = length (wd_entries w) /\ (ok = true -> exists x d, nth_error (wd_entries w') e = Some x /\ o_data x = Some d).
Proof.
  intros P (S1 & S2). destruct ok; [|apply process_effect in P as [(_ & ->)|(X & _)]; [|discriminate]; repeat split; auto; discriminate]. apply process_dicts in P as (o & d & r & E & EN & W & D).
  assert (L : e < length (wd_entries w)) by (apply nth_error_Some; congruence). assert (LD : length (wd_dicts w) <= length (wd_dicts w') /\ r < length (wd_dicts w')).
  { destruct D as [(P & D)|[(P & _ & Q & D)|(P & _ & -> & D)]]; [|rewrite D; auto|rewrite D, app_length; cbn [length]; lia]. rewrite D. split; auto. pose proof (S1 e o E) as X. rewrite P in X. destruct (o_data o); [auto|destruct X]. }
  split; [split|split; [auto|split; [rewrite EN; apply length_upd|intros _; exists (mkObj (o_struct o) (Some d) (Some r)), d; split; auto; rewrite EN; apply nth_error_upd_eq; auto]]].
  - intros e' x H. rewrite EN, nth_error_upd in H. destruct (Nat.eqb_spec e e') as [->|NE].
    + destruct (e' <? length (wd_entries w)); [|discriminate]. injection H as <-. cbn. lia.
    + specialize (S1 e' x H). destruct (o_data x), (o_props x); auto. lia.
  - intros i o' e' H I. rewrite W in H. destruct (S2 i o' e' H I) as (x & d' & X1 & X2). rewrite EN, nth_error_upd. destruct (Nat.eqb_spec e e') as [->|NE]; [|eauto]. destruct (Nat.ltb_spec e' (length (wd_entries w))); [|lia]. do 2 eexists. split; [reflexivity|]. reflexivity.
Qed.
Lemma put_wrangler_sound w i o : sound w -> (forall e, In e (wo_entries o) -> exists x d, nth_error (wd_entries w) e = Some x /\ o_data x = Some d) -> sound (put_wrangler w i o).
Proof.
  intros (S1 & S2) U. split; auto. intros j o' e H I. cbn [put_wrangler wd_wranglers wd_entries] in *. rewrite nth_error_upd in H. destruct (Nat.eqb_spec i j) as [->|NE]; [|eauto]. destruct (j <? length (wd_wranglers w)); [|discriminate]. injection H as <-. auto.
Qed.
Lemma update_sound sub es : forall w w' ok, update w sub es = (w', ok) -> sound w -> sound w'.
Proof.
  induction es as [|e es IH]; intros w w' ok H S; cbn [update] in H; [injection H as <- <-; auto|]. destruct (nth_error (wd_entries w) e) as [o|] eqn:E; [|injection H as <- <-; auto]. cbn [option_bind] in H. destruct (o_data o) as [d|] eqn:D; [|injection H as <- <-; auto]. cbn [option_bind] in H. destruct (corr sub (o_struct o) (d_matrix d) (d_mapping d)) as [f|]; [|injection H as <- <-; auto]. cbn [option_bind] in H. apply (IH _ _ _ H).
  destruct S as (S1 & S2). split; cbn [put_entry wd_entries wd_dicts wd_wranglers].
  - intros e' x X. rewrite nth_error_upd in X. destruct (Nat.eqb_spec e e') as [->|NE]; [|apply (S1 e'); auto]. destruct (e' <? length (wd_entries w)); [|discriminate]. injection X as <-. cbn [o_data o_props]. specialize (S1 e' o E). rewrite D in S1. auto.
  - intros i o' e' X I. destruct (S2 i o' e' X I) as (x & d' & X1 & X2). rewrite nth_error_upd. destruct (Nat.eqb_spec e e') as [->|NE]; [|eauto]. assert (L : e' < length (wd_entries w)) by (apply nth_error_Some; congruence). destruct (Nat.ltb_spec e' (length (wd_entries w))); [|lia]. do 2 eexists. split; reflexivity.
Qed.
Lemma set_props_sound k es : forall vs w w' ok, set_props w k vs es = (w', ok) -> sound w -> sound w'.
Proof.
  induction es as [|e es IH]; intros [|v vs] w w' ok H S; cbn [set_props] in H; try (injection H as <- <-; auto; fail). destruct (let? o := nth_error (wd_entries w) e in o_props o) as [r|]; [|injection H as <- <-; auto]. apply (IH _ _ _ _ H). destruct S as (S1 & S2). split; auto. cbn [put_dict wd_entries wd_dicts]. rewrite length_upd. auto.
Qed.
Lemma take_ready_data w es : forall r ok, take_ready w es = (r, ok) -> forall e, In e r -> exists x d, nth_error (wd_entries w) e = Some x /\ o_data x = Some d.
Proof.
  induction es as [|e0 es IH]; intros r ok H e I; cbn [take_ready] in H; [injection H as <- <-; destruct I|]. destruct (nth_error (wd_entries w) e0) as [o|] eqn:E; cbn [option_bind] in H; [|injection H as <- <-; destruct I]. destruct (o_data o) as [d|] eqn:D; [|injection H as <- <-; destruct I]. destruct (take_ready w es) as [r' ok'] eqn:T. injection H as <- <-. destruct I as [<-|I]; [eauto|eapply IH; eauto].
Qed.
Lemma copy_total es : forall w, (forall e, In e es -> e < length (wd_entries w)) -> exists w' r, copy_entries w es = Some (w', r).
Proof.
  induction es as [|e es IH]; intros w V; [cbn; eauto|]. cbn [copy_entries]. destruct (nth_error (wd_entries w) e) as [o|] eqn:E; [|apply nth_error_None in E; specialize (V e (or_introl eq_refl)); lia]. cbn [option_bind].
  match goal with |- context [copy_entries ?w1 es] => destruct (IH w1) as (w' & r & H) end; [|rewrite H; cbn [option_bind]; eauto]. intros e' I. cbn [wd_entries]. rewrite app_length. specialize (V e' (or_intror I)). lia.
Qed.
Lemma copy_sound w es w' r : copy_entries w es = Some (w', r) -> sound w -> (forall e, In e es -> exists x d, nth_error (wd_entries w) e = Some x /\ o_data x = Some d) -> sound w' /\ forall e, In e r -> exists x d, nth_error (wd_entries w') e = Some x /\ o_data x = Some d.
Proof.
  intros C (S1 & S2) V. assert (V' : forall e, In e es -> e < length (wd_entries w)) by (intros e I; destruct (V e I) as (x & d & X & _); apply nth_error_Some; congruence).
  destruct (copy_effect C V') as (W & (x & X) & (y & Y) & R & LE & CP). split; [split|].
  - intros e o H. destruct (Nat.lt_ge_cases e (length (wd_entries w))) as [L|L].
    + rewrite X, nth_error_app1 in H by auto. specialize (S1 e o H). destruct (o_data o), (o_props o); auto. rewrite Y, app_length. lia.
    + assert (e < length (wd_entries w')) by (apply nth_error_Some; congruence). destruct (nth_error es (e - length (wd_entries w))) as [e0|] eqn:E0; [|apply nth_error_None in E0; lia]. destruct (CP _ _ E0) as (o1 & o2 & A1 & A2 & A3 & A4 & A5). replace (length (wd_entries w) + (e - length (wd_entries w))) with e in A2 by lia. assert (o2 = o) by congruence. subst o2. specialize (S1 _ _ A1). rewrite A4. destruct (o_data o1), (o_props o1), (o_props o); auto; try contradiction. lia.
  - intros i o e H I. rewrite W in H. destruct (S2 i o e H I) as (o1 & d & A1 & A2). exists o1, d. split; auto. rewrite X, nth_error_app1; auto. apply nth_error_Some. congruence.
  - intros e I. rewrite R in I. apply in_seq in I. destruct (nth_error es (e - length (wd_entries w))) as [e0|] eqn:E0; [|apply nth_error_None in E0; lia]. destruct (CP _ _ E0) as (o1 & o2 & A1 & A2 & A3 & A4 & A5). replace (length (wd_entries w) + (e - length (wd_entries w))) with e in A2 by lia. destruct (V e0 (nth_error_In _ _ E0)) as (x0 & d & B1 & B2). exists o2, d. split; auto. congruence.
Qed.
Lemma add_wrangler_sound w o : sound w -> (forall e, In e (wo_entries o) -> exists x d, nth_error (wd_entries w) e = Some x /\ o_data x = Some d) -> sound (mkWorld (wd_entries w) (wd_dicts w) (wd_wranglers w ++ [o])).
Proof.
  intros (S1 & S2) U. split; auto. intros i o' e H I. cbn [wd_wranglers wd_entries] in *. destruct (Nat.lt_ge_cases i (length (wd_wranglers w))) as [L|L]; [rewrite nth_error_app1 in H by auto; eauto|]. rewrite nth_error_app2 in H by auto. apply nth_error_In in H. destruct H as [->|[]]. auto.
Qed.
Lemma step_sound w a : sound w -> sound (fst (act_step w a)).
Proof.
  intros S. pose proof S as (S1 & S2). destruct a as [s|d|sub|i e props mx mp|i e props mx mp|i es|i k v|i sub|i|i j|i]; cbn [act_step]; try (destruct (nth_error (wd_wranglers w) i) as [o|] eqn:O; [|exact S]).
  - cbn [fst]. split; cbn [wd_entries wd_dicts wd_wranglers].
    + intros e x H. destruct (Nat.lt_ge_cases e (length (wd_entries w))) as [L|L]; [rewrite nth_error_app1 in H by auto; apply (S1 e x H)|]. rewrite nth_error_app2 in H by auto. apply nth_error_In in H. destruct H as [<-|[]]. cbn. auto.
    + intros i o e H I. destruct (S2 i o e H I) as (x & d & A & B). exists x, d. split; auto. rewrite nth_error_app1; auto. apply nth_error_Some. congruence.
  - cbn [fst]. split; cbn [wd_entries wd_dicts wd_wranglers]; auto. intros e x H. specialize (S1 e x H). destruct (o_data x), (o_props x); auto. rewrite app_length. lia.
  - cbn [fst]. apply add_wrangler_sound; auto. intros e [].
  - destruct (process w (wo_sub o) e props mx mp) as [w' ok] eqn:P. apply (step_process P S).
  - destruct (process w (wo_sub o) e props mx mp) as [w' ok] eqn:P. destruct (step_process P S) as (A & W & _ & U). destruct ok; cbn [fst]; auto. apply put_wrangler_sound; auto. cbn [wo_entries]. intros e' I. apply in_app_or in I as [I|[<-|[]]]; auto. destruct A as (_ & A2). apply (A2 i o e'); auto. rewrite W; auto.
  - destruct (take_ready w es) as [r ok] eqn:T. cbn [fst]. apply put_wrangler_sound; auto. cbn [wo_entries]. intros e I. apply in_app_or in I as [I|I]; [eauto|apply (take_ready_data T I)].
  - destruct (length (wo_entries o) =? length v)%nat; [|exact S]. destruct (set_props w k v (wo_entries o)) as [w' ok] eqn:P. apply (set_props_sound P S).
  - destruct (update (put_wrangler w i (mkWO sub (wo_entries o))) sub (wo_entries o)) as [w' ok] eqn:P. apply (update_sound P). apply put_wrangler_sound; auto. cbn [wo_entries]. intros e I. eauto.
  - destruct (update w (wo_sub o) (wo_entries o)) as [w' ok] eqn:P. apply (update_sound P S).
  - cbn [fst]. apply put_wrangler_sound; auto. cbn [wo_entries]. intros e I. apply (S2 i o e O). apply in_app_or in I as [I|I]; [rewrite <- (firstn_skipn j); apply in_or_app; auto|rewrite <- (firstn_skipn (Datatypes.S j)); apply in_or_app; auto].
  - destruct (copy_entries w (wo_entries o)) as [[w' r]|] eqn:C; [|exact S]. cbn [fst]. destruct (copy_sound C S) as (A & B); [intros e I; eauto|]. apply add_wrangler_sound; auto.
Qed.
Lemma run_sound acts : forall w, sound w -> sound (act_run acts w).
Proof. induction acts as [|a acts IH]; intros w S; auto. cbn [act_run]. apply IH, step_sound; auto. Qed.
Lemma nothing_sound : sound nothing.
Proof. split; [intros [|e] x H; discriminate H|intros [|i] o e H; discriminate H]. Qed.

(** A wrangler made from the dictionary of another one has the same rows, sizes, occupancies and properties, and shares no entry and no
    dictionary of properties with anything else. *)
Theorem C124_loaded acts i o : let w := act_run acts nothing in nth_error (wd_wranglers w) i = Some o ->
  exists w' o', act_step w (Load i) = (w', true) /\ wd_wranglers w' = wd_wranglers w ++ [o'] /\ let n := length (wd_wranglers w) in
    feature_matrix w' n = feature_matrix w i /\ sizes w' n = sizes w i /\ occupancy_strings w' n = occupancy_strings w i /\ (forall k, property_values w' n k = property_values w i k) /\
    (forall e, nth_error (wd_entries w) e <> None -> nth_error (wd_entries w') e = nth_error (wd_entries w) e) /\
    forall e, In e (wo_entries o') -> length (wd_entries w) <= e /\ forall x r, nth_error (wd_entries w') e = Some x -> o_props x = Some r -> length (wd_dicts w) <= r.
Proof.
  intros w O. destruct (run_sound acts nothing_sound) as (S1 & S2). fold w in S1, S2. cbn [act_step]. rewrite O. assert (V : forall e, In e (wo_entries o) -> e < length (wd_entries w)) by (intros e I; destruct (S2 i o e O I) as (x & d & X & _); apply nth_error_Some; congruence).
  destruct (copy_total V) as (w1 & r & C). rewrite C. destruct (copy_effect C V) as (W & (x & X) & (y & Y) & R & LE & CP). do 2 eexists. split; [reflexivity|]. cbn [wd_wranglers]. rewrite W. split; [reflexivity|]. cbv zeta.
  assert (LR : length r = length (wo_entries o)) by (rewrite R; apply seq_length).
  assert (ALL : forall A (f g : nat -> option A), (forall j e, nth_error (wo_entries o) j = Some e -> f (length (wd_entries w) + j) = g e) -> opt_map f r = opt_map g (wo_entries o)).
  { intros A f g H. rewrite R. clear - H. assert (G : forall es k, (forall j e, nth_error es j = Some e -> f (k + j) = g e) -> opt_map f (seq k (length es)) = opt_map g es); [|apply G; auto].
    induction es as [|e es IH]; intros k F; auto. cbn [length seq opt_map]. rewrite (IH (Datatypes.S k)) by (intros j e' E; rewrite <- (F (Datatypes.S j) e' E); f_equal; lia). pose proof (F 0 e eq_refl) as F0. rewrite Nat.add_0_r in F0. rewrite F0. auto. }
  assert (ED : forall j e, nth_error (wo_entries o) j = Some e -> entry_data w1 (length (wd_entries w) + j) = entry_data w e).
  { intros j e E. destruct (CP j e E) as (o1 & o2 & A1 & A2 & A3 & A4 & _). unfold entry_data. rewrite A1, A2. cbn [option_bind]. rewrite A4, A3. auto. }
  assert (N : nth_error (wd_wranglers w1 ++ [mkWO (wo_sub o) r]) (length (wd_wranglers w)) = Some (mkWO (wo_sub o) r)) by (rewrite W, nth_error_app2, Nat.sub_diag by lia; auto). rewrite W in N.
  unfold feature_matrix, sizes, occupancy_strings, property_values. cbn [wd_wranglers]. rewrite N, O. cbn [option_bind wo_entries wo_sub].
  split; [apply ALL; intros j e E; change (entry_data (mkWorld _ _ _) ?k) with (entry_data w1 k); rewrite (ED j e E); auto|].
  split; [apply ALL; intros j e E; change (entry_data (mkWorld _ _ _) ?k) with (entry_data w1 k); rewrite (ED j e E); auto|].
  split; [apply ALL; intros j e E; change (entry_data (mkWorld _ _ _) ?k) with (entry_data w1 k); rewrite (ED j e E); auto|].
  split.
  - intros k. apply ALL. intros j e E. destruct (CP j e E) as (o1 & o2 & A1 & A2 & A3 & A4 & A5). cbn [wd_entries wd_dicts]. rewrite A1, A2. cbn [option_bind]. specialize (S1 e o1 A1). destruct (o_props o1) as [q|], (o_props o2) as [q'|]; try contradiction; auto. cbn [option_bind]. destruct A5 as (_ & ->); auto. destruct (o_data o1); [auto|contradiction].
  - split; [intros e H; cbn [wd_entries]; rewrite X, nth_error_app1; auto; apply nth_error_Some; auto|]. intros e I. rewrite R in I. apply in_seq in I. split; [lia|]. intros x0 q Hx Hq. cbn [wd_entries] in Hx. destruct (nth_error (wo_entries o) (e - length (wd_entries w))) as [e0|] eqn:E0; [|apply nth_error_None in E0; lia].
    destruct (CP _ _ E0) as (o1 & o2 & A1 & A2 & A3 & A4 & A5). replace (length (wd_entries w) + (e - length (wd_entries w))) with e in A2 by lia. assert (o2 = x0) by congruence. subst o2. rewrite Hq in A5. destruct (o_props o1); [|contradiction]. lia.
Qed.

(** ** Properties *)
(** Every entry is given a dictionary of its own (or none), and no wrangler gets an entry twice. *)
Definition separate w a : Prop :=
  match a with
  | Process i e props _ _ => forall q, props = Some q -> forall e' x, e' <> e -> nth_error (wd_entries w) e' = Some x -> o_props x <> Some q
  | Add i e props _ _ => (forall q, props = Some q -> forall e' x, e' <> e -> nth_error (wd_entries w) e' = Some x -> o_props x <> Some q) /\
                         forall o, nth_error (wd_wranglers w) i = Some o -> ~ In e (wo_entries o)
  | AppendTo i es => forall o, nth_error (wd_wranglers w) i = Some o -> NoDup (wo_entries o ++ es)
  | _ => True
  end.
Fixpoint separate_run (acts : list act) w : Prop := match acts with [] => True | a :: acts' => separate w a /\ separate_run acts' (fst (act_step w a)) end.
Definition own w : Prop :=
  (forall e1 e2 x1 x2 r, nth_error (wd_entries w) e1 = Some x1 -> nth_error (wd_entries w) e2 = Some x2 -> o_props x1 = Some r -> o_props x2 = Some r -> e1 = e2) /\
  (forall i o, nth_error (wd_wranglers w) i = Some o -> NoDup (wo_entries o)).
Lemma process_own w sub e props mx mp w' ok : process w sub e props mx mp = (w', ok) -> sound w -> own w ->
  (forall q, props = Some q -> forall e' x, e' <> e -> nth_error (wd_entries w) e' = Some x -> o_props x <> Some q) -> own w' /\ wd_wranglers w' = wd_wranglers w.
Proof.
  intros P (S1 & S2) (O1 & O2) SEP. destruct ok; [|apply process_effect in P as [(_ & ->)|(X & _)]; [|discriminate]; repeat split; auto]. apply process_dicts in P as (o & d & r & E & EN & W & D). split; auto. split; [|intros i o'; rewrite W; apply O2].
  assert (N : forall e' x, e' <> e -> nth_error (wd_entries w) e' = Some x -> o_props x <> Some r).
  { intros e' x NE X Q. destruct D as [(P & D)|[(P & D1 & _)|(P & D1 & -> & _)]].
    - apply NE. apply (O1 e' e x o r); auto.
    - apply (SEP r D1 e' x NE X Q).
    - specialize (S1 e' x X). rewrite Q in S1. destruct (o_data x); [lia|contradiction]. }
  intros e1 e2 x1 x2 q. rewrite EN, !nth_error_upd. destruct (Nat.eqb_spec e e1) as [<-|N1], (Nat.eqb_spec e e2) as [<-|N2]; intros X1 X2 P1 P2; auto.
  - destruct (e <? length (wd_entries w)); [|discriminate]. injection X1 as <-. cbn [o_props] in P1. injection P1 as <-. destruct (N e2 x2); auto.
  - destruct (e <? length (wd_entries w)); [|discriminate]. injection X2 as <-. cbn [o_props] in P2. injection P2 as <-. destruct (N e1 x1); auto.
  - apply (O1 e1 e2 x1 x2 q); auto.
Qed.
Lemma put_wrangler_own w i o : own w -> NoDup (wo_entries o) -> own (put_wrangler w i o).
Proof. intros (O1 & O2) ND. split; auto. intros j o' H. cbn [put_wrangler wd_wranglers] in H. rewrite nth_error_upd in H. destruct (Nat.eqb_spec i j) as [->|NE]; [|eauto]. destruct (j <? length (wd_wranglers w)); [|discriminate]. injection H as <-. auto. Qed.
Lemma update_own sub es : forall w w' ok, update w sub es = (w', ok) -> own w -> own w'.
Proof.
  induction es as [|e es IH]; intros w w' ok H O; cbn [update] in H; [injection H as <- <-; auto|]. destruct (nth_error (wd_entries w) e) as [o|] eqn:E; [|injection H as <- <-; auto]. cbn [option_bind] in H. destruct (o_data o) as [d|] eqn:D; [|injection H as <- <-; auto]. cbn [option_bind] in H. destruct (corr sub (o_struct o) (d_matrix d) (d_mapping d)) as [f|]; [|injection H as <- <-; auto]. cbn [option_bind] in H. apply (IH _ _ _ H).
  destruct O as (O1 & O2). split; auto. cbn [put_entry wd_entries].
  assert (B : forall e' x, nth_error (upd (wd_entries w) e (mkObj (o_struct o) (Some (mkData (d_matrix d) (d_mapping d) f (d_size d))) (o_props o))) e' = Some x -> exists x0, nth_error (wd_entries w) e' = Some x0 /\ o_props x0 = o_props x).
  { intros e' x X. rewrite nth_error_upd in X. destruct (Nat.eqb_spec e e') as [->|NE]; [|eauto]. destruct (e' <? length (wd_entries w)); [|discriminate]. injection X as <-. eauto. }
  intros e1 e2 x1 x2 r X1 X2 P1 P2. destruct (B _ _ X1) as (y1 & Y1 & Q1). destruct (B _ _ X2) as (y2 & Y2 & Q2). apply (O1 e1 e2 y1 y2 r); congruence.
Qed.
Lemma take_ready_prefix w es : forall r ok, take_ready w es = (r, ok) -> exists rest, es = r ++ rest.
Proof.
  induction es as [|e0 es IH]; intros r ok H; cbn [take_ready] in H; [injection H as <- <-; exists []; auto|]. destruct (let? o := nth_error (wd_entries w) e0 in o_data o); [|injection H as <- <-; exists (e0 :: es); auto]. destruct (take_ready w es) as [r' ok'] eqn:T. injection H as <- <-. destruct (IH _ _ eq_refl) as (rest & ->). exists rest. auto.
Qed.
Lemma NoDup_remove_at {A} (l : list A) j : NoDup l -> NoDup (firstn j l ++ skipn (Datatypes.S j) l).
Proof.
  revert j. induction l as [|x l IH]; intros [|j] ND; cbn; auto; inversion ND as [|? ? NI ND']; subst; auto. constructor; [|apply IH; auto]. intros I. apply NI. apply in_app_or in I as [I|I]; [rewrite <- (firstn_skipn j); apply in_or_app; auto|].
  rewrite <- (firstn_skipn (Datatypes.S j)). apply in_or_app. auto.
Qed.
Lemma NoDup_app_l {A} (l l' : list A) : NoDup (l ++ l') -> NoDup l.
Proof. induction l as [|x l IH]; intros H; [constructor|]. cbn in H. inversion H; subst. constructor; [intros I; apply H2; apply in_or_app; auto|auto]. Qed.
Lemma NoDup_snoc {A} (l : list A) x : NoDup l -> ~ In x l -> NoDup (l ++ [x]).
Proof. intros ND NI. apply NoDup_rev in ND. rewrite <- (rev_involutive (l ++ [x])). apply NoDup_rev. rewrite rev_app_distr. cbn. constructor; auto. rewrite <- in_rev. auto. Qed.
Lemma copy_own w es w' r : copy_entries w es = Some (w', r) -> sound w -> own w -> (forall e, In e es -> e < length (wd_entries w)) -> own w'.
Proof.
  revert w w' r. induction es as [|e es IH]; intros w w' r H S O V; cbn [copy_entries] in H; [injection H as <- <-; auto|]. destruct (nth_error (wd_entries w) e) as [o|] eqn:E; [|discriminate]. cbn [option_bind] in H. destruct (copy_entries (mkWorld (wd_entries w ++ [mkObj (o_struct o) (o_data o) match o_props o with Some _ => Some (length (wd_dicts w)) | None => None end]) match o_props o with Some r0 => wd_dicts w ++ [nth r0 (wd_dicts w) []] | None => wd_dicts w end (wd_wranglers w)) es) as [[w2 r2]|] eqn:C; [|discriminate]. injection H as <- <-.
  destruct S as (S1 & S2). destruct O as (O1 & O2).
  assert (LD : length (wd_dicts w) <= length match o_props o with Some r0 => wd_dicts w ++ [nth r0 (wd_dicts w) []] | None => wd_dicts w end) by (destruct (o_props o); [rewrite app_length|]; lia).
  assert (F : forall e' x q, nth_error (wd_entries w) e' = Some x -> o_props x = Some q -> q < length (wd_dicts w)) by (intros e' x q X Q; specialize (S1 e' x X); rewrite Q in S1; destruct (o_data x); [auto|contradiction]).
  apply (IH _ _ _ C).
  - split; cbn [wd_entries wd_dicts wd_wranglers].
    + intros e' x H. destruct (Nat.lt_ge_cases e' (length (wd_entries w))) as [L|L].
      * rewrite nth_error_app1 in H by auto. specialize (S1 e' x H). destruct (o_data x), (o_props x); auto. lia.
      * rewrite nth_error_app2 in H by auto. apply nth_error_In in H. destruct H as [<-|[]]. cbn [o_data o_props]. specialize (S1 e o E). destruct (o_data o), (o_props o); auto. rewrite app_length. cbn [length]. lia.
    + intros i o' e' H I. destruct (S2 i o' e' H I) as (x & d & A & B). exists x, d. split; auto. rewrite nth_error_app1; auto. apply nth_error_Some. congruence.
  - split; cbn [wd_entries wd_wranglers]; auto. intros e1 e2 x1 x2 q X1 X2 P1 P2.
    destruct (Nat.lt_ge_cases e1 (length (wd_entries w))) as [L1|L1], (Nat.lt_ge_cases e2 (length (wd_entries w))) as [L2|L2].
    + rewrite nth_error_app1 in X1, X2 by auto. apply (O1 e1 e2 x1 x2 q); auto.
    + rewrite nth_error_app1 in X1 by auto. rewrite nth_error_app2 in X2 by auto. apply nth_error_In in X2. destruct X2 as [<-|[]]. cbn [o_props] in P2. destruct (o_props o); [|discriminate]. injection P2 as <-. specialize (F e1 x1 _ X1 P1). lia.
    + rewrite nth_error_app2 in X1 by auto. rewrite nth_error_app1 in X2 by auto. apply nth_error_In in X1. destruct X1 as [<-|[]]. cbn [o_props] in P1. destruct (o_props o); [|discriminate]. injection P1 as <-. specialize (F e2 x2 _ X2 P2). lia.
    + assert (e1 < length (wd_entries w) + 1) by (assert (e1 < length (wd_entries w ++ [mkObj (o_struct o) (o_data o) match o_props o with Some _ => Some (length (wd_dicts w)) | None => None end])) by (apply nth_error_Some; congruence); rewrite app_length in *; auto).
      assert (e2 < length (wd_entries w) + 1) by (assert (e2 < length (wd_entries w ++ [mkObj (o_struct o) (o_data o) match o_props o with Some _ => Some (length (wd_dicts w)) | None => None end])) by (apply nth_error_Some; congruence); rewrite app_length in *; auto). lia.
  - intros e' I. cbn [wd_entries]. rewrite app_length. specialize (V e' (or_intror I)). lia.
Qed.
Lemma step_own w a : sound w -> own w -> separate w a -> own (fst (act_step w a)).
Proof.
  intros S O SEP. pose proof S as (S1 & S2). pose proof O as (O1 & O2). destruct a as [s|d|sub|i e props mx mp|i e props mx mp|i es|i k v|i sub|i|i j|i]; cbn [act_step separate] in *; try (destruct (nth_error (wd_wranglers w) i) as [o|] eqn:OI; [|exact O]).
  - cbn [fst]. split; cbn [wd_entries wd_wranglers]; auto. assert (B : forall e x r, nth_error (wd_entries w ++ [mkObj s None None]) e = Some x -> o_props x = Some r -> nth_error (wd_entries w) e = Some x).
    { intros e x r X P. destruct (Nat.lt_ge_cases e (length (wd_entries w))) as [L|L]; [rewrite nth_error_app1 in X by auto; auto|]. rewrite nth_error_app2 in X by auto. apply nth_error_In in X. destruct X as [<-|[]]. discriminate P. }
    intros e1 e2 x1 x2 r X1 X2 P1 P2. apply (O1 e1 e2 x1 x2 r); eauto.
  - cbn [fst]. split; auto.
  - cbn [fst]. split; auto. intros i o H. cbn [wd_wranglers] in H. destruct (Nat.lt_ge_cases i (length (wd_wranglers w))) as [L|L]; [rewrite nth_error_app1 in H by auto; eauto|]. rewrite nth_error_app2 in H by auto. apply nth_error_In in H. destruct H as [<-|[]]. constructor.
  - destruct (process w (wo_sub o) e props mx mp) as [w' ok] eqn:P. apply (process_own P S O SEP).
  - destruct SEP as (SEP & NI). destruct (process w (wo_sub o) e props mx mp) as [w' ok] eqn:P. destruct (process_own P S O SEP) as (A & W). destruct ok; cbn [fst]; auto. apply put_wrangler_own; auto. cbn [wo_entries]. apply NoDup_snoc; [eauto|]. apply (NI o eq_refl).
  - destruct (take_ready w es) as [r ok] eqn:T. cbn [fst]. apply put_wrangler_own; auto. cbn [wo_entries]. destruct (take_ready_prefix T) as (rest & ->). specialize (SEP o eq_refl). rewrite app_assoc in SEP. apply (NoDup_app_l SEP).
  - destruct (length (wo_entries o) =? length v)%nat; [|exact O]. destruct (set_props w k v (wo_entries o)) as [w' ok] eqn:P. destruct (set_props_effect P) as (E & W). cbn [fst]. split; rewrite ?E, ?W; auto.
  - destruct (update (put_wrangler w i (mkWO sub (wo_entries o))) sub (wo_entries o)) as [w' ok] eqn:P. apply (update_own P). apply put_wrangler_own; auto. cbn [wo_entries]. eauto.
  - destruct (update w (wo_sub o) (wo_entries o)) as [w' ok] eqn:P. apply (update_own P O).
  - cbn [fst]. apply put_wrangler_own; auto. cbn [wo_entries]. apply NoDup_remove_at. eauto.
  - destruct (copy_entries w (wo_entries o)) as [[w' r]|] eqn:C; [|exact O]. cbn [fst]. assert (V : forall e, In e (wo_entries o) -> e < length (wd_entries w)) by (intros e I; destruct (S2 i o e OI I) as (x & d & X & _); apply nth_error_Some; congruence).
    destruct (copy_own C S O V) as (A1 & A2). destruct (copy_effect C V) as (W & _ & _ & R & _ & _). split; auto. intros j o' H. cbn [wd_wranglers] in H. destruct (Nat.lt_ge_cases j (length (wd_wranglers w'))) as [L|L]; [rewrite nth_error_app1 in H by auto; eauto|]. rewrite nth_error_app2 in H by auto. apply nth_error_In in H. destruct H as [<-|[]]. cbn [wo_entries]. rewrite R. apply seq_NoDup.
Qed.
Lemma run_own acts : forall w, sound w -> own w -> separate_run acts w -> own (act_run acts w).
Proof. induction acts as [|a acts IH]; intros w S O C; auto. destruct C as (C1 & C2). cbn [act_run]. apply IH; auto; [apply step_sound; auto|apply step_own; auto]. Qed.

(** The dictionary of an entry. *)
Definition dict_of w (e : nat) : option nat := let? x := nth_error (wd_entries w) e in o_props x.
Lemma set_props_all k : forall es vs w, length es = length vs -> (forall e, In e es -> exists r, dict_of w e = Some r /\ r < length (wd_dicts w)) ->
  (forall e1 e2 r, dict_of w e1 = Some r -> dict_of w e2 = Some r -> e1 = e2) -> NoDup es ->
  exists w', set_props w k vs es = (w', true) /\ length (wd_dicts w') = length (wd_dicts w) /\
    (forall r, (forall e, In e es -> dict_of w e <> Some r) -> nth r (wd_dicts w') [] = nth r (wd_dicts w) []) /\
    forall j e v r, nth_error es j = Some e -> nth_error vs j = Some v -> dict_of w e = Some r -> nth r (wd_dicts w') [] = dset k v (nth r (wd_dicts w) []).
Proof.
  induction es as [|e es IH]; intros [|v vs] w L D INJ ND; try discriminate L; [exists w; repeat split; auto; intros [|j] e v r; discriminate|].
  destruct (D e (or_introl eq_refl)) as (r & R & LT). cbn [set_props]. change (let? o := nth_error (wd_entries w) e in o_props o) with (dict_of w e). rewrite R. set (w1 := put_dict w r (dset k v (nth r (wd_dicts w) []))).
  assert (LD : length (wd_dicts w1) = length (wd_dicts w)) by (cbn [w1 put_dict wd_dicts]; apply length_upd). inversion ND as [|? ? NI ND']; subst.
  assert (U : forall q, nth q (wd_dicts w1) [] = if q =? r then dset k v (nth r (wd_dicts w) []) else nth q (wd_dicts w) []).
  { intros q. cbn [w1 put_dict wd_dicts]. destruct (Nat.eqb_spec q r) as [->|NE]; [apply nth_error_nth; apply nth_error_upd_eq; auto|]. rewrite <- !nth_default_eq. unfold nth_default. rewrite nth_error_upd_neq; auto. }
  destruct (IH vs w1) as (w' & E & LE & N & F); auto.
  { intros e' I. change (dict_of w1 e') with (dict_of w e'). rewrite LD. apply D. right; auto. }
  exists w'. split; auto. split; [congruence|]. split.
  - intros q Q. rewrite N; [|intros e' I; apply Q; right; auto]. rewrite U. destruct (Nat.eqb_spec q r) as [->|]; auto. destruct (Q e (or_introl eq_refl)); auto.
  - intros [|j] e' v' r' E1 E2 R'; cbn [nth_error] in *.
    + injection E1 as <-. injection E2 as <-. assert (r' = r) by congruence. subst r'. rewrite N; [|intros e' I R2; apply NI; change (dict_of w1 e') with (dict_of w e') in R2; rewrite (INJ e e' r R R2); auto]. rewrite U, Nat.eqb_refl. auto.
    + rewrite (F j e' v' r' E1 E2 R'). rewrite U. destruct (Nat.eqb_spec r' r) as [->|]; auto. destruct NI. rewrite (INJ e e' r R R'). eapply nth_error_In; eauto.
Qed.
Lemma opt_map_pointwise {A B} (f : A -> option B) l : forall vs, length l = length vs -> (forall j x v, nth_error l j = Some x -> nth_error vs j = Some v -> f x = Some v) -> opt_map f l = Some vs.
Proof.
  induction l as [|x l IH]; intros [|v vs] L H; try discriminate L; auto. cbn [opt_map]. rewrite (H 0 x v eq_refl eq_refl). rewrite (IH vs); auto. intros j y u Y V. apply (H (Datatypes.S j)); auto.
Qed.
Lemma opt_map_same {A B} (f g : A -> option B) l : (forall x, In x l -> f x = g x) -> opt_map f l = opt_map g l.
Proof. induction l as [|x l IH]; intros H; auto. cbn [opt_map]. rewrite (H x (or_introl eq_refl)), IH; auto. intros y I. apply H. right; auto. Qed.
(** A vector of properties is the one that is read afterwards; other properties and the properties of wranglers that have no entry
    in common stay as they are. *)
Theorem C125_set_partial acts i o k v : separate_run acts nothing -> let w := act_run acts nothing in nth_error (wd_wranglers w) i = Some o -> length v = length (wo_entries o) ->
  exists w', act_step w (SetProps i k v) = (w', true) /\ property_values w' i k = Some v /\
    (forall k', k' <> k -> property_values w' i k' = property_values w i k') /\
    forall j o' k', nth_error (wd_wranglers w) j = Some o' -> (forall e, In e (wo_entries o') -> ~ In e (wo_entries o)) -> property_values w' j k' = property_values w j k'.
Proof.
  intros SEP w O L. pose proof (run_sound acts nothing_sound) as S. fold w in S. assert (OW : own w) by (apply run_own; auto; [apply nothing_sound|split; [intros [|e1] e2 x1 x2 r H; discriminate H|intros [|j] o' H; discriminate H]]). destruct S as (S1 & S2). destruct OW as (O1 & O2).
  assert (D : forall j o' e, nth_error (wd_wranglers w) j = Some o' -> In e (wo_entries o') -> exists r, dict_of w e = Some r /\ r < length (wd_dicts w)).
  { intros j o' e H I. destruct (S2 j o' e H I) as (x & d & X & DX). specialize (S1 e x X). rewrite DX in S1. unfold dict_of. rewrite X. cbn [option_bind]. destruct (o_props x) as [r|]; [eauto|contradiction]. }
  assert (INJ : forall e1 e2 r, dict_of w e1 = Some r -> dict_of w e2 = Some r -> e1 = e2).
  { unfold dict_of. intros e1 e2 r H1 H2. destruct (nth_error (wd_entries w) e1) as [x1|] eqn:X1; [|discriminate]. destruct (nth_error (wd_entries w) e2) as [x2|] eqn:X2; [|discriminate]. cbn [option_bind] in *. apply (O1 e1 e2 x1 x2 r); auto. }
  destruct (@set_props_all k (wo_entries o) v w (eq_sym L) (fun e => D i o e O) INJ (O2 i o O)) as (w' & E & LD & N & F). destruct (set_props_effect E) as (EN & W).
  assert (PV : forall j o' k', nth_error (wd_wranglers w) j = Some o' -> property_values w' j k' = opt_map (fun e => let? r := dict_of w e in dget k' (nth r (wd_dicts w') [])) (wo_entries o')).
  { intros j o' k' H. unfold property_values. rewrite W, H. cbn [option_bind]. apply opt_map_same. intros e _. unfold dict_of. rewrite EN. destruct (nth_error (wd_entries w) e); auto. }
  assert (PW : forall j o' k', nth_error (wd_wranglers w) j = Some o' -> property_values w j k' = opt_map (fun e => let? r := dict_of w e in dget k' (nth r (wd_dicts w) [])) (wo_entries o')).
  { intros j o' k' H. unfold property_values. rewrite H. cbn [option_bind]. apply opt_map_same. intros e _. unfold dict_of. destruct (nth_error (wd_entries w) e); auto. }
  exists w'. cbn [act_step]. rewrite O, L, Nat.eqb_refl. split; auto. split; [|split].
  - rewrite (PV i o k O). apply opt_map_pointwise; auto. intros j e u X V. destruct (D i o e O (nth_error_In _ _ X)) as (r & R & _). rewrite R. cbn [option_bind]. rewrite (F j e u r X V R), dget_dset, Nat.eqb_refl. auto.
  - intros k' NE. rewrite (PV i o k' O), (PW i o k' O). apply opt_map_same. intros e I. destruct (D i o e O I) as (r & R & _). rewrite R. cbn [option_bind]. apply In_nth_error in I as (j & J). destruct (nth_error v j) as [u|] eqn:V; [|apply nth_error_None in V; rewrite L in V; assert (j < length (wo_entries o)) by (apply nth_error_Some; congruence); lia].
    rewrite (F j e u r J V R), dget_dset. destruct (Nat.eqb_spec k k'); [congruence|auto].
  - intros j o' k' H DIS. rewrite (PV j o' k' H), (PW j o' k' H). apply opt_map_same. intros e I. destruct (D j o' e H I) as (r & R & _). rewrite R. cbn [option_bind]. rewrite N; auto. intros e' I' R'. apply (DIS e I). rewrite (INJ e e' r R R'). auto.
Qed.
End Heap.

(** ** Where it fails *)
(** Two subspaces: features are multiples of the number of the structure; the second one does not match structure 9. *)
Definition toy (k : nat) : subspace nat nat unit nat nat :=
  mkSub (fun _ => Some 2) (fun _ => Qc_of_Z 2) (fun _ _ => Some tt) (fun s _ _ => if (s =? 9) && (k =? 2) then None else Some s) (fun o _ => Some (k * o)).
Definition flags (acts : list (act nat nat unit nat nat)) : list bool := snd (fold_left (fun p a => (fst (act_step (fst p) a), snd p ++ [snd (act_step (fst p) a)])) acts (nothing, [])).
Notation toy_add i e := (Add i e None None None).
(** The same entry in two wranglers: the features of the first one become those of the second subspace. *)
Definition shared_acts : list (act nat nat unit nat nat) := [NewEntry 5; NewWrangler (toy 1); NewWrangler (toy 2); toy_add 0 0; toy_add 1 0].
Theorem C124_shared_refuted : forallb (fun b => b) (flags shared_acts) = true /\ let w := act_run shared_acts nothing in
  occupancy_strings w 0 = Some [5] /\ feature_matrix w 0 = Some [10] /\ corr (toy 1) 5 2 tt = Some 5 /\ ~ aligned w.
Proof.
  repeat split; try (vm_compute; reflexivity). intros A. destruct (A 0 _ 0 eq_refl (or_introl eq_refl)) as (s & d & E & C & _). vm_compute in E. injection E as <- <-. vm_compute in C. discriminate C.
Qed.
(** Entries appended from a wrangler with another subspace keep their features. *)
Definition appended_acts : list (act nat nat unit nat nat) := [NewEntry 5; NewWrangler (toy 1); NewWrangler (toy 2); toy_add 0 0; AppendTo 1 [0]].
Theorem C124_appended_refuted : forallb (fun b => b) (flags appended_acts) = true /\ let w := act_run appended_acts nothing in
  occupancy_strings w 1 = Some [5] /\ feature_matrix w 1 = Some [5] /\ corr (toy 2) 5 2 tt = Some 10.
Proof. repeat split; vm_compute; reflexivity. Qed.
(** A change of the subspace that raises: the subspace is the new one, the features are new for some entries and old for others. *)
Definition changed_acts : list (act nat nat unit nat nat) := [NewEntry 5; NewEntry 9; NewEntry 6; NewWrangler (toy 1); toy_add 0 0; toy_add 0 1; toy_add 0 2; Change 0 (toy 2)].
Theorem C124_changed_refuted : flags changed_acts = [true; true; true; true; true; true; true; false] /\ let w := act_run changed_acts nothing in
  feature_matrix w 0 = Some [10; 9; 6] /\ exists o, nth_error (wd_wranglers w) 0 = Some o /\ corr (wo_sub o) 6 2 tt = Some 12.
Proof. repeat split; try (vm_compute; reflexivity). eexists. split; vm_compute; reflexivity. Qed.
(** One dictionary given with two entries: the last value is read for both. *)
Definition dict_acts : list (act nat nat unit nat nat) := [NewEntry 5; NewEntry 6; NewDict [(7, Qc_of_Z 3)]; NewWrangler (toy 1); Add 0 0 (Some 0) None None; Add 0 1 (Some 0) None None; SetProps 0 8 [Qc_of_Z 1; Qc_of_Z 2]].
Theorem C125_dictionary_refuted : forallb (fun b => b) (flags dict_acts) = true /\ property_values (act_run dict_acts nothing) 0 8 = Some [Qc_of_Z 2; Qc_of_Z 2].
Proof. split; vm_compute; reflexivity. Qed.

(** A history with two wranglers, a change of subspace, processed entries, a removal and a copy. *)
Definition good_acts : list (act nat nat unit nat nat) :=
  [NewEntry 5; NewEntry 6; NewEntry 7; NewEntry 8; NewDict [(7, Qc_of_Z 3)]; NewWrangler (toy 1); NewWrangler (toy 2); Add 0 0 (Some 0) None None; toy_add 0 1; toy_add 1 2;
   Process 1 3 None None None; AppendTo 1 [3]; Change 0 (toy 3); SetProps 0 8 [Qc_of_Z 1; Qc_of_Z 2]; Load 0; RemoveAt 0 0; Update 2; SetProps 2 8 [Qc_of_Z 4; Qc_of_Z 5]].
Example C124_case : forallb (fun b => b) (flags good_acts) = true /\ careful_run good_acts nothing /\ separate_run good_acts nothing /\
  let w := act_run good_acts nothing in feature_matrix w 0 = Some [18] /\ feature_matrix w 1 = Some [14; 16] /\ feature_matrix w 2 = Some [15; 18] /\
    property_values w 0 8 = Some [Qc_of_Z 2] /\ property_values w 2 8 = Some [Qc_of_Z 4; Qc_of_Z 5].
Proof.
  split; [vm_compute; reflexivity|]. split; [|split; [|repeat split; vm_compute; reflexivity]].
  - assert (AL : forall (w : world nat nat unit nat nat) i e, forallb (fun j => (j =? i) || negb (existsb (Nat.eqb e) (match nth_error (wd_wranglers w) j with Some o => wo_entries o | None => [] end))) (seq 0 (length (wd_wranglers w))) = true -> alone w i e).
    { intros w i e F j o NE H I. rewrite forallb_forall in F. specialize (F j). rewrite H in F. assert (IN : In j (seq 0 (length (wd_wranglers w)))) by (apply in_seq; split; [lia|]; cbn; apply nth_error_Some; congruence). specialize (F IN). destruct (Nat.eqb_spec j i); [congruence|]. cbn [orb] in F. apply negb_true_iff in F. assert (existsb (Nat.eqb e) (wo_entries o) = true) by (apply existsb_exists; exists e; split; auto; apply Nat.eqb_refl). congruence. }
    unfold good_acts. let rec go := (lazymatch goal with |- careful_run (?a :: ?l) ?w => change (careful w a /\ careful_run l (fst (act_step w a))); split; [cbn [careful]; first [exact I | apply AL; vm_compute; reflexivity | idtac]|go] | |- _ => exact I end) in go.
    + intros o e H IN. vm_compute in H. injection H as <-. destruct IN as [<-|[]]. do 2 eexists. split; [vm_compute; reflexivity|]. split; [vm_compute; reflexivity|vm_compute; reflexivity].
    + split; [vm_compute; reflexivity|]. intros o H. vm_compute in H. injection H as <-. split; [reflexivity|]. intros e IN. vm_compute in IN. destruct IN as [<-|[<-|[]]]; apply AL; vm_compute; reflexivity.
  - unfold good_acts. let rec go := (lazymatch goal with |- separate_run (?a :: ?l) ?w => change (separate w a /\ separate_run l (fst (act_step w a))); split; [cbn [separate]; try exact I|go] | |- _ => exact I end) in go.
    + split; [|intros o H; vm_compute in H; injection H as <-; intros []]. intros q [= <-] e' x NE H. vm_compute in H. do 4 (destruct e' as [|e']; [injection H as <-; discriminate|]). destruct e'; discriminate H.
    + split; [intros q [=]|]. intros o H. vm_compute in H. injection H as <-. cbn. intuition lia.
    + split; [intros q [=]|]. intros o H. vm_compute in H. injection H as <-. cbn. intuition lia.
    + intros q [=].
    + intros o H. vm_compute in H. injection H as <-. cbn. repeat constructor; cbn; intuition lia.
Qed.
Print Assumptions C124_features_partial.
Print Assumptions C124_loaded.
Print Assumptions C125_set_partial.
Example C125_case : separate_run good_acts nothing /\ property_values (act_run good_acts nothing) 2 8 = Some [Qc_of_Z 4; Qc_of_Z 5].
Proof. destruct C124_case as (_ & _ & S & _ & _ & _ & _ & P). auto. Qed.
