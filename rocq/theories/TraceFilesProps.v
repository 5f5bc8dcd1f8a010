(** C139: files of sample containers hold the samples written to them, also when writing fails.
    C140: what is written to a file belongs together. *)
From Verif Require Import LibProofs TraceFiles.
Set Implicit Arguments.
Unset Strict Implicit.
Open Scope nat_scope.

Section Proofs.
Variables (V ensemble : Type).
Variable cast : list nat -> list nat -> V -> option V.

(** ** Specification *)
(** A container all of whose rows are samples. *)
Definition full (s : samples V ensemble) : Prop :=
  NoDup (map (@col_name V) (s_cols s)) /\
  (forall c, In c (s_cols s) -> length (col_rows c) = s_n s /\ exists xs, col_rows c = map Some xs) /\
  In occupancy_name (map (@col_name V) (s_cols s)).
(** What can be read of a traced value: the shape and the samples. *)
Definition reads (s : samples V ensemble) (name : nat) (shape : list nat) (xs : list V) : Prop :=
  exists c, find_col name (s_cols s) = Some c /\ col_shape c = shape /\ col_rows c = map Some xs.
(** A file as HDF5 has it: datasets with different names, all of one length, with room for the samples. *)
Definition file_ok (f : file V ensemble) : Prop :=
  NoDup (map (@col_name V) (f_cols f)) /\ exists len, f_n f <= len /\ forall c, In c (f_cols f) -> length (col_rows c) = len.
(** The same traced values with the same shapes. *)
Definition same_values (s t : samples V ensemble) : Prop :=
  forall name, option_map (@col_shape V) (find_col name (s_cols s)) = option_map (@col_shape V) (find_col name (s_cols t)).

(** ** Proofs *)
Definition key (start : nat) (c : column V) : nat * list nat * nat * list (option V) :=
  (col_name c, col_shape c, length (col_rows c), firstn start (col_rows c)).

Lemma find_name name (cols : list (column V)) c : find_col name cols = Some c -> In c cols /\ col_name c = name.
Proof. intros H. apply find_some in H as (H1 & H2). apply Nat.eqb_eq in H2. auto. Qed.
Lemma find_in (cols : list (column V)) c : NoDup (map (@col_name V) cols) -> In c cols -> find_col (col_name c) cols = Some c.
Proof.
  induction cols as [|d cols IH]; intros HN HI; [destruct HI|]. cbn [find_col find]. inversion HN as [|x y N1 N2]; subst. destruct HI as [->|HI].
  - rewrite Nat.eqb_refl. reflexivity.
  - destruct (Nat.eqb_spec (col_name d) (col_name c)) as [E|E]; [|apply IH; auto]. exfalso. apply N1. rewrite E. apply in_map. exact HI.
Qed.
Lemma find_put name (cols : list (column V)) c : In (col_name c) (map (@col_name V) cols) ->
  find_col name (put_col cols c) = if name =? col_name c then Some c else find_col name cols.
Proof.
  unfold find_col. induction cols as [|d cols IH]; intros HI; [destruct HI|]. cbn [put_col map find].
  destruct (Nat.eqb_spec (col_name d) (col_name c)) as [E|E].
  - destruct (Nat.eqb_spec name (col_name c)) as [->|N]; [rewrite Nat.eqb_refl; reflexivity|].
    destruct (Nat.eqb_spec (col_name c) name) as [X|X]; [congruence|]. destruct (Nat.eqb_spec (col_name d) name) as [Y|Y]; [congruence|].
    clear HI IH. induction cols as [|e cols IH]; [reflexivity|]. cbn [map find].
    destruct (Nat.eqb_spec (col_name e) (col_name c)) as [F|F].
    + destruct (Nat.eqb_spec (col_name c) name); [congruence|]. destruct (Nat.eqb_spec (col_name e) name); [congruence|]. exact IH.
    + destruct (col_name e =? name); [reflexivity|exact IH].
  - destruct HI as [HI|HI]; [congruence|]. specialize (IH HI). destruct (Nat.eqb_spec (col_name d) name) as [Y|Y].
    + subst name. destruct (Nat.eqb_spec (col_name d) (col_name c)); [congruence|]. reflexivity.
    + exact IH.
Qed.
Lemma put_key start (cols : list (column V)) d d' : NoDup (map (@col_name V) cols) -> In d cols -> key start d' = key start d ->
  map (key start) (put_col cols d') = map (key start) cols.
Proof.
  intros HN HI HK. assert (col_name d' = col_name d) as EN by (unfold key in HK; congruence).
  unfold put_col. rewrite map_map. apply map_ext_in. intros e He. destruct (Nat.eqb_spec (col_name e) (col_name d')) as [E|E]; [|reflexivity].
  assert (e = d) as ->; [|exact HK]. pose proof (find_in HN He) as F1. pose proof (find_in HN HI) as F2. congruence.
Qed.
Lemma put_names (cols : list (column V)) d' : map (@col_name V) (put_col cols d') = map (@col_name V) cols.
Proof. unfold put_col. rewrite map_map. apply map_ext. intros e. destruct (Nat.eqb_spec (col_name e) (col_name d')); congruence. Qed.

Lemma write_key start stop v d d' : write_col cast start stop v d = Some d' -> key start d' = key start d.
Proof.
  unfold write_col. set (stop' := Nat.min stop (length (col_rows d))). destruct (Nat.eqb_spec (stop' - start) 0) as [E|E]; [congruence|].
  assert (start < stop' /\ stop' <= length (col_rows d)) as (H1 & H2) by (unfold stop' in *; lia).
  assert (forall new, length new = stop' - start ->
    key start (mkCol (col_name d) (col_shape d) (firstn start (col_rows d) ++ new ++ skipn stop' (col_rows d))) = key start d) as HK.
  { intros new HL. unfold key. cbn [col_name col_shape col_rows]. f_equal; [f_equal|].
    - rewrite !app_length, firstn_length, skipn_length, HL. lia.
    - rewrite firstn_app, firstn_firstn, firstn_length. replace (start - Nat.min start (length (col_rows d))) with 0 by lia. cbn [firstn].
      rewrite app_nil_r. f_equal. lia. }
  destruct (cast_rows cast (col_shape v) (col_shape d) (col_rows v)) as [new|]; [|discriminate]. cbn [option_bind].
  destruct (Nat.eqb_spec (length new) (stop' - start)) as [HL|HL].
  - intros [= <-]. apply HK. exact HL.
  - destruct new as [|x [|y new]]; try discriminate. intros [= <-]. apply HK. apply repeat_length.
Qed.

Lemma write_all_key start stop : forall values cols cols' ok, NoDup (map (@col_name V) cols) ->
  write_all cast start stop values cols = (cols', ok) -> map (key start) cols' = map (key start) cols.
Proof.
  induction values as [|v vs IH]; intros cols cols' ok HN E; cbn [write_all] in E; [congruence|].
  destruct (find_col (col_name v) cols) as [d|] eqn:F; [|congruence]. destruct (write_col cast start stop v d) as [d'|] eqn:W; [|congruence].
  apply find_name in F as (F1 & F2). rewrite (IH _ _ _ ltac:(rewrite put_names; exact HN) E). apply (put_key HN F1). exact (write_key W).
Qed.
Lemma key_loaded start (a b : list (column V)) : map (key start) a = map (key start) b ->
  map (fun c => mkCol (col_name c) (col_shape c) (firstn start (col_rows c))) a = map (fun c => mkCol (col_name c) (col_shape c) (firstn start (col_rows c))) b.
Proof.
  intros H. pose proof (f_equal (map (fun k : nat * list nat * nat * list (option V) => mkCol (fst (fst (fst k))) (snd (fst (fst k))) (snd k))) H) as E.
  rewrite !map_map in E. exact E.
Qed.
Lemma key_names start (a b : list (column V)) : map (key start) a = map (key start) b -> map (@col_name V) a = map (@col_name V) b.
Proof. intros H. pose proof (f_equal (map (fun k : nat * list nat * nat * list (option V) => fst (fst (fst k)))) H) as E. rewrite !map_map in E. exact E. Qed.
Lemma key_find start : forall (a b : list (column V)), map (key start) a = map (key start) b ->
  forall name, option_map (key start) (find_col name a) = option_map (key start) (find_col name b).
Proof.
  induction a as [|c a IH]; intros [|d b] H name; try discriminate H; [reflexivity|]. injection H as H0 H1 H2 H3 H. unfold find_col in *. cbn [find].
  assert (key start c = key start d) as HK by (unfold key; congruence). assert (col_name c = col_name d) as -> by congruence.
  destruct (col_name d =? name); [cbn [option_map]; congruence|apply IH; exact H].
Qed.

Lemma write_all_other start stop : forall values cols cols' ok, write_all cast start stop values cols = (cols', ok) ->
  forall name, ~ In name (map (@col_name V) values) -> find_col name cols' = find_col name cols.
Proof.
  induction values as [|v vs IH]; intros cols cols' ok E name HN; cbn [write_all] in E; [congruence|].
  destruct (find_col (col_name v) cols) as [d|] eqn:F; [|congruence]. destruct (write_col cast start stop v d) as [d'|] eqn:W; [|congruence].
  cbn [map In] in HN. rewrite (IH _ _ _ E name) by tauto. apply find_name in F as (F1 & F2).
  assert (col_name d' = col_name v) as EN by (pose proof (write_key W) as K; unfold key in K; congruence).
  rewrite find_put by (rewrite EN, <- F2; apply in_map; exact F1). destruct (Nat.eqb_spec name (col_name d')) as [->|]; [|reflexivity]. exfalso. apply HN. left. congruence.
Qed.
Lemma write_all_done start stop : forall values cols cols', NoDup (map (@col_name V) values) ->
  write_all cast start stop values cols = (cols', true) ->
  forall v, In v values -> exists d d', find_col (col_name v) cols = Some d /\ write_col cast start stop v d = Some d' /\ find_col (col_name v) cols' = Some d'.
Proof.
  induction values as [|v vs IH]; intros cols cols' HN E w Hw; [destruct Hw|]. cbn [write_all] in E. inversion HN as [|x y N1 N2]; subst.
  destruct (find_col (col_name v) cols) as [d|] eqn:F; [|congruence]. destruct (write_col cast start stop v d) as [d'|] eqn:W; [|congruence].
  pose proof F as F0. apply find_name in F0 as (F1 & F2).
  assert (col_name d' = col_name v) as EN by (pose proof (write_key W) as K; unfold key in K; congruence).
  assert (In (col_name d') (map (@col_name V) cols)) as HI by (rewrite EN, <- F2; apply in_map; exact F1).
  destruct Hw as [<-|Hw].
  - exists d, d'. split; [exact F|]. split; [exact W|]. rewrite (write_all_other E N1). rewrite (find_put _ HI), EN, Nat.eqb_refl. reflexivity.
  - destruct (IH _ _ N2 E w Hw) as (e & e' & G1 & G2 & G3). rewrite (find_put _ HI) in G1.
    destruct (Nat.eqb_spec (col_name w) (col_name d')) as [X|X]; [exfalso; apply N1; rewrite <- EN, <- X; apply in_map; exact Hw|]. eauto.
Qed.
Lemma write_all_ok start stop : forall values cols, NoDup (map (@col_name V) values) ->
  (forall v, In v values -> exists d d', find_col (col_name v) cols = Some d /\ write_col cast start stop v d = Some d') ->
  exists cols', write_all cast start stop values cols = (cols', true).
Proof.
  induction values as [|v vs IH]; intros cols HN H; cbn [write_all]; [eauto|]. inversion HN as [|x y N1 N2]; subst.
  destruct (H v (or_introl eq_refl)) as (d & d' & F & W). rewrite F, W. apply IH; [exact N2|]. intros w Hw.
  destruct (H w (or_intror Hw)) as (e & e' & G1 & G2). pose proof F as F0. apply find_name in F0 as (F1 & F2).
  assert (col_name d' = col_name v) as EN by (pose proof (write_key W) as K; unfold key in K; congruence).
  rewrite find_put by (rewrite EN, <- F2; apply in_map; exact F1).
  destruct (Nat.eqb_spec (col_name w) (col_name d')) as [X|X]; [exfalso; apply N1; rewrite <- EN, <- X; apply in_map; exact Hw|]. eauto.
Qed.

Lemma grow_names k (cols : list (column V)) : map (@col_name V) (map (grow k) cols) = map (@col_name V) cols.
Proof. rewrite map_map. reflexivity. Qed.
Lemma grow_find k name (cols : list (column V)) : find_col name (map (grow k) cols) = option_map (grow k) (find_col name cols).
Proof. unfold find_col. induction cols as [|c cols IH]; [reflexivity|]. cbn [map find grow col_name]. destruct (col_name c =? name); [reflexivity|exact IH]. Qed.
Lemma grow_load k (f : file V ensemble) : file_ok f ->
  load (mkFile (f_ensemble f) (map (grow k) (f_cols f)) (f_n f) (f_steps f)) = load f.
Proof.
  intros (HN & len & Hn & HL). unfold load. cbn [f_ensemble f_cols f_n f_steps]. f_equal. rewrite map_map. apply map_ext_in. intros c Hc.
  cbn [grow col_name col_shape col_rows]. f_equal. rewrite firstn_app, (HL c Hc). replace (f_n f - len) with 0 by lia. cbn [firstn]. apply app_nil_r.
Qed.
(** An opened file reads as before, and has room for what is written. *)
Lemma opened (s : samples V ensemble) f alloc g : file_ok f -> open_file s (Some f) alloc = Some g ->
  file_ok g /\ load g = load f /\ f_n g = f_n f /\ f_steps g = f_steps f /\ f_ensemble g = f_ensemble f /\
  (forall name, option_map (@col_shape V) (find_col name (f_cols g)) = option_map (@col_shape V) (find_col name (f_cols f))) /\
  (forall c, In c (f_cols g) -> alloc + f_n f <= length (col_rows c)).
Proof.
  intros HF. pose proof HF as (HN & len & Hn & HL). unfold open_file. destruct (find_col occupancy_name (s_cols s)) as [mine|]; [|discriminate]. cbn [option_bind].
  destruct (find_col occupancy_name (f_cols f)) as [theirs|] eqn:Ft; [|discriminate]. cbn [option_bind]. destruct (shape_eqb _ _); [|discriminate]. intros [= <-].
  apply find_name in Ft as (Ft & _). rewrite (HL theirs Ft). destruct (Nat.ltb_spec (len - f_n f) alloc) as [L|L].
  - set (k := alloc - (len - f_n f)). split; [|split; [apply grow_load; exact HF|]].
    + split; [cbn [f_cols]; rewrite grow_names; exact HN|]. exists (len + k). split; [cbn [f_n]; lia|]. cbn [f_cols]. intros c Hc.
      apply in_map_iff in Hc as (d & <- & Hd). cbn [grow col_rows]. rewrite app_length, repeat_length, (HL d Hd). reflexivity.
    + cbn [f_n f_steps f_ensemble f_cols]. repeat (split; [reflexivity|]). split.
      * intros name. rewrite grow_find. destruct (find_col name (f_cols f)); reflexivity.
      * intros c Hc. apply in_map_iff in Hc as (d & <- & Hd). cbn [grow col_rows]. rewrite app_length, repeat_length, (HL d Hd). unfold k. lia.
  - split; [exact HF|]. repeat (split; [reflexivity|]). intros c Hc. rewrite (HL c Hc). lia.
Qed.
Lemma key_ok start (f g : file V ensemble) : file_ok f -> map (key start) (f_cols g) = map (key start) (f_cols f) -> f_n g <= f_n f \/ (forall c, In c (f_cols f) -> f_n g <= length (col_rows c)) -> file_ok g.
Proof.
  intros (HN & len & Hn & HL) HK Hle. split; [rewrite (key_names HK); exact HN|]. destruct (f_cols f) as [|c0 cs] eqn:Ec.
  - destruct (f_cols g); [|discriminate HK]. exists (f_n g). split; [lia|]. intros c [].
  - exists len. split.
    + destruct Hle as [Hle|Hle]; [lia|]. specialize (Hle c0 (or_introl eq_refl)). rewrite (HL c0 (or_introl eq_refl)) in Hle. exact Hle.
    + intros c Hc. apply (in_map (key start)) in Hc. rewrite HK in Hc. apply in_map_iff in Hc as (d & Ek & Hd). unfold key in Ek. assert (length (col_rows d) = length (col_rows c)) by congruence. rewrite <- (HL d Hd). auto.
Qed.

(** ** C139 *)
(** When saving raises, the file reads as before: same samples, number of samples and steps. *)
Theorem C139_failed s f f' : file_ok f -> save cast s (Some f) = (Some f', false) -> load f' = load f /\ file_ok f'.
Proof.
  intros HF. unfold save. destruct (open_file s (Some f) (s_n s)) as [g|] eqn:Eo; [|intros [= <-]; auto].
  destruct (opened HF Eo) as (HG & HL & Hn & _). unfold flush_file. destruct (write_all cast (f_n g) (s_n s + f_n g) (s_cols s) (f_cols g)) as [cols ok] eqn:E.
  pose proof (write_all_key (proj1 HG) E) as HK. destruct ok; [discriminate|]. intros [= <-]. split.
  - rewrite <- HL. unfold load. cbn [f_ensemble f_cols f_n f_steps]. f_equal. apply key_loaded. exact HK.
  - apply (key_ok HG (g := mkFile (f_ensemble g) cols (f_n g) (f_steps g)) HK). left. cbn [f_n]. lia.
Qed.
(** A new file, when writing to it raises, has no samples. *)
Theorem C139_failed_new s f' : NoDup (map (@col_name V) (s_cols s)) -> save cast s None = (Some f', false) -> s_n (load f') = 0 /\ s_steps (load f') = 0 /\ file_ok f'.
Proof.
  intros HN. unfold save, open_file, flush_file. assert (file_ok (init_backend s (s_n s))) as HG.
  { split; [cbn [init_backend f_cols]; rewrite map_map; exact HN|]. exists (s_n s). cbn [init_backend f_cols f_n]. split; [lia|]. intros c Hc.
    apply in_map_iff in Hc as (d & <- & _). apply repeat_length. }
  destruct (write_all cast _ _ _ _) as [cols ok] eqn:E. pose proof (write_all_key (proj1 HG) E) as HK. destruct ok; [discriminate|].
  intros [= <-]. cbn. repeat (split; [reflexivity|]). apply (key_ok HG (g := mkFile (s_ensemble s) cols 0 0) HK). left. cbn. lia.
Qed.

Lemma cast_length from to (rows new : list (option V)) : cast_rows cast from to rows = Some new -> length new = length rows.
Proof. apply opt_map_length. Qed.
Lemma cast_same shape (rows : list (option V)) : (forall v, cast shape shape v = Some v) -> cast_rows cast shape shape rows = Some rows.
Proof.
  intros H. unfold cast_rows. induction rows as [|[v|] rows IH]; cbn [opt_map]; [reflexivity| |]; rewrite ?H; cbn [option_bind]; rewrite IH; reflexivity.
Qed.

(** What a finished write leaves. *)
Lemma written start n v d d' : length (col_rows v) = n -> n + start <= length (col_rows d) -> write_col cast start (n + start) v d = Some d' ->
  col_shape d' = col_shape d /\ (n <> 0 -> exists new, cast_rows cast (col_shape v) (col_shape d) (col_rows v) = Some new /\
    firstn (start + n) (col_rows d') = firstn start (col_rows d) ++ new).
Proof.
  intros HL HR. unfold write_col. replace (Nat.min (n + start) (length (col_rows d))) with (n + start) by lia. replace (n + start - start) with n by lia.
  destruct (Nat.eqb_spec n 0) as [E|E].
  - intros [= <-]. split; [reflexivity|]. congruence.
  - destruct (cast_rows cast (col_shape v) (col_shape d) (col_rows v)) as [new|] eqn:EC; [|discriminate]. cbn [option_bind].
    pose proof (cast_length EC) as EL. rewrite HL in EL. rewrite EL, Nat.eqb_refl. intros [= <-]. split; [reflexivity|]. intros _. exists new. split; [reflexivity|].
    cbn [col_rows]. rewrite app_assoc, firstn_app, app_length, firstn_length, EL. replace (start + n - (Nat.min start (length (col_rows d)) + n)) with 0 by lia.
    cbn [firstn]. rewrite app_nil_r. apply firstn_all2. rewrite app_length, firstn_length, EL. lia.
Qed.

Lemma find_loaded name (f : file V ensemble) : find_col name (s_cols (load f)) = option_map (fun c => mkCol (col_name c) (col_shape c) (firstn (f_n f) (col_rows c))) (find_col name (f_cols f)).
Proof. unfold load. cbn [s_cols]. unfold find_col. induction (f_cols f) as [|c cols IH]; [reflexivity|]. cbn [map find col_name]. destruct (col_name c =? name); [reflexivity|exact IH]. Qed.
Lemma shape_eqb_refl a : shape_eqb a a = true.
Proof. unfold shape_eqb. destruct (list_eq_dec Nat.eq_dec a a); congruence. Qed.

Section SameShape.
Hypothesis cast_id : forall shape v, cast shape shape v = Some v.

(** Writing to an opened file with room. *)
Lemma flushed s g : full s -> file_ok g -> (forall c, In c (f_cols g) -> s_n s + f_n g <= length (col_rows c)) -> same_values s (load g) ->
  exists f', flush_file cast s g = (f', true) /\ file_ok f' /\ f_ensemble f' = f_ensemble g /\ f_n f' = f_n g + s_n s /\ f_steps f' = f_steps g + s_steps s /\
    same_values s (load f') /\ forall name shape xs ys, reads s name shape xs -> reads (load g) name shape ys -> reads (load f') name shape (ys ++ xs).
Proof.
  intros (HNs & HRs & _) HG HR HV. unfold flush_file.
  assert (forall v, In v (s_cols s) -> exists d, find_col (col_name v) (f_cols g) = Some d /\ col_shape d = col_shape v) as HD.
  { intros v Hv. specialize (HV (col_name v)). rewrite (find_in HNs Hv), find_loaded in HV. destruct (find_col (col_name v) (f_cols g)) as [d|]; [|discriminate HV].
    cbn in HV. exists d. split; [reflexivity|congruence]. }
  assert (exists cols', write_all cast (f_n g) (s_n s + f_n g) (s_cols s) (f_cols g) = (cols', true)) as (cols & E).
  { apply write_all_ok; [exact HNs|]. intros v Hv. destruct (HD v Hv) as (d & Fd & Sd). exists d. unfold write_col.
    destruct (find_name Fd) as (Id & _). specialize (HR d Id). replace (Nat.min (s_n s + f_n g) (length (col_rows d))) with (s_n s + f_n g) by lia.
    replace (s_n s + f_n g - f_n g) with (s_n s) by lia. destruct (Nat.eqb_spec (s_n s) 0); [eauto|]. rewrite Sd, cast_same by apply cast_id. cbn [option_bind].
    destruct (HRs v Hv) as (-> & _). rewrite Nat.eqb_refl. eauto. }
  rewrite E. pose proof (write_all_key (proj1 HG) E) as HK. pose proof (write_all_done HNs E) as HW. eexists. split; [reflexivity|].
  split; [|cbn [f_ensemble f_n f_steps]; repeat (split; [reflexivity|])].
  { apply (key_ok HG (g := mkFile (f_ensemble g) cols (f_n g + s_n s) (f_steps g + s_steps s)) HK). right. cbn [f_n]. intros c Hc. specialize (HR c Hc). lia. }
  split.
  - intros name. rewrite (HV name), !find_loaded. cbn [f_cols f_n]. pose proof (key_find HK name) as KF.
    destruct (find_col name cols), (find_col name (f_cols g)); try discriminate KF; cbn [option_map col_shape] in *; [|reflexivity]. unfold key in KF. congruence.
  - intros name shape xs ys (v & Fv & Sv & Rv) (c & Fc & Sc & Rc). destruct (find_name Fv) as (Iv & Nv). subst name.
    destruct (HW v Iv) as (d & d' & F1 & W & F2). rewrite find_loaded, F1 in Fc. cbn [option_map] in Fc. injection Fc as <-. cbn [col_shape col_rows] in Sc, Rc.
    destruct (find_name F1) as (Id & _). destruct (HRs v Iv) as (Lv & _). destruct (written Lv (HR d Id) W) as (Sd & Rd).
    exists (mkCol (col_name d') (col_shape d') (firstn (f_n g + s_n s) (col_rows d'))). rewrite find_loaded. cbn [f_cols f_n]. rewrite F2. split; [reflexivity|].
    cbn [col_shape col_rows]. split; [congruence|]. rewrite map_app. destruct (Nat.eq_dec (s_n s) 0) as [Z|NZ].
    + assert (xs = []) as -> by (rewrite Rv, map_length in Lv; destruct xs; [reflexivity|cbn in Lv; lia]). cbn [map]. rewrite app_nil_r, Z, Nat.add_0_r, <- Rc.
      pose proof (write_key W) as K. unfold key in K. congruence.
    + destruct (Rd NZ) as (new & EC & ->). rewrite Sc, <- Sv, cast_same in EC by apply cast_id. injection EC as <-. rewrite Rc, Rv. reflexivity.
Qed.

(** A new file has the samples of the container. *)
Theorem C139_new s : full s -> exists f, save cast s None = (Some f, true) /\ file_ok f /\ same_values s (load f) /\
  s_ensemble (load f) = s_ensemble s /\ s_n (load f) = s_n s /\ s_steps (load f) = s_steps s /\
  forall name shape xs, reads s name shape xs -> reads (load f) name shape xs.
Proof.
  intros HF. pose proof HF as (HN & HR & HO). unfold save. cbn [open_file]. set (g := init_backend s (s_n s)).
  assert (forall name, find_col name (f_cols g) = option_map (empty_rows (s_n s)) (find_col name (s_cols s))) as FG.
  { intros name. unfold g, find_col. cbn [init_backend f_cols]. generalize (s_cols s) as cols. induction cols as [|c cols IH]; [reflexivity|].
    cbn [map find empty_rows col_name]. destruct (col_name c =? name); [reflexivity|exact IH]. }
  destruct (@flushed s g HF) as (f & E & Hok & He & Hn & Hs & Hv & Hr).
  - split; [unfold g; cbn [init_backend f_cols]; rewrite map_map; exact HN|]. exists (s_n s). split; [cbn; lia|]. intros c Hc. unfold g in Hc. cbn [init_backend f_cols] in Hc. apply in_map_iff in Hc as (d & <- & _). apply repeat_length.
  - intros c Hc. unfold g in *. cbn [init_backend f_cols f_n] in *. apply in_map_iff in Hc as (d & <- & _). cbn [empty_rows col_rows]. rewrite repeat_length. lia.
  - intros name. rewrite find_loaded, FG. destruct (find_col name (s_cols s)); reflexivity.
  - rewrite E. exists f. split; [reflexivity|]. split; [exact Hok|]. split; [exact Hv|]. split; [exact He|]. split; [exact Hn|]. split; [exact Hs|].
    intros name shape xs Hx. apply (Hr name shape xs [] Hx). destruct Hx as (v & Fv & Sv & Rv). eexists. rewrite find_loaded, FG, Fv. split; [reflexivity|]. split; [exact Sv|reflexivity].
Qed.
(** Saving to a file appends the samples of all traced values. *)
Theorem C139_append s f : full s -> file_ok f -> same_values s (load f) -> exists f', save cast s (Some f) = (Some f', true) /\ file_ok f' /\ same_values s (load f') /\
  s_ensemble (load f') = s_ensemble (load f) /\ s_n (load f') = s_n (load f) + s_n s /\ s_steps (load f') = s_steps (load f) + s_steps s /\
  forall name shape xs ys, reads s name shape xs -> reads (load f) name shape ys -> reads (load f') name shape (ys ++ xs).
Proof.
  intros HF Hok HV. pose proof HF as (HN & HR & HO). unfold save.
  destruct (open_file s (Some f) (s_n s)) as [g|] eqn:Eo.
  - destruct (opened Hok Eo) as (HG & HL & Hn & Hs & He & _ & Hroom). destruct (@flushed s g HF HG) as (f' & E & Hok' & He' & Hn' & Hs' & Hv & Hr).
    + rewrite Hn. exact Hroom.
    + rewrite HL. exact HV.
    + rewrite E. exists f'. split; [reflexivity|]. split; [exact Hok'|]. split; [exact Hv|]. cbn [load s_ensemble s_n s_steps]. rewrite He', Hn', Hs', He, Hn, Hs.
      repeat (split; [reflexivity|]). intros name shape xs ys Hx Hy. apply Hr; [exact Hx|]. rewrite HL. exact Hy.
  - exfalso. unfold open_file in Eo. apply in_map_iff in HO as (c & Ec & Hc). specialize (HV occupancy_name). rewrite find_loaded in HV.
    rewrite <- Ec, (find_in HN Hc), Ec in *. cbn [option_bind] in Eo. destruct (find_col occupancy_name (f_cols f)) as [d|]; [|discriminate HV].
    cbn [option_map col_shape option_bind] in *. injection HV as HV. rewrite HV, shape_eqb_refl in Eo. discriminate Eo.
Qed.

(** Any number of containers with the same traced values. *)
Fixpoint save_all (old : option (file V ensemble)) (ss : list (samples V ensemble)) : option (file V ensemble) * bool :=
  match ss with
  | [] => (old, true)
  | s :: ss' => let (f, ok) := save cast s old in if ok then save_all f ss' else (f, false)
  end.
Lemma same_trans s t u : same_values s t -> same_values s u -> same_values t u.
Proof. intros A B name. rewrite <- (A name). apply B. Qed.
Lemma history_from ss : forall f, file_ok f -> (forall s, In s ss -> full s /\ same_values s (load f)) ->
  exists f', save_all (Some f) ss = (Some f', true) /\ file_ok f' /\ s_ensemble (load f') = s_ensemble (load f) /\
    s_n (load f') = s_n (load f) + list_sum (map (@s_n V ensemble) ss) /\ s_steps (load f') = s_steps (load f) + list_sum (map (@s_steps V ensemble) ss) /\
    forall name shape ys xss, reads (load f) name shape ys -> Forall2 (fun s xs => reads s name shape xs) ss xss -> reads (load f') name shape (ys ++ concat xss).
Proof.
  induction ss as [|s ss IH]; intros f Hok H; cbn [save_all].
  - exists f. repeat (split; [auto; cbn; lia|]). intros name shape ys xss Hy HX. inversion HX. cbn. rewrite app_nil_r. exact Hy.
  - destruct (H s (or_introl eq_refl)) as (Hf & Hv). destruct (C139_append Hf Hok Hv) as (f1 & E1 & Hok1 & Hv1 & He1 & Hn1 & Hs1 & Hr1). rewrite E1.
    destruct (IH f1 Hok1) as (f' & E' & Hok' & He' & Hn' & Hs' & Hr').
    + intros t Ht. destruct (H t (or_intror Ht)) as (Ft & Vt). split; [exact Ft|]. intros name. rewrite (Vt name), <- (Hv name). apply Hv1.
    + exists f'. split; [exact E'|]. split; [exact Hok'|]. cbn [map list_sum fold_right]. unfold list_sum in *. split; [congruence|]. split; [lia|]. split; [lia|].
      intros name shape ys xss Hy HX. inversion HX as [|a b c d Ha Hc]; subst. cbn [concat]. rewrite app_assoc. apply Hr'; [|exact Hc]. apply Hr1; assumption.
Qed.
Theorem C139_history s ss : full s -> (forall t, In t ss -> full t /\ same_values t s) ->
  exists f, save_all None (s :: ss) = (Some f, true) /\ s_ensemble (load f) = s_ensemble s /\
    s_n (load f) = list_sum (map (@s_n V ensemble) (s :: ss)) /\ s_steps (load f) = list_sum (map (@s_steps V ensemble) (s :: ss)) /\
    forall name shape xss, Forall2 (fun t xs => reads t name shape xs) (s :: ss) xss -> reads (load f) name shape (concat xss).
Proof.
  intros Hf H. cbn [save_all]. destruct (C139_new Hf) as (f1 & E1 & Hok1 & Hv1 & He1 & Hn1 & Hs1 & Hr1). rewrite E1.
  destruct (@history_from ss f1 Hok1) as (f' & E' & Hok' & He' & Hn' & Hs' & Hr').
  - intros t Ht. destruct (H t Ht) as (Ft & Vt). split; [exact Ft|]. intros name. rewrite (Vt name). apply Hv1.
  - exists f'. split; [exact E'|]. cbn [map list_sum fold_right]. unfold list_sum in *. split; [congruence|]. split; [lia|]. split; [lia|].
    intros name shape xss HX. inversion HX as [|a b c d Ha Hc]; subst. cbn [concat]. apply Hr'; [|exact Hc]. apply Hr1. exact Ha.
Qed.
End SameShape.

(** ** C140 *)
(** If the container has all traced values of the file and saving returns, all that is read was
    written. *)
Definition all_written (s : samples V ensemble) : Prop := forall c, In c (s_cols s) -> exists xs, col_rows c = map Some xs.
Lemma cast_written from to (rows new : list (option V)) : cast_rows cast from to rows = Some new -> (exists xs, rows = map Some xs) -> exists ys, new = map Some ys.
Proof.
  intros E (xs & ->). revert new E. unfold cast_rows. induction xs as [|x xs IH]; intros new E; cbn [map opt_map] in E; [injection E as <-; exists []; reflexivity|].
  destruct (cast from to x) as [w|]; [|discriminate]. cbn [option_bind] in E. destruct (opt_map _ (map Some xs)) as [l|] eqn:El; [|discriminate]. cbn [option_bind] in E.
  injection E as <-. destruct (IH l eq_refl) as (ys & ->). exists (w :: ys). reflexivity.
Qed.
Theorem C140_written_partial s f f' : full s -> file_ok f -> all_written (load f) ->
  (forall c, In c (f_cols f) -> In (col_name c) (map (@col_name V) (s_cols s))) -> save cast s (Some f) = (Some f', true) -> all_written (load f').
Proof.
  intros (HN & HR & HO) Hok HW HC. unfold save. destruct (open_file s (Some f) (s_n s)) as [g|] eqn:Eo; [|discriminate].
  destruct (opened Hok Eo) as (HG & HL & Hn & _ & _ & Hsh & Hroom). unfold flush_file. destruct (write_all cast (f_n g) (s_n s + f_n g) (s_cols s) (f_cols g)) as [cols ok] eqn:E.
  destruct ok; [|discriminate]. intros [= <-]. pose proof (write_all_key (proj1 HG) E) as HK. pose proof (write_all_done HN E) as HD.
  rewrite <- HL in HW. intros c Hc. cbn [load s_cols f_cols f_n] in Hc. apply in_map_iff in Hc as (d' & <- & Hd'). cbn [col_rows].
  assert (NoDup (map (@col_name V) cols)) as HNc by (rewrite (key_names HK); apply HG).
  pose proof (find_in HNc Hd') as Fd'. pose proof (key_find HK (col_name d')) as KF. rewrite Fd' in KF. destruct (find_col (col_name d') (f_cols g)) as [e|] eqn:Fe; [|discriminate KF].
  assert (In (col_name d') (map (@col_name V) (s_cols s))) as HI.
  { specialize (Hsh (col_name d')). rewrite Fe in Hsh. destruct (find_col (col_name d') (f_cols f)) as [e0|] eqn:F0; [|discriminate Hsh].
    destruct (find_name F0) as (I0 & <-). apply HC. exact I0. }
  apply in_map_iff in HI as (v & Nv & Iv). destruct (HD v Iv) as (d & d2 & F1 & W & F2). rewrite Nv in *. assert (d2 = d') as -> by congruence. assert (d = e) as -> by congruence.
  destruct (find_name Fe) as (Ie & _). destruct (HR v Iv) as (Lv & Xv). pose proof (Hroom e Ie) as Re. rewrite <- Hn in Re. destruct (written Lv Re W) as (_ & Rd).
  assert (exists ys, firstn (f_n g) (col_rows e) = map Some ys) as (ys & Ey).
  { apply (HW (mkCol (col_name e) (col_shape e) (firstn (f_n g) (col_rows e)))). cbn [load s_cols]. apply in_map_iff. exists e. auto. }
  destruct (Nat.eq_dec (s_n s) 0) as [Z|NZ].
  - exists ys. rewrite Z, Nat.add_0_r, <- Ey. pose proof (write_key W) as K. unfold key in K. congruence.
  - destruct (Rd NZ) as (new & EC & ->). destruct (cast_written EC Xv) as (zs & ->). exists (ys ++ zs). rewrite map_app, Ey. reflexivity.
Qed.
End Proofs.

(** A file with another traced value (say, one of a kernel with a bias) takes samples without it; what is
    read for it was never written. *)
Definition plain_cast (a b : list nat) (v : nat) : option nat := if shape_eqb a b then Some v else None.
Definition ex_old : samples nat nat := mkSamples 1 [mkCol 0 [1; 2] [Some 10; Some 11]; mkCol 5 [1; 1] [Some 20; Some 21]] 2 4.
Definition ex_new : samples nat nat := mkSamples 2 [mkCol 0 [1; 2] [Some 12]] 1 2.
Theorem C140_values_refuted : ~ (forall s f f', full s -> file_ok f -> all_written (load f) -> save plain_cast s (Some f) = (Some f', true) -> all_written (load (ensemble := nat) f')).
Proof.
  intros H. destruct (save plain_cast ex_old None) as [[f|] b] eqn:E; vm_compute in E; [|discriminate]. injection E as <- <-.
  match type of H with _ => specialize (H ex_new (mkFile 1 [mkCol 0 [1; 2] [Some 10; Some 11]; mkCol 5 [1; 1] [Some 20; Some 21]] 2 4)) end.
  specialize (H (mkFile 1 [mkCol 0 [1; 2] [Some 10; Some 11; Some 12]; mkCol 5 [1; 1] [Some 20; Some 21; None]] 3 6)).
  assert (full ex_new) as H1.
  { split; [repeat constructor; auto|]. split; [|left; reflexivity]. intros c [<-|[]]. split; [reflexivity|]. exists [12]. reflexivity. }
  assert (file_ok (mkFile 1 [mkCol 0 [1; 2] [Some 10; Some 11]; mkCol 5 [1; 1] [Some 20; Some 21]] 2 4)) as H2.
  { split; [repeat constructor; cbn; intuition congruence|]. exists 2. split; [cbn; lia|]. intros c [<-|[<-|[]]]; reflexivity. }
  assert (all_written (load (mkFile 1 [mkCol 0 [1; 2] [Some 10; Some 11]; mkCol 5 [1; 1] [Some 20; Some 21]] 2 4))) as H3.
  { intros c [<-|[<-|[]]]; [exists [10; 11]|exists [20; 21]]; reflexivity. }
  specialize (H H1 H2 H3 eq_refl). destruct (H _ (or_intror (or_introl eq_refl))) as (xs & X). cbn in X. destruct xs as [|? [|? [|? ?]]]; discriminate X.
Qed.
(** Samples of another ensemble are added to the file when the occupancies have the same shape; all of them are read
    as samples of the first. *)
Theorem C140_ensembles_refuted : ~ (forall s f f', full s -> file_ok f -> same_values s (load f) -> save plain_cast s (Some f) = (Some f', true) -> s_n s <> 0 -> s_ensemble s = s_ensemble (load (ensemble := nat) f')).
Proof.
  intros H. specialize (H ex_new (mkFile 1 [mkCol 0 [1; 2] [Some 10; Some 11]] 2 4) (mkFile 1 [mkCol 0 [1; 2] [Some 10; Some 11; Some 12]] 3 6)).
  assert (full ex_new) as H1.
  { split; [repeat constructor; auto|]. split; [|left; reflexivity]. intros c [<-|[]]. split; [reflexivity|]. exists [12]. reflexivity. }
  assert (file_ok (mkFile 1 [mkCol 0 [1; 2] [Some 10; Some 11]] 2 4)) as H2.
  { split; [repeat constructor; auto|]. exists 2. split; [cbn; lia|]. intros c [<-|[]]; reflexivity. }
  assert (same_values ex_new (load (mkFile 1 [mkCol 0 [1; 2] [Some 10; Some 11]] 2 4))) as H3.
  { intros name. unfold find_col. cbn. destruct name; reflexivity. }
  specialize (H H1 H2 H3 eq_refl ltac:(discriminate)). discriminate H.
Qed.

Example C139_case : full ex_old /\ same_values ex_old ex_old /\ (forall shape v, plain_cast shape shape v = Some v) /\
  exists f, save_all plain_cast None [ex_old; ex_old] = (Some f, true) /\ reads (load f) 5 [1; 1] [20; 21; 20; 21] /\
  (** a container with a value that the file does not have raises and changes nothing that is read *)
  exists f', save plain_cast (mkSamples 1 [mkCol 0 [1; 2] [Some 12]; mkCol 9 [1] [Some 7]] 1 1) (Some f) = (Some f', false) /\ f' <> f /\ load f' = load f.
Proof.
  split.
  { split; [repeat constructor; cbn; intuition congruence|]. split; [|left; reflexivity]. intros c [<-|[<-|[]]]; (split; [reflexivity|]); [exists [10; 11]|exists [20; 21]]; reflexivity. }
  split; [intros name; reflexivity|]. split; [intros shape v; unfold plain_cast; rewrite shape_eqb_refl; reflexivity|].
  eexists. split; [vm_compute; reflexivity|]. split; [eexists; split; [reflexivity|split; reflexivity]|]. eexists. split; [vm_compute; reflexivity|]. split; [discriminate|reflexivity].
Qed.
Example C140_case : exists f, save plain_cast ex_old None = (Some f, true) /\ all_written (load f) /\ file_ok f /\
  (forall c, In c (f_cols f) -> In (col_name c) (map (@col_name nat) (s_cols ex_old))) /\ exists f', save plain_cast ex_old (Some f) = (Some f', true).
Proof.
  eexists. split; [vm_compute; reflexivity|]. split; [intros c [<-|[<-|[]]]; [exists [10; 11]|exists [20; 21]]; reflexivity|].
  split; [split; [repeat constructor; cbn; intuition congruence|exists 2; split; [cbn; lia|intros c [<-|[<-|[]]]; reflexivity]]|].
  split; [intros c [<-|[<-|[]]]; cbn; auto|]. eexists. vm_compute. reflexivity.
Qed.

Print Assumptions C139_failed.
Print Assumptions C139_failed_new.
Print Assumptions C139_new.
Print Assumptions C139_append.
Print Assumptions C139_history.
Print Assumptions C140_written_partial.
Print Assumptions C140_values_refuted.
Print Assumptions C140_ensembles_refuted.
