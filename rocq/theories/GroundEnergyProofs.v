(** Proofs for C52 and C76. *)
From Verif Require Export GroundEnergy.
From Verif Require Import LibProofs SublatticeSpec SublatticeProofs EvaluatorSpec EvaluatorProofs EvaluatorProps ExpansionProps EwaldProps GroundStateProps GroundTermsProps.
Set Implicit Arguments.
Unset Strict Implicit.
Open Scope nat_scope.

Notation zero_nat := 0%nat (only parsing).
Definition mark_value (x : list Qc) (m : mark) : Qc := match m with Var v => nth v x 0%Qc | Always => 1%Qc | Never => 0%Qc end.
(** Value of a list of products with factors. *)
Definition bval (x : list Qc) (l : bucket) : Qc := qsum (map (fun p => snd p * monomial x (fst p))%Qc l).
Lemma bval_app x a b : bval x (a ++ b) = (bval x a + bval x b)%Qc.
Proof. unfold bval. rewrite map_app, qsum_app. auto. Qed.
Lemma bval_concat x ls : bval x (concat ls) = qsum (map (bval x) ls).
Proof. induction ls as [|l ls IH]; cbn [concat map qsum]; auto. rewrite bval_app, IH. auto. Qed.

(** The values of the variables of a site select one code. *)
Record picked (x : list Qc) (ms : list mark) (c : nat) : Prop := {
  pk_lt : c < length ms;
  pk_value : forall c' m, nth_error ms c' = Some m -> mark_value x m = if c' =? c then 1%Qc else 0%Qc;
  pk_nodup : NoDup (site_states ms);
  pk_in : In c (site_states ms);
  pk_states : forall c', In c' (site_states ms) -> exists m, nth_error ms c' = Some m /\ m <> Never
}.
Lemma vars_nil ms v : vars_of ms = [] -> ~ In (Var v) ms.
Proof. intros E H. apply vars_of_In in H. rewrite E in H. contradiction. Qed.
Lemma picked_decoded origs sls init ids marks n x s c : var_layout origs sls -> marks_ok origs sls init ids marks n -> site_of sls init ids marks x s c ->
  exists ms orig, nth_error marks s = Some ms /\ nth_error origs s = Some orig /\ length ms = length orig /\ picked x ms c.
Proof.
  intros LAY MO (ms & k & sl & a & b & Hm & Hk & Hsl & Hin & Hsite & OK & Hc & HA & HF).
  assert (HsN : s < length origs) by (rewrite <- (mo_len MO); apply nth_error_Some; congruence).
  destruct (mo_site MO HsN) as (ms' & _ & _ & _ & _ & orig & Hm' & _ & _ & _ & _ & Ho & Lo & _). assert (ms' = ms) by congruence. subst ms'.
  exists ms, orig. repeat (split; [assumption|]). destruct (free_dec origs sl s) as [F|F].
  - destruct (so_free OK F) as (_ & V & P & NA). destruct (HF F) as (i & v & Hi & Hv & Hw). pose proof (free_enc_pos LAY Hin F) as LE.
    assert (ND : NoDup (sl_encoding sl)) by (apply sorted_NoDup, (lay_sorted LAY Hin)).
    destruct (vars_find_all ms) as [LV VF]. change (find_all _ ms) with (find_all is_var ms) in LV, VF. rewrite P in LV, VF.
    assert (SS : site_states ms = sl_encoding sl).
    { unfold site_states. destruct (vars_of ms); [simpl in LV; lia|]. exact P. }
    assert (AT : forall j c', nth_error (sl_encoding sl) j = Some c' -> exists w, nth_error (vars_of ms) j = Some w /\ nth_error ms c' = Some (Var w)).
    { intros j c' Hj. destruct (nth_error (vars_of ms) j) as [w|] eqn:Ew; [|apply nth_error_None in Ew; assert (j < length (sl_encoding sl)) by (apply nth_error_Some; congruence); lia].
      destruct (VF j w Ew) as (c'' & H1 & H2). assert (c'' = c') by congruence. subst. eauto. }
    constructor.
    + destruct (AT i c Hi) as (w & _ & Hcw). apply nth_error_Some. congruence.
    + intros c' m Hc'. destruct m as [w| |]; simpl.
      * assert (I : In c' (sl_encoding sl)) by (rewrite <- P; apply find_all_In; exists (Var w); auto). apply In_nth_error in I as [j Hj]. destruct (AT j c' Hj) as (w' & H1 & H2). assert (w' = w) by congruence. subst w'.
        rewrite (Hw j w H1). destruct (Nat.eqb_spec j i) as [->|N].
        -- assert (c' = c) by congruence. subst. rewrite Nat.eqb_refl. auto.
        -- destruct (Nat.eqb_spec c' c) as [->|]; auto. exfalso. apply N. rewrite NoDup_nth_error in ND. apply ND; [apply nth_error_Some; congruence|congruence].
      * exfalso. apply NA. eapply nth_error_In; eauto.
      * destruct (Nat.eqb_spec c' c) as [->|]; auto. destruct (AT i c Hi) as (w & _ & H). congruence.
    + rewrite SS. auto.
    + rewrite SS. eapply nth_error_In; eauto.
    + intros c'. rewrite SS. intros I. apply In_nth_error in I as [j Hj]. destruct (AT j c' Hj) as (w & _ & H). exists (Var w). split; auto. discriminate.
  - destruct (so_fixed OK F) as (_ & V & c0 & P & _ & _). unfold site_code in Hc. rewrite V in Hc. change (find_all _ ms) with (find_all is_always ms) in Hc. rewrite P in Hc. simpl in Hc. injection Hc as ->.
    assert (SS : site_states ms = [c]) by (unfold site_states; rewrite V; exact P).
    assert (AL : forall c', nth_error ms c' = Some Always <-> c' = c).
    { intros c'. pose proof (find_all_In is_always ms c') as I. rewrite P in I. simpl in I. split.
      - intros H. assert (c = c' \/ False) as [->|[]]; auto. apply I. exists Always. auto.
      - intros ->. destruct (proj1 I (or_introl eq_refl)) as ([v| |] & H1 & H2); try discriminate. auto. }
    constructor.
    + apply nth_error_Some. rewrite (proj2 (AL c) eq_refl). discriminate.
    + intros c' m Hc'. destruct m as [w| |]; simpl.
      * exfalso. apply (vars_nil (v := w) V). eapply nth_error_In; eauto.
      * apply AL in Hc'. subst. rewrite Nat.eqb_refl. auto.
      * destruct (Nat.eqb_spec c' c) as [->|]; auto. rewrite (proj2 (AL c) eq_refl) in Hc'. discriminate.
    + rewrite SS. repeat constructor; auto.
    + rewrite SS. simpl. auto.
    + intros c'. rewrite SS. intros [<-|[]]. exists Always. split; [apply AL; auto|discriminate].
Qed.

Lemma cseq_nth {A} (l : list A) o s y : nth_error (combine (seq o (length l)) l) s = Some y <-> fst y = o + s /\ nth_error l s = Some (snd y).
Proof. apply (combine_seq_nth []). Qed.
Lemma qdot_qmap2 a b : qsum (qmap2 Qcmult a b) = qdot a b.
Proof. revert b. induction a as [|u a IH]; intros [|v b]; auto. unfold qmap2 in *. cbn [combine map qsum qdot fst snd]. rewrite IH. auto. Qed.

Section Pick.
Variables (x : list Qc) (marks : list (list mark)) (occu : list nat) (sd : nat -> nat) (N : nat).
Hypothesis PL : length marks = N.
Hypothesis OL : length occu = N.
Hypothesis PK : forall s ms c, nth_error marks s = Some ms -> nth_error occu s = Some c -> picked x ms c /\ length ms = sd s.

Lemma at_site s : s < N -> exists ms c, nth_error marks s = Some ms /\ nth_error occu s = Some c /\ picked x ms c /\ length ms = sd s.
Proof using All.
  intros H. destruct (nth_error marks s) as [ms|] eqn:E; [|apply nth_error_None in E; lia]. destruct (nth_error occu s) as [c|] eqn:E'; [|apply nth_error_None in E'; lia].
  exists ms, c. destruct (PK E E'). auto.
Qed.
Lemma picked_codes : codes_ok sd N occu.
Proof using All.
  split; auto. intros s c H. assert (s < N) by (rewrite <- OL; apply nth_error_Some; congruence). destruct (at_site H0) as (ms & c' & H1 & H2 & P & L). assert (c' = c) by congruence. subst. rewrite <- L. apply (pk_lt P).
Qed.

Definition mark_at (s c : nat) : mark := nth c (nth s marks []) Never.
Lemma mark_at_eq s ms c m : nth_error marks s = Some ms -> nth_error ms c = Some m -> mark_at s c = m.
Proof using. clear. intros H1 H2. unfold mark_at. rewrite (nth_error_nth _ _ _ H1). apply nth_error_nth; auto. Qed.
Definition states_value (row st : list nat) : Qc := fold_right Qcmult 1%Qc (map (fun p => mark_value x (mark_at (fst p) (snd p))) (combine row st)).
Lemma marks_of_row row : (forall s, In s row -> s < N) -> opt_map (nth_error marks) row = Some (map (fun s => nth s marks []) row).
Proof using PL.
  intros H. apply opt_map_map. intros s Hs. apply nth_error_nth'. rewrite PL. auto.
Qed.
Lemma qsum_flat_map {A B} (f : B -> Qc) (g : A -> list B) l : qsum (map f (flat_map g l)) = qsum (map (fun a => qsum (map f (g a))) l).
Proof using. clear. induction l as [|a l IH]; cbn [flat_map map qsum]; auto. rewrite map_app, qsum_app, IH. auto. Qed.
Lemma qsum_select {A} (l : list A) (f : A -> Qc) a : NoDup l -> In a l -> (forall b, In b l -> b <> a -> f b = 0%Qc) -> qsum (map f l) = f a.
Proof using.
  clear.
  intros ND Hin H. induction l as [|b l IH]; [contradiction|]. cbn [map qsum]. apply NoDup_cons_iff in ND as [N0 ND]. destruct Hin as [->|Hin].
  - rewrite qsum_map_0; [ring|]. intros b Hb. apply H; [right; auto|]. intros ->. contradiction.
  - rewrite IH; auto; [|intros; apply H; auto; right; auto]. rewrite H; [ring|left; auto|]. intros ->. contradiction.
Qed.
Lemma product_sum row : (forall s, In s row -> s < N) -> forall F : list nat -> Qc,
  qsum (map (fun st => F st * states_value row st)%Qc (states_product (map site_states (map (fun s => nth s marks []) row)))) = F (map (fun s => nth s occu 0) row).
Proof using All.
  induction row as [|s row IH]; intros H F; cbn [map states_product]; [unfold states_value; simpl; ring|].
  assert (H' : forall s', In s' row -> s' < N) by (intros; apply H; simpl; auto). destruct (@at_site s) as (ms & c & Hm & Hc & P & L); [apply H; simpl; auto|].
  rewrite (nth_error_nth _ _ [] Hm), (nth_error_nth _ _ 0 Hc). rewrite qsum_flat_map.
  rewrite (qsum_map_ext _ (fun c' => (mark_value x (mark_at s c') * F (c' :: map (fun s => nth s occu 0%nat) row))%Qc)).
  - rewrite (qsum_select (pk_nodup P) (pk_in P)).
    + destruct (pk_states P (pk_in P)) as (m & E & _). rewrite (mark_at_eq Hm E), (pk_value P E), Nat.eqb_refl. ring.
    + intros c' I Ne. destruct (pk_states P I) as (m & E & _). rewrite (mark_at_eq Hm E), (pk_value P E). destruct (Nat.eqb_spec c' c); [contradiction|]. ring.
  - intros c' _. rewrite map_map. rewrite <- (IH H' (fun st => F (c' :: st))), <- qsum_map_scale. apply qsum_map_ext. intros st _. unfold states_value. cbn [combine map fold_right fst snd]. ring.
Qed.
Lemma in_product ls : forall st, In st (states_product ls) -> Forall2 (fun c l => In c l) st ls.
Proof using.
  clear.
  induction ls as [|l ls IH]; intros st H; simpl in H; [destruct H as [<-|[]]; constructor|]. apply in_flat_map in H as (c & Hc & H). apply in_map_iff in H as (st' & <- & H). constructor; auto.
Qed.
Lemma vars_value ms : (forall m, In m ms -> m <> Never) -> monomial x (vars_of ms) = fold_right Qcmult 1%Qc (map (mark_value x) ms).
Proof using.
  clear.
  unfold monomial. induction ms as [|[v| |] ms IH]; intros H; simpl; auto.
  - rewrite IH; auto. intros; apply H; simpl; auto.
  - rewrite IH; [ring|]. intros; apply H; simpl; auto.
  - exfalso. apply (H Never); simpl; auto.
Qed.
Lemma state_index_total strides st : length strides = length st -> state_index strides st = Some (index_of_codes strides st).
Proof using. clear. revert st. induction strides as [|t strides IH]; intros [|c st] L; simpl in *; try discriminate; auto. rewrite IH by lia. auto. Qed.
Lemma strides_length dims : length (strides_of dims) = length dims.
Proof using. clear. induction dims; simpl; auto. Qed.
Lemma row_states row : (forall s, In s row -> s < N) -> forall st, In st (states_product (map site_states (map (fun s => nth s marks []) row))) ->
  codes_below (map sd row) st /\ cluster_vars marks row st = Some (vars_of (map (fun p => mark_at (fst p) (snd p)) (combine row st))) /\ monomial x (vars_of (map (fun p => mark_at (fst p) (snd p)) (combine row st))) = states_value row st.
Proof using All.
  intros H st Hst. apply in_product in Hst.
  assert (G : codes_below (map sd row) st /\ opt_map (fun p => let? m := nth_error marks (fst p) in nth_error m (snd p)) (combine row st) = Some (map (fun p => mark_at (fst p) (snd p)) (combine row st)) /\
    forall m, In m (map (fun p => mark_at (fst p) (snd p)) (combine row st)) -> m <> Never).
  { revert st Hst. induction row as [|s row IH]; intros st Hst; cbn [map] in Hst; inversion_clear Hst as [|c l st' ls Hc Hst'].
    - split; [constructor|]. split; [reflexivity|intros m []].
    - destruct (IH (fun s' Hs' => H s' (or_intror Hs')) st' Hst') as (G1 & G2 & G3). destruct (@at_site s) as (ms & c0 & Hm & Hc0 & P & L); [apply H; simpl; auto|].
      rewrite (nth_error_nth _ _ [] Hm) in Hc. destruct (pk_states P Hc) as (m & E & Nm). pose proof (mark_at_eq Hm E) as Em. split; [|split].
      + cbn [map]. constructor; auto. rewrite <- L. apply nth_error_Some. congruence.
      + cbn [combine opt_map map fst snd]. rewrite Hm. cbn [option_bind]. rewrite E. cbn [option_bind]. rewrite G2, Em. auto.
      + cbn [combine map fst snd]. intros m' [<-|Hm']; [congruence|auto]. }
  destruct G as (G1 & G2 & G3). split; auto. split.
  - unfold cluster_vars. rewrite G2. cbn [option_bind]. rewrite (proj2 (forallb_forall _ _)); auto. intros m Hm. specialize (G3 m Hm). destruct m; auto; congruence.
  - rewrite vars_value by auto. unfold states_value. rewrite map_map. auto.
Qed.
Lemma row_terms_ok t n row : (forall s, In s row -> s < N) -> length t = nprod (map sd row) ->
  exists l, row_terms marks (strides_of (map sd row)) t n row = Some l /\ bval x l = (nth (fidx (strides_of (map sd row)) occu row) t 0 / Qc_of_nat n)%Qc.
Proof using All.
  intros H L. unfold row_terms. rewrite (marks_of_row H). cbn [option_bind]. set (sts := states_product _).
  exists (map (fun st => (vars_of (map (fun p => mark_at (fst p) (snd p)) (combine row st)), (nth (index_of_codes (strides_of (map sd row)) st) t 0 / Qc_of_nat n)%Qc)) sts). split.
  - apply opt_map_map. intros st Hst. destruct (row_states H Hst) as (G1 & G2 & _). rewrite state_index_total by (rewrite strides_length; apply (Forall2_length G1)). cbn [option_bind].
    rewrite (nth_error_nth' t 0%Qc) by (rewrite L; apply index_lt; auto). cbn [option_bind]. rewrite G2. auto.
  - unfold bval. rewrite map_map. cbn [fst snd]. rewrite fidx_codes. rewrite <- (product_sum H (fun st => nth (index_of_codes (strides_of (map sd row)) st) t 0 / Qc_of_nat n)%Qc).
    apply qsum_map_ext. intros st Hst. destruct (row_states H Hst) as (_ & _ & G3). rewrite G3. auto.
Qed.
Lemma qsum_div_r {A} (f : A -> Qc) k l : qsum (map (fun a => f a / k)%Qc l) = (qsum (map f l) / k)%Qc.
Proof using. clear. unfold Qcdiv. rewrite qsum_map_scale_r. auto. Qed.
Lemma tensor_terms_ok dims t rows : rows_ok sd N dims rows -> rows <> [] -> length t = nprod dims ->
  exists l, tensor_terms marks (strides_of dims) t rows = Some l /\ bval x l = (csum t 0 (strides_of dims) occu rows / Qc_of_nat (length rows))%Qc.
Proof using All.
  intros R NE L. unfold tensor_terms. destruct (Nat.eqb_spec (length rows) 0) as [E|_]; [destruct rows; [contradiction|discriminate]|].
  assert (G : forall n rs, (forall r, In r rs -> In r rows) -> exists ls, opt_map (row_terms marks (strides_of dims) t n) rs = Some ls /\ qsum (map (bval x) ls) = (qsum (map (fun row => nth (fidx (strides_of dims) occu row) t 0) rs) / Qc_of_nat n)%Qc).
  { intros n. induction rs as [|r rs IH]; intros Hrs; cbn [opt_map map qsum].
    - exists []. split; auto. cbn [map qsum]. unfold Qcdiv. ring.
    - destruct (R r (Hrs r (or_introl eq_refl))) as [E Hs]. subst dims. destruct (@row_terms_ok t n r Hs L) as (l & El & Vl). rewrite El. cbn [option_bind].
      destruct IH as (ls & Els & Vls); [intros; apply Hrs; right; auto|]. rewrite Els. cbn [option_bind]. exists (l :: ls). split; auto. cbn [map qsum]. rewrite Vl, Vls. unfold Qcdiv. ring. }
  destruct (G (length rows) rows) as (ls & E & V); auto. rewrite E. cbn [option_bind]. exists (concat ls). split; auto. rewrite bval_concat, V. unfold csum. auto.
Qed.

(** *** Buckets *)
Lemma nth_upd {A} (d : A) l i y j : i < length l -> nth j (upd l i y) d = if j =? i then y else nth j l d.
Proof using.
  clear.
  intros H. destruct (Nat.eqb_spec j i) as [->|Ne].
  - apply nth_error_nth. apply nth_error_upd_eq. auto.
  - destruct (nth_error l j) as [z|] eqn:E.
    + rewrite (nth_error_nth _ _ d E). apply nth_error_nth. rewrite nth_error_upd_neq by auto. auto.
    + apply nth_error_None in E. rewrite !nth_overflow; auto. rewrite length_upd. auto.
Qed.
Lemma add_buckets_ok ws : forall bs, (forall w, In w ws -> fst w < length bs) ->
  exists r, add_buckets bs ws = Some r /\ length r = length bs /\ forall j, bval x (nth j r []) = (bval x (nth j bs []) + contrib (map (fun w => (fst w, bval x (snd w))) ws) j)%Qc.
Proof using.
  clear.
  induction ws as [|[i l] ws IH]; intros bs H; cbn [add_buckets].
  - exists bs. split; auto. split; auto. intros j. unfold contrib. cbn [map qsum]. ring.
  - assert (Hi : i < length bs) by (apply (H (i, l)); simpl; auto). rewrite (nth_error_nth' bs [] Hi). cbn [option_bind].
    destruct (IH (upd bs i (nth i bs [] ++ l))) as (r & E & L & V); [intros w Hw; rewrite length_upd; apply H; simpl; auto|]. exists r. split; auto. split; [rewrite L, length_upd; auto|].
    intros j. rewrite V, nth_upd by auto. unfold contrib. cbn [map qsum fst snd]. rewrite Nat.eqb_sym. destruct (Nat.eqb_spec i j) as [->|Ne]; [rewrite bval_app; ring|].
    destruct (Nat.eqb_spec j i); [congruence|]. ring.
Qed.
Lemma grouped_value size bs coefs : length coefs = length bs ->
  map (fun ts => sum_terms ts x) (grouped size bs coefs) = map (fun j => (nth j coefs 0 * (bval x (nth j bs []) * Qc_of_nat size))%Qc) (seq 0 (length bs)).
Proof using.
  clear.
  intros L. unfold grouped. revert coefs L. induction bs as [|b bs IH]; intros [|k coefs] L; simpl in L; try discriminate; auto.
  cbn [combine map length seq]. f_equal.
  - cbn [nth fst snd]. unfold sum_terms. rewrite map_map. cbn [t_f1 t_f2 t_inds]. unfold bval. rewrite <- qsum_map_scale_r, <- qsum_map_scale. apply qsum_map_ext. intros p _. ring.
  - rewrite <- seq_shift, (map_map S _ (seq 0 (length bs))). cbn [nth]. apply (IH coefs). lia.
Qed.
Lemma sum_terms_app a b : sum_terms (a ++ b) x = (sum_terms a x + sum_terms b x)%Qc.
Proof using. clear. unfold sum_terms. rewrite map_app, qsum_app. auto. Qed.
Lemma sum_terms_concat tss : sum_terms (concat tss) x = qsum (map (fun ts => sum_terms ts x) tss).
Proof using. clear. induction tss as [|ts tss IH]; cbn [concat map qsum]; auto. rewrite sum_terms_app, IH. auto. Qed.
Lemma nth_init_bucket n c j : 0 < n -> bval x (nth j (upd (repeat ([] : bucket) n) 0 [([], c)]) []) = if j =? 0 then c else 0%Qc.
Proof using.
  clear.
  intros H. rewrite nth_upd by (rewrite repeat_length; auto). destruct (j =? 0).
  - unfold bval, monomial. cbn [map qsum fst snd fold_right]. ring.
  - rewrite nth_repeat. reflexivity.
Qed.
Lemma opt_map_rel {A B} (f : A -> option B) (R : A -> B -> Prop) l : (forall a, In a l -> exists b, f a = Some b /\ R a b) -> exists ys, opt_map f l = Some ys /\ Forall2 R l ys.
Proof using.
  clear.
  induction l as [|a l IH]; intros H; [exists []; split; auto|]. destruct (H a (or_introl eq_refl)) as (b & E & Rb). destruct IH as (ys & Ey & F); [intros; apply H; right; auto|].
  exists (b :: ys). split; [cbn [opt_map]; rewrite E; cbn [option_bind]; rewrite Ey; auto|constructor; auto].
Qed.

(** *** Expansion *)
Lemma map_concat_rel {A B C} (g : B -> C) (h : A -> list C) (l : list A) (ys : list (list B)) : Forall2 (fun a y => map g y = h a) l ys -> map g (concat ys) = concat (map h l).
Proof using. clear. induction 1 as [|a y l ys E F IH]; cbn [concat map]; auto. rewrite map_app, E, IH. auto. Qed.
Lemma expansion_writes_ok P q : proc_ok sd N P -> In q (odata P) ->
  exists ws, expansion_writes marks (fst (fst q)) (snd q) = Some ws /\ map (fun w => (fst w, bval x (snd w))) ws = cw occu q.
Proof using All.
  intros HP Hq. destruct (odata_ok HP Hq) as (dims & Es & Ht & Hi & Hr & HR). destruct q as [[o i] rows]. cbn [fst snd] in *.
  unfold expansion_writes, cw. cbn [fst snd]. rewrite Es.
  destruct (@opt_map_rel _ _ (fun k => let? t := nth_error (o_tensors o) k in let? l := tensor_terms marks (strides_of dims) t rows in Some (o_bit o + k, l))
     (fun k w => fst w = o_bit o + k /\ bval x (snd w) = tmean occu o rows k) (seq 0 (o_rows o))) as (ws & E & F).
  { intros k Hk. apply in_seq in Hk. unfold o_rows in Hk. assert (Lk : k < length (o_tensors o)) by lia. rewrite (nth_error_nth' (o_tensors o) [] Lk). cbn [option_bind].
    destruct (@tensor_terms_ok dims (nth k (o_tensors o) []) rows HR Hr) as (l & El & Vl); [apply Ht, nth_In; auto|]. rewrite El. cbn [option_bind]. eexists. split; eauto. cbn [fst snd]. split; auto.
    rewrite Vl. unfold tmean. f_equal. rewrite (cols_eq Ht) by (unfold o_rows; lia). rewrite Es. unfold csum. apply qsum_map_ext. intros row Hrow. destruct (HR row Hrow) as [Hd Hs].
    destruct (flat_index_total picked_codes Hd Hs) as [_ Lt]. rewrite (nth_concat_block Ht Lt Lk). auto. }
  exists ws. split; auto. clear - F. induction F as [|k w ks ws [E1 E2] F IH]; cbn [map]; auto. rewrite E1, E2, IH. auto.
Qed.
Lemma expansion_buckets_ok P : proc_ok sd N P -> exists bs v, expansion_buckets marks P = Some bs /\ correlations (p_eval P) occu (p_tables P) = Some v /\
  length bs = e_num_corr (p_eval P) /\ length v = e_num_corr (p_eval P) /\ forall j, bval x (nth j bs []) = nth j v 0%Qc.
Proof using All.
  intros HP. destruct (correlations_total HP picked_codes) as (v & Ev & Lv & Vv). unfold expansion_buckets. destruct (ok_num HP) as [NC _].
  destruct (Nat.eqb_spec (e_num_corr (p_eval P)) 0) as [E0|_]; [lia|]. rewrite (odata_pairs HP), opt_map_comp. cbn [fst snd].
  destruct (@opt_map_rel _ _ (fun q : orbit * list Qc * ctable => expansion_writes marks (fst (fst q)) (snd q)) (fun q ws => map (fun w => (fst w, bval x (snd w))) ws = cw occu q) (odata P)) as (wss & E & F).
  { intros q Hq. apply (expansion_writes_ok HP Hq). }
  rewrite E. cbn [option_bind]. pose proof (map_concat_rel F) as EC.
  destruct (@add_buckets_ok (concat wss) (upd (repeat [] (e_num_corr (p_eval P))) 0 [([], 1%Qc)])) as (bs & Eb & Lb & Vb).
  { intros w Hw. rewrite length_upd, repeat_length. assert (I : In (fst w, bval x (snd w)) (concat (map (cw occu) (odata P)))) by (rewrite <- EC; apply in_map_iff; eauto).
    apply in_concat in I as (l & Hl & I). apply in_map_iff in Hl as (q & <- & Hq). unfold cw in I. apply in_map_iff in I as (k & Ek & Hk). apply in_seq in Hk. injection Ek as <- _.
    apply (ok_bits_in HP); [|lia]. rewrite <- (odata_orbits HP). apply in_map_iff. exists q. auto. }
  rewrite length_upd, repeat_length in Lb. exists bs, v. split; auto. split; auto. split; auto. split; auto. intros j. rewrite Vb, Vv, EC, contrib_concat, nth_init_bucket by auto. unfold corr_at. rewrite map_map. auto.
Qed.
Lemma buckets_value size bs v coefs : length bs = length v -> length coefs = length bs -> (forall j, bval x (nth j bs []) = nth j v 0%Qc) ->
  map (fun ts => sum_terms ts x) (grouped size bs coefs) = qmap2 Qcmult coefs (map (fun y => y * Qc_of_nat size)%Qc v).
Proof using.
  clear. intros L1 L2 V. rewrite grouped_value by auto. rewrite (map_ext _ (fun j => (nth j coefs 0 * (nth j v 0 * Qc_of_nat size))%Qc)) by (intros j; rewrite V; auto).
  rewrite L1. assert (L : length coefs = length v) by congruence. clear - L. revert coefs L. induction v as [|y v IH]; intros [|k coefs] L; simpl in L; try discriminate; auto.
  unfold qmap2 in *. cbn [length seq map combine nth fst snd]. f_equal. rewrite <- seq_shift, (map_map S _ (seq 0 (length v))). cbn [nth]. apply (IH coefs). lia.
Qed.
Lemma expansion_terms_ok P coefs : proc_ok sd N P -> length coefs = e_num_corr (p_eval P) ->
  exists ts f, expansion_terms marks P coefs = Some ts /\ ce_features P occu = Some f /\ length f = length coefs /\ sum_terms ts x = qdot coefs f.
Proof using All.
  intros HP HL. destruct (expansion_buckets_ok HP) as (bs & v & Eb & Ev & Lb & Lv & V). unfold expansion_terms, ce_features. rewrite Eb, Ev. cbn [option_bind]. do 2 eexists. split; eauto. split; eauto.
  split; [unfold scale; rewrite map_length; congruence|]. rewrite sum_terms_concat, (buckets_value _ (v := v)) by congruence. apply qdot_qmap2.
Qed.

(** *** Decomposition *)
Lemma nth_error_eq {A} (a b : list A) : (forall i, nth_error a i = nth_error b i) -> a = b.
Proof using.
  clear. revert b. induction a as [|y a IH]; intros [|z b] H; auto; [specialize (H 0); discriminate|specialize (H 0); discriminate|]. pose proof (H 0) as H0. simpl in H0. injection H0 as ->. f_equal. apply IH. intros i. apply (H (S i)).
Qed.
Lemma combine_nth_error {A B} (a : list A) (b : list B) : forall i y z, nth_error (combine a b) i = Some (y, z) <-> nth_error a i = Some y /\ nth_error b i = Some z.
Proof using.
  clear. revert b. induction a as [|u a IH]; intros [|w b] [|i] y z; simpl; try (split; [discriminate|intros [? ?]; discriminate]); [split; [intros [= <- <-]; auto|intros [[= ->] [= ->]]; auto]|apply IH].
Qed.
Lemma Forall2_nth {A B} (R : A -> B -> Prop) l ys i a : Forall2 R l ys -> nth_error l i = Some a -> exists y, nth_error ys i = Some y /\ R a y.
Proof using. clear. intros F. revert i. induction F as [|b y l ys H F IH]; intros [|i] E; simpl in *; try discriminate; [injection E as <-; eauto|auto]. Qed.
Lemma decomposition_buckets_ok P : proc_ok sd N P -> map o_id (e_orbits (p_eval P)) = seq 1 (length (e_orbits (p_eval P))) ->
  exists bs v, decomposition_buckets marks P = Some bs /\ interactions (p_eval P) occu (p_tables P) = Some v /\
    length bs = e_num_orbits (p_eval P) /\ length v = e_num_orbits (p_eval P) /\ forall j, bval x (nth j bs []) = nth j v 0%Qc.
Proof using All.
  intros HP ID. destruct (interactions_total HP picked_codes) as (v & Ev & Lv & Vv). unfold decomposition_buckets. destruct (ok_num HP) as [_ NC].
  destruct (Nat.eqb_spec (e_num_orbits (p_eval P)) 0) as [E0|_]; [lia|].
  assert (AT : forall n rows, nth_error (p_tables P) n = Some rows -> exists o i, nth_error (e_orbits (p_eval P)) n = Some o /\ nth_error (e_inter (p_eval P)) n = Some i /\ nth_error (odata P) n = Some ((o, i), rows) /\ o_id o = S n).
  { intros n rows Hn. assert (Ln : n < length (e_orbits (p_eval P))) by (rewrite <- (ok_tables HP); apply nth_error_Some; congruence).
    destruct (nth_error (e_orbits (p_eval P)) n) as [o|] eqn:Eo; [|apply nth_error_None in Eo; lia]. destruct (nth_error (e_inter (p_eval P)) n) as [i|] eqn:Ei; [|apply nth_error_None in Ei; rewrite (ok_inter HP) in Ei; lia].
    exists o, i. do 2 (split; auto). split; [apply combine_nth_error; split; auto; apply combine_nth_error; auto|].
    assert (E : nth_error (map o_id (e_orbits (p_eval P))) n = Some (o_id o)) by (rewrite nth_error_map, Eo; auto). rewrite ID, nth_error_seq in E. destruct (n <? length (e_orbits (p_eval P))); [|discriminate]. injection E as <-. auto. }
  destruct (@opt_map_rel _ _ (fun p => let? t := nth_error (e_inter (p_eval P)) (fst p) in let? o := nth_error (e_orbits (p_eval P)) (fst p) in let? l := tensor_terms marks (o_strides o) t (snd p) in Some (S (fst p), l))
     (fun p w => exists o i, nth_error (odata P) (fst p) = Some ((o, i), snd p) /\ fst w = o_id o /\ bval x (snd w) = imean occu o i (snd p)) (combine (seq 0 (length (p_tables P))) (p_tables P))) as (ws & E & F).
  { intros [n rows] Hn. apply In_nth_error in Hn as [n' Hn]. apply cseq_nth in Hn as [En Hn]. cbn [fst snd] in *. simpl in En. subst n'. destruct (AT n rows Hn) as (o & i & H1 & H2 & H3 & H4). rewrite H2. cbn [option_bind]. rewrite H1. cbn [option_bind].
    destruct (odata_ok HP (nth_error_In _ _ H3)) as (dims & Es & Ht & Hi & Hr & HR). cbn [fst snd] in *. rewrite Es. destruct (@tensor_terms_ok dims i rows HR Hr Hi) as (l & El & Vl). rewrite El. cbn [option_bind]. eexists. split; eauto.
    exists o, i. cbn [fst snd]. split; auto. split; auto. rewrite Vl. unfold imean. rewrite Es. auto. }
  rewrite E. cbn [option_bind].
  assert (EC : map (fun w => (fst w, bval x (snd w))) ws = concat (map (iw occu) (odata P))).
  { transitivity (map (fun q => (o_id (fst (fst q)), imean occu (fst (fst q)) (snd (fst q)) (snd q))) (odata P)); [|clear; induction (odata P) as [|q l IH]; cbn [map concat app iw]; auto; rewrite IH; auto].
    apply nth_error_eq. intros n. rewrite !nth_error_map. destruct (nth_error (p_tables P) n) as [rows|] eqn:En.
    - destruct (@Forall2_nth _ _ _ _ _ n (n, rows) F) as (w & Hw & o & i & Hq & W1 & W2); [apply cseq_nth; auto|]. cbn [fst snd] in *. rewrite Hw, Hq. cbn [option_map fst snd]. rewrite W1, W2. auto.
    - assert (length (odata P) <= n) by (rewrite (odata_length HP), <- (ok_tables HP); apply nth_error_None; auto). apply nth_error_None in En.
      rewrite (proj2 (nth_error_None (odata P) n)) by auto. rewrite (proj2 (nth_error_None ws n)); auto. rewrite <- (Forall2_length F), combine_length, seq_length, Nat.min_id. auto. }
  destruct (@add_buckets_ok ws (upd (repeat [] (e_num_orbits (p_eval P))) 0 [([], e_offset (p_eval P))])) as (bs & Eb & Lb & Vb).
  { intros w Hw. rewrite length_upd, repeat_length. assert (I : In (fst w, bval x (snd w)) (concat (map (iw occu) (odata P)))) by (rewrite <- EC; apply in_map_iff; eauto).
    apply in_concat in I as (l & Hl & I). apply in_map_iff in Hl as (q & <- & Hq). destruct I as [I|[]]. injection I as <- _. apply (ok_ids_in HP). rewrite <- (odata_orbits HP). apply in_map_iff. exists q. auto. }
  rewrite length_upd, repeat_length in Lb. exists bs, v. split; auto. split; auto. split; auto. split; auto. intros j. rewrite Vb, Vv, EC, contrib_concat, nth_init_bucket by auto. unfold inter_at. rewrite map_map. auto.
Qed.
Lemma decomposition_terms_ok P coefs : proc_ok sd N P -> map o_id (e_orbits (p_eval P)) = seq 1 (length (e_orbits (p_eval P))) -> length coefs = e_num_orbits (p_eval P) ->
  exists ts f, decomposition_terms marks P coefs = Some ts /\ cd_features P occu = Some f /\ length f = length coefs /\ sum_terms ts x = qdot coefs f.
Proof using All.
  intros HP ID HL. destruct (decomposition_buckets_ok HP ID) as (bs & v & Eb & Ev & Lb & Lv & V). unfold decomposition_terms, cd_features. rewrite Eb, Ev. cbn [option_bind]. do 2 eexists. split; eauto. split; eauto.
  split; [unfold scale; rewrite map_length; congruence|]. rewrite sum_terms_concat, (buckets_value _ (v := v)) by congruence. apply qdot_qmap2.
Qed.

(** *** Electrostatics *)
Fixpoint wsum (f : nat -> Qc) (start : nat) (ms : list mark) : Qc :=
  match ms with [] => 0%Qc | m :: ms' => (f start * mark_value x m + wsum f (S start) ms')%Qc end.
Lemma wsum_app f a : forall start b, wsum f start (a ++ b) = (wsum f start a + wsum f (start + length a) b)%Qc.
Proof using.
  clear. induction a as [|m a IH]; intros start b; cbn [app wsum length]; [rewrite Nat.add_0_r; ring|]. rewrite IH. replace (S start + length a) with (start + S (length a)) by lia. ring.
Qed.
Lemma wsum_seq f ms : wsum f 0 ms = qsum (map (fun j => f j * mark_value x (nth j ms Never))%Qc (seq 0 (length ms))).
Proof using.
  clear. assert (G : forall ms o, wsum f o ms = qsum (map (fun j => f (o + j)%nat * mark_value x (nth j ms Never))%Qc (seq 0 (length ms)))).
  { clear ms. induction ms as [|m ms IH]; intros o; cbn [wsum length seq map qsum nth]; auto. rewrite Nat.add_0_r. f_equal. rewrite IH, <- seq_shift, map_map. apply qsum_map_ext. intros j _. cbn [nth]. replace (o + S j) with (S o + j) by lia. auto. }
  rewrite G. auto.
Qed.
Definition site_ems (ms : list mark) (o : nat) (sp : list bool) : list mark := concat (map (fun q : nat * bool => if snd q then [] else [nth (fst q) ms Never]) (combine (seq o (length sp)) sp)).
Lemma site_ems_length ms sp : forall o, length (site_ems ms o sp) = ions sp.
Proof using. clear. unfold site_ems, ions. induction sp as [|b sp IH]; intros o; cbn [length seq combine map concat filter]; auto. rewrite app_length, IH. destruct b; simpl; auto. Qed.
Lemma site_ems_value ms c f sp : (forall c', mark_value x (nth c' ms Never) = if c' =? c then 1%Qc else 0%Qc) -> forall o start,
  wsum f start (site_ems ms o sp) = if o <=? c then (if nth (c - o) sp true then 0%Qc else f (start + ions (firstn (c - o) sp))) else 0%Qc.
Proof using.
  clear. intros H. unfold site_ems. induction sp as [|b sp IH]; intros o start.
  - cbn [length seq combine map concat wsum]. destruct (o <=? c); auto. destruct (c - o); auto.
  - cbn [length seq combine map concat fst snd]. rewrite wsum_app, IH. destruct (Nat.leb_spec o c) as [Lo|Lo].
    + destruct (Nat.eq_dec o c) as [->|Ne].
      * rewrite (proj2 (Nat.leb_gt (S c) c)) by lia. rewrite Nat.sub_diag. cbn [nth firstn]. unfold ions. cbn [filter length]. rewrite Nat.add_0_r. destruct b; cbn [wsum]; [ring|]. rewrite H, Nat.eqb_refl. ring.
      * rewrite (proj2 (Nat.leb_le (S o) c)) by lia. destruct (c - o) as [|d] eqn:Ed; [lia|]. replace (c - S o) with d by lia. cbn [nth firstn]. unfold ions. cbn [filter]. destruct b; cbn [negb wsum length].
        -- rewrite Nat.add_0_r. destruct (nth d sp true); ring.
        -- rewrite H. destruct (Nat.eqb_spec o c); [contradiction|]. rewrite <- Nat.add_assoc. cbn [Nat.add]. destruct (nth d sp true); ring.
    + rewrite (proj2 (Nat.leb_gt (S o) c)) by lia. destruct b; cbn [wsum]; [ring|]. rewrite H. destruct (Nat.eqb_spec o c); [lia|]. ring.
Qed.
Lemma picked_value ms c : picked x ms c -> forall c', mark_value x (nth c' ms Never) = if c' =? c then 1%Qc else 0%Qc.
Proof using.
  clear. intros P c'. destruct (nth_error ms c') as [m|] eqn:E; [rewrite (nth_error_nth _ _ Never E); apply (pk_value P E)|]. apply nth_error_None in E. rewrite nth_overflow by auto. simpl. destruct (Nat.eqb_spec c' c) as [->|]; auto. pose proof (pk_lt P). lia.
Qed.

Lemma ewald_row ms sp : length sp = length ms ->
  opt_map (fun q : nat * bool => if snd q then Some [] else let? m := nth_error ms (fst q) in Some [m]) (combine (seq 0 (length sp)) sp) = Some (map (fun q : nat * bool => if snd q then [] else [nth (fst q) ms Never]) (combine (seq 0 (length sp)) sp)).
Proof using.
  clear. intros L. apply opt_map_map. intros [i b] H. apply In_nth_error in H as [j H]. apply cseq_nth in H as [E H]. cbn [fst snd] in *. simpl in E. subst j. destruct b; auto.
  rewrite (nth_error_nth' ms Never); auto. rewrite <- L. apply nth_error_Some. congruence.
Qed.
Lemma ewald_sites_cons sp sps : ewald_sites (sp :: sps) = ions sp + ewald_sites sps.
Proof using. clear. unfold ewald_sites, ions. cbn [concat]. rewrite filter_app, app_length. auto. Qed.
Lemma ewald_marks_gen spaces : forall marks' spaces' occu' o,
  (forall j, nth_error spaces (o + j) = nth_error spaces' j) -> length marks' = length spaces' -> length occu' = length spaces' ->
  (forall j ms c sp, nth_error marks' j = Some ms -> nth_error occu' j = Some c -> nth_error spaces' j = Some sp -> picked x ms c /\ length sp = length ms) ->
  exists rows, opt_map (fun p => let? sp := nth_error spaces (fst p) in
      opt_map (fun q : nat * bool => if snd q then Some [] else let? m := nth_error (snd p) (fst q) in Some [m]) (combine (seq 0 (length sp)) sp)) (combine (seq o (length marks')) marks') = Some rows /\
    length (concat (concat rows)) = ewald_sites spaces' /\ forall f start, wsum f start (concat (concat rows)) = qsum (map f (somes (EwaldProps.chosen start spaces' occu'))).
Proof using.
  clear. induction marks' as [|ms marks' IH]; intros [|sp spaces'] [|c occu'] o H L1 L2 K; simpl in L1, L2; try discriminate.
  - exists []. split; auto.
  - pose proof (H 0) as H0. rewrite Nat.add_0_r in H0. cbn [nth_error] in H0. destruct (K 0 ms c sp eq_refl eq_refl eq_refl) as [P Lsp].
    cbn [length seq combine opt_map fst snd]. rewrite H0. cbn [option_bind]. rewrite ewald_row by auto. cbn [option_bind].
    destruct (IH spaces' occu' (S o)) as (rows & E & LR & V); [intros j; replace (S o + j) with (o + S j) by lia; apply H|lia|lia|intros j; apply (K (S j))|].
    rewrite E. cbn [option_bind]. eexists. split; [reflexivity|]. cbn [concat]. rewrite concat_app. change (concat (map (fun q : nat * bool => if snd q then [] else [nth (fst q) ms Never]) (combine (seq 0 (length sp)) sp))) with (site_ems ms 0 sp). split.
    + rewrite app_length, LR, site_ems_length, ewald_sites_cons. auto.
    + intros f start. rewrite wsum_app, V, site_ems_length, (site_ems_value f sp (picked_value P)). cbn [EwaldProps.chosen Nat.leb]. rewrite Nat.sub_0_r. destruct (nth c sp true); cbn [somes map qsum]; ring.
Qed.
Lemma ewald_marks_ok spaces : length spaces = N -> (forall s sp, nth_error spaces s = Some sp -> length sp = sd s) ->
  exists ems, ewald_marks spaces marks = Some ems /\ length ems = ewald_sites spaces /\ forall f, wsum f 0 ems = qsum (map f (somes (EwaldProps.chosen 0 spaces occu))).
Proof using All.
  intros L K. destruct (@ewald_marks_gen spaces marks spaces occu 0) as (rows & E & LE & V); auto; try congruence.
  - intros j ms c sp H1 H2 H3. destruct (PK H1 H2) as [P Lm]. split; auto. rewrite (K j sp H3). auto.
  - unfold ewald_marks. rewrite E. cbn [option_bind]. eauto.
Qed.
Lemma mark_value_01 m : zero_one x -> mark_value x m = 0%Qc \/ mark_value x m = 1%Qc.
Proof using.
  clear. intros B. destruct m as [v| |]; simpl; auto. destruct (nth_in_or_default v x 0%Qc) as [H|H]; auto.
Qed.
Lemma ewald_pair_ok M coef ems i j : zero_one x -> i < length ems -> j < length ems ->
  exists ts, ewald_pair M coef ems i j = Some ts /\ sum_terms ts x = (coef * (mark_value x (nth i ems Never) * (M i j * mark_value x (nth j ems Never))))%Qc.
Proof using.
  clear. intros B Hi Hj. unfold ewald_pair. rewrite (nth_error_nth' ems Never Hi), (nth_error_nth' ems Never Hj). cbn [option_bind]. eexists. split; [reflexivity|].
  pose proof (mark_value_01 (nth i ems Never) B) as Bi. generalize dependent (nth i ems Never). intros a Bi. generalize (nth j ems Never) as b. intros b.
  assert (S1 : forall vs, sum_terms [mkT vs (M i j) coef] x = (M i j * coef * monomial x vs)%Qc) by (intros vs; unfold sum_terms; cbn [map qsum t_f1 t_f2 t_inds]; ring).
  assert (M1 : forall u, monomial x [u] = nth u x 0%Qc) by (intros u; unfold monomial; cbn [map fold_right]; ring).
  assert (M2 : forall u v, monomial x [u; v] = (nth u x 0 * nth v x 0)%Qc) by (intros u v; unfold monomial; cbn [map fold_right]; ring).
  assert (M0 : monomial x [] = 1%Qc) by reflexivity.
  destruct a as [u| |], b as [v| |]; cbn [mark_eqb orb vars_of app mark_value]; try (rewrite S1; rewrite ?M0, ?M1, ?M2; ring); try (unfold sum_terms; cbn [map qsum]; ring).
  destruct (Nat.eqb_spec v u) as [->|]; cbn [app vars_of]; rewrite S1, ?M1, ?M2; [|ring]. simpl in Bi. destruct Bi as [-> | ->]; ring.
Qed.
Lemma opt_map_sum {A} (f : A -> option (list term)) (g : A -> Qc) l : (forall a, In a l -> exists ts, f a = Some ts /\ sum_terms ts x = g a) ->
  exists tss, opt_map f l = Some tss /\ sum_terms (concat tss) x = qsum (map g l).
Proof using.
  clear. intros H. destruct (opt_map_rel H) as (tss & E & F). exists tss. split; auto. rewrite sum_terms_concat. clear - F. induction F as [|a ts l tss E F IH]; cbn [map qsum]; auto. rewrite IH, E. auto.
Qed.
Lemma concat_concat_sum (tsss : list (list (list term))) : sum_terms (concat (concat tsss)) x = qsum (map (fun tss => sum_terms (concat tss) x) tsss).
Proof using. clear. induction tsss as [|t tsss IH]; cbn [concat map qsum]; auto. rewrite concat_app, sum_terms_app, IH. auto. Qed.
Lemma ewald_terms_ok M spaces coef : zero_one x -> length spaces = N -> (forall s sp, nth_error spaces s = Some sp -> length sp = sd s) ->
  exists ts, ewald_terms (snd (ewald_structure spaces)) M spaces marks coef = Some ts /\ sum_terms ts x = (coef * E_of M (EwaldProps.chosen 0 spaces occu))%Qc.
Proof using All.
  intros B L K. destruct (ewald_marks_ok L K) as (ems & Ee & Le & V). unfold ewald_terms. rewrite Ee. cbn [option_bind]. rewrite n_eq.
  destruct (@opt_map_rel _ _ (fun i => opt_map (ewald_pair M coef ems i) (seq 0 (ewald_sites spaces))) (fun i tss => sum_terms (concat tss) x = (coef * (mark_value x (nth i ems Never) * wsum (M i) 0 ems))%Qc) (seq 0 (ewald_sites spaces))) as (tsss & Et & F).
  { intros i Hi. apply in_seq in Hi. destruct (@opt_map_sum _ (ewald_pair M coef ems i) (fun j => coef * (mark_value x (nth i ems Never) * (M i j * mark_value x (nth j ems Never))))%Qc (seq 0 (ewald_sites spaces))) as (tss & E & S).
    - intros j Hj. apply in_seq in Hj. apply ewald_pair_ok; auto; lia.
    - exists tss. split; auto. rewrite S, !qsum_map_scale, wsum_seq, Le. auto. }
  rewrite Et. cbn [option_bind]. eexists. split; [reflexivity|]. rewrite concat_concat_sum.
  assert (S : qsum (map (fun tss => sum_terms (concat tss) x) tsss) = qsum (map (fun i => coef * (mark_value x (nth i ems Never) * wsum (M i) 0 ems))%Qc (seq 0 (ewald_sites spaces)))).
  { clear - F. induction F as [|i tss is tsss E F IH]; cbn [map qsum]; auto. rewrite E, IH. auto. }
  rewrite S, qsum_map_scale. f_equal. rewrite E_somes. rewrite <- (V (fun i => qsum (map (M i) (somes (EwaldProps.chosen 0 spaces occu))))), wsum_seq, Le. apply qsum_map_ext. intros i _. rewrite V. ring.
Qed.

(** *** Chemical potentials *)
Lemma mu_site_ok row ms c : picked x ms c -> length ms <= length row ->
  exists tss, opt_map (fun q => let? mu := nth_error row (fst q) in Some (match snd q with Var v => [mkT [v] (- mu)%Qc 1%Qc] | Always => [mkT [] (- mu)%Qc 1%Qc] | Never => [] end)) (combine (seq 0 (length ms)) ms) = Some tss /\
    sum_terms (concat tss) x = (- nth c row 0)%Qc.
Proof using.
  clear. intros P L.
  destruct (@opt_map_sum _ (fun q => let? mu := nth_error row (fst q) in Some (match snd q with Var v => [mkT [v] (- mu)%Qc 1%Qc] | Always => [mkT [] (- mu)%Qc 1%Qc] | Never => [] end))
    (fun q => - nth (fst q) row 0 * mark_value x (snd q))%Qc (combine (seq 0 (length ms)) ms)) as (tss & E & S).
  { intros [i m] H. apply In_nth_error in H as [j H]. apply cseq_nth in H as [Ej H]. cbn [fst snd] in *. simpl in Ej. subst j. assert (i < length row) by (assert (i < length ms) by (apply nth_error_Some; congruence); lia).
    rewrite (nth_error_nth' row 0%Qc H0). cbn [option_bind]. eexists. split; [reflexivity|]. destruct m; unfold sum_terms, monomial; cbn [map qsum t_f1 t_f2 t_inds fold_right mark_value]; ring. }
  exists tss. split; auto. rewrite S. clear S E tss.
  assert (NDc : NoDup (combine (seq 0 (length ms)) ms)).
  { assert (NoDup (map fst (combine (seq 0 (length ms)) ms))); [|eapply NoDup_map_inv; eauto]. replace (map fst (combine (seq 0 (length ms)) ms)) with (seq 0 (length ms)); [apply seq_NoDup|].
    generalize 0. clear. induction ms as [|m ms IH]; intros o; cbn [length seq combine map fst]; auto. f_equal. apply IH. }
  destruct (nth_error ms c) as [m|] eqn:Em; [|apply nth_error_None in Em; pose proof (pk_lt P); lia].
  rewrite (@qsum_select _ _ _ (c, m) NDc).
  - cbn [fst snd]. rewrite (pk_value P Em), Nat.eqb_refl. ring.
  - apply (nth_error_In _ c). apply cseq_nth. auto.
  - intros [i m'] H Ne. apply In_nth_error in H as [j H]. apply cseq_nth in H as [Ej H]. cbn [fst snd] in *. simpl in Ej. subst j. rewrite (pk_value P H). destruct (Nat.eqb_spec i c) as [->|]; [|ring]. exfalso. apply Ne. congruence.
Qed.
Lemma mu_terms_ok table : (forall s ms, nth_error marks s = Some ms -> exists row, nth_error table s = Some row /\ length ms <= length row) ->
  exists ts vals, mu_terms table marks = Some ts /\ site_values table occu = Some vals /\ sum_terms ts x = (- qsum vals)%Qc.
Proof using All.
  intros T. unfold mu_terms, site_values.
  assert (G : forall marks' occu' o, (forall j, nth_error marks (o + j) = nth_error marks' j) -> (forall j, nth_error occu (o + j) = nth_error occu' j) -> length marks' = length occu' ->
    exists rows vals, opt_map (fun p => opt_map (fun q => let? row := nth_error table (fst p) in let? mu := nth_error row (fst q) in
        Some (match snd q with Var v => [mkT [v] (- mu)%Qc 1%Qc] | Always => [mkT [] (- mu)%Qc 1%Qc] | Never => [] end)) (combine (seq 0 (length (snd p))) (snd p))) (combine (seq o (length marks')) marks') = Some rows /\
      opt_map (fun p => get_val table (fst p) (snd p)) (combine (seq o (length occu')) occu') = Some vals /\ sum_terms (concat (concat rows)) x = (- qsum vals)%Qc).
  { induction marks' as [|ms marks' IH]; intros [|c occu'] o H1 H2 Len; simpl in Len; try discriminate.
    - exists [], []. split; auto.
    - pose proof (H1 0) as M0. pose proof (H2 0) as O0. rewrite Nat.add_0_r in M0, O0. cbn [nth_error] in M0, O0. destruct (T o ms M0) as (row & Hr & Lr). destruct (PK M0 O0) as [P _].
      destruct (IH occu' (S o)) as (rows & vals & E1 & E2 & S); [intros j; replace (S o + j) with (o + S j) by lia; apply H1|intros j; replace (S o + j) with (o + S j) by lia; apply H2|lia|].
      cbn [length seq combine opt_map fst snd]. unfold get_val at 1. rewrite Hr. cbn [option_bind]. destruct (mu_site_ok P Lr) as (tss & Et & St). rewrite Et. cbn [option_bind]. rewrite E1. cbn [option_bind].
      rewrite (nth_error_nth' row 0%Qc) by (pose proof (pk_lt P); lia). cbn [option_bind]. rewrite E2. cbn [option_bind]. do 2 eexists. split; [reflexivity|]. split; [reflexivity|]. cbn [concat qsum]. rewrite concat_app, sum_terms_app, St, S. ring. }
  destruct (G marks occu 0) as (rows & vals & E1 & E2 & S); auto; [congruence|]. rewrite E1, E2. cbn [option_bind]. eauto.
Qed.
End Pick.
