(** Properties C35 and C36: bit combinations and indicator functions. *)
From Verif Require Import LibProofs EvaluatorProofs EvaluatorProps SubspaceSpec TensorProofs.
From Coq Require Import Lia Sorted.
Set Implicit Arguments.
Unset Strict Implicit.
Open Scope nat_scope.

(** ** Rows *)
Lemma row_eqb_eq a b : row_eqb a b = true <-> a = b.
Proof.
  revert b. induction a as [|x a IH]; intros [|y b]; simpl; split; intros H; try discriminate; auto.
  - apply andb_true_iff in H as [H1 H2]. apply Nat.eqb_eq in H1. apply IH in H2. congruence.
  - injection H as -> ->. rewrite Nat.eqb_refl. apply IH. auto.
Qed.
Lemma row_cmp_eq a b : row_cmp a b = Eq <-> a = b.
Proof.
  revert b. induction a as [|x a IH]; intros [|y b]; simpl; split; intros H; try discriminate; auto.
  - destruct (Nat.compare_spec x y); try discriminate. apply IH in H. congruence.
  - injection H as -> ->. rewrite Nat.compare_refl. apply IH. auto.
Qed.
Lemma row_cmp_opp a b : row_cmp b a = CompOpp (row_cmp a b).
Proof.
  revert b. induction a as [|x a IH]; intros [|y b]; simpl; auto. rewrite (Nat.compare_antisym x y). destruct (x ?= y); simpl; auto.
Qed.
Lemma row_cmp_trans a b c : row_cmp a b = Lt -> row_cmp b c = Lt -> row_cmp a c = Lt.
Proof.
  revert b c. induction a as [|x a IH]; intros [|y b] [|z c]; simpl; try discriminate; auto.
  destruct (Nat.compare_spec x y), (Nat.compare_spec y z); try discriminate; intros H1 H2; subst; try (destruct (Nat.compare_spec y z)); try lia; auto.
  - rewrite Nat.compare_refl. eauto.
  - destruct (Nat.compare_spec x z); auto; lia.
  - destruct (Nat.compare_spec x z); auto; lia.
Qed.
Definition row_lt a b := row_cmp a b = Lt.
Lemma insert_row_in r l x : In x (insert_row r l) <-> x = r \/ In x l.
Proof.
  induction l as [|y l IH]; simpl; [intuition|]. destruct (row_cmp r y) eqn:E; simpl.
  - apply row_cmp_eq in E. subst. intuition.
  - intuition.
  - rewrite IH. intuition.
Qed.
Lemma insert_row_sorted r l : StronglySorted row_lt l -> StronglySorted row_lt (insert_row r l).
Proof.
  induction 1 as [|y l Hl IH Hy]; simpl; [repeat constructor|]. destruct (row_cmp r y) eqn:E.
  - constructor; auto.
  - constructor; [constructor; auto|]. constructor; auto. apply Forall_forall. intros z Hz. rewrite Forall_forall in Hy. eapply row_cmp_trans; eauto. apply Hy; auto.
  - constructor; auto. apply Forall_forall. intros z Hz. apply insert_row_in in Hz as [->|Hz].
    + unfold row_lt. rewrite row_cmp_opp, E. auto.
    + rewrite Forall_forall in Hy. auto.
Qed.
Lemma unique_rows_in l x : In x (unique_rows l) <-> In x l.
Proof. induction l as [|y l IH]; simpl; [tauto|]. rewrite insert_row_in. unfold unique_rows in IH. rewrite IH. intuition. Qed.
Lemma unique_rows_nodup l : NoDup (unique_rows l).
Proof.
  assert (H : StronglySorted row_lt (unique_rows l)) by (induction l; simpl; [constructor|apply insert_row_sorted; auto]).
  induction H as [|x l' Hl IH Hx]; constructor; auto. intros Hin. rewrite Forall_forall in Hx. specialize (Hx x Hin).
  unfold row_lt in Hx. rewrite (proj2 (row_cmp_eq x x)) in Hx by auto. discriminate.
Qed.

(** ** Permutations of sites *)
Definition act (b p : list nat) : list nat := map (fun i => nth i b 0) p.
Lemma permute_act n b p : length b = n -> (forall i, In i p -> i < n) -> permute b p = Some (act b p).
Proof. intros L H. unfold permute, act. apply opt_map_map. intros i Hi. apply nth_error_nth'. rewrite L. auto. Qed.
Lemma act_act b p q : (forall j, In j q -> j < length p) -> act (act b p) q = act b (act p q).
Proof.
  intros H. unfold act. rewrite map_map. apply map_ext_in. intros j Hj.
  rewrite (nth_indep _ 0 (nth 0 b 0)) by (rewrite map_length; auto). rewrite (map_nth (fun i => nth i b 0)). auto.
Qed.
Lemma act_id b n : length b = n -> act b (seq 0 n) = b.
Proof.
  intros <-. unfold act. apply (nth_ext _ _ 0 0); [rewrite map_length, seq_length; auto|]. intros i Hi. rewrite map_length, seq_length in Hi.
  rewrite (nth_indep _ 0 (nth 0 b 0)) by (rewrite map_length, seq_length; auto). rewrite (map_nth (fun i => nth i b 0)), seq_nth; auto.
Qed.
Lemma cart_in bits b : In b (cart bits) <-> Forall2 (fun x l => In x l) b bits.
Proof.
  revert b. induction bits as [|l bits IH]; intros b; simpl.
  - split; [intros [<-|[]]; constructor|]. intros H. inversion H; auto.
  - rewrite in_flat_map. split.
    + intros (x & Hx & Hb). apply in_map_iff in Hb as (b' & <- & Hb'). constructor; auto. apply IH; auto.
    + intros H. inversion H as [|x l' b' bits' Hx Hb']; subst. exists x. split; auto. apply in_map. apply IH; auto.
Qed.
Lemma cart_len bits b : In b (cart bits) -> length b = length bits.
Proof. intros H. apply cart_in in H. induction H; simpl; auto. Qed.
Lemma cart_nodup bits : (forall l, In l bits -> NoDup l) -> NoDup (cart bits).
Proof.
  induction bits as [|l bits IH]; intros H; simpl; [repeat constructor; auto|].
  assert (Hl : NoDup l) by (apply H; simpl; auto). specialize (IH (fun x Hx => H x (or_intror Hx))). clear H.
  induction Hl as [|x l Hx Hl IHl]; simpl; [constructor|]. apply NoDup_app_intro; auto.
  - clear - IH. induction IH as [|b r Hb Hr IHr]; simpl; constructor; auto. intros Hi. apply in_map_iff in Hi as (b' & [= ->] & Hb'). auto.
  - intros b Hb Hb'. apply in_map_iff in Hb as (b0 & <- & _). apply in_flat_map in Hb' as (y & Hy & Hb'). apply in_map_iff in Hb' as (b1 & [= -> ->] & _). auto.
Qed.

Section Combos.
Variables (n : nat) (bits ps : list (list nat)).
Hypothesis HG : perm_group n ps.
Hypothesis HB : sym_bits bits ps.
Hypothesis HL : length bits = n.

Lemma ps_len p : In p ps -> length p = n.
Proof. intros H. apply (pg_perm HG) in H. apply H. Qed.
Lemma ps_lt p i : In p ps -> In i p -> i < n.
Proof. intros H. apply (pg_perm HG) in H. apply H. Qed.
Lemma cart_act b p : In b (cart bits) -> In p ps -> In (act b p) (cart bits).
Proof.
  intros Hb Hp. pose proof (cart_len Hb) as Lb. apply cart_in in Hb. apply cart_in.
  assert (Hnth : forall i x l, nth_error b i = Some x -> nth_error bits i = Some l -> In x l).
  { clear - Hb. induction Hb as [|x l b bits Hx H IH]; intros [|i] y l'; simpl; try discriminate.
    - intros [= ->] [= ->]. auto.
    - apply IH. }
  assert (Hall : forall i y l, nth_error (act b p) i = Some y -> nth_error bits i = Some l -> In y l).
  { intros i y l Hy Hl. unfold act in Hy. rewrite nth_error_map in Hy. destruct (nth_error p i) as [j|] eqn:Ej; [|discriminate]. injection Hy as <-.
    rewrite <- (@HB p i j Hp Ej) in Hl. eapply Hnth; eauto. apply nth_error_nth'. rewrite Lb, HL. apply (ps_lt Hp). eapply nth_error_In; eauto. }
  assert (Hlen : length (act b p) = length bits) by (unfold act; rewrite map_length, (ps_len Hp); auto).
  revert Hlen Hall. generalize (act b p). clear. intros a. revert bits. induction a as [|x a IH]; intros [|l bits] L H; simpl in L; try discriminate; constructor.
  - apply (H 0 x l); auto.
  - apply IH; [lia|]. intros i y l' Hy Hl. apply (H (S i) y l'); auto.
Qed.
Definition orb (a : list nat) := unique_rows (map (act a) ps).
Lemma orb_in a x : In x (orb a) <-> exists p, In p ps /\ x = act a p.
Proof. unfold orb. rewrite unique_rows_in, in_map_iff. split; intros (p & H1 & H2); exists p; auto. Qed.
Lemma orb_self a : length a = n -> In a (orb a).
Proof. intros L. apply orb_in. exists (seq 0 n). split; [apply (pg_id HG)|]. symmetry. apply act_id; auto. Qed.
Lemma orb_sym a x : length a = n -> In x (orb a) -> In a (orb x).
Proof.
  intros L Hx. apply orb_in in Hx as (p & Hp & ->). destruct (pg_inv HG p Hp) as (q & Hq & E). apply orb_in. exists q. split; auto.
  assert (Hlt : forall j, In j q -> j < length p) by (intros j Hj; rewrite (ps_len Hp); apply (ps_lt Hq); auto).
  rewrite act_act by auto. rewrite (@permute_act n p q (ps_len Hp)) in E by (intros; apply (ps_lt Hq); auto). injection E as ->.
  symmetry. apply act_id; auto.
Qed.
Lemma orb_trans a x y : In x (orb a) -> In y (orb x) -> In y (orb a).
Proof.
  intros Hx Hy. apply orb_in in Hx as (p & Hp & ->). apply orb_in in Hy as (q & Hq & ->). apply orb_in. exists (act p q).
  assert (Hlt : forall j, In j q -> j < length p) by (intros j Hj; rewrite (ps_len Hp); apply (ps_lt Hq); auto).
  split; [|apply act_act; auto]. apply (pg_comp HG p q (r := act p q) Hp Hq). apply (@permute_act n); [apply (ps_len Hp)|]. intros; apply (ps_lt Hq); auto.
Qed.
Definition groups_ok (all : list (list (list nat))) : Prop :=
  (forall g, In g all -> exists a, In a (cart bits) /\ g = orb a) /\ NoDup (concat all).
Lemma step_ok all a : groups_ok all -> In a (cart bits) ->
  exists all', combo_step ps (Some all) a = Some all' /\ groups_ok all' /\ In a (concat all') /\ (forall x, In x (concat all) -> In x (concat all')).
Proof.
  intros [H1 H2] Ha. pose proof (cart_len Ha) as La. rewrite HL in La. unfold combo_step. cbn [option_bind]. destruct (existsb (row_eqb a) (concat all)) eqn:E.
  - exists all. split; auto. split; [split; auto|]. split; auto. apply existsb_exists in E as (x & Hx & Ex). apply row_eqb_eq in Ex. subst. auto.
  - rewrite (opt_map_map (permute a) (act a)) by (intros p Hp; apply (@permute_act n); auto; intros; eapply ps_lt; eauto).
    cbn [option_bind]. fold (orb a). exists (all ++ [orb a]). split; auto. rewrite concat_app. cbn [concat]. rewrite app_nil_r. split; [split|split].
    + intros g Hg. apply in_app_or in Hg as [Hg|[<-|[]]]; eauto.
    + rewrite concat_app. cbn [concat]. rewrite app_nil_r. apply NoDup_app_intro; auto; [apply unique_rows_nodup|].
      intros x Hx Hxo. apply in_concat in Hx as (g & Hg & Hx). destruct (H1 g Hg) as (b & Hb & ->).
      assert (Hab : In a (orb b)) by (apply (orb_trans Hx); apply orb_sym; auto).
      assert (existsb (row_eqb a) (concat all) = true); [|congruence]. apply existsb_exists. exists a. split; [apply in_concat; eauto|]. apply row_eqb_eq; auto.
    + apply in_or_app. right. apply orb_self; auto.
    + intros x Hx. apply in_or_app; auto.
Qed.
Lemma combos_ok : exists cs, gen_combos bits ps = Some cs /\ groups_ok cs /\ forall a, In a (cart bits) -> In a (concat cs).
Proof.
  assert (H : forall l all, (forall a, In a l -> In a (cart bits)) -> groups_ok all ->
    exists cs, fold_left (combo_step ps) l (Some all) = Some cs /\ groups_ok cs /\ (forall a, In a l -> In a (concat cs)) /\ (forall x, In x (concat all) -> In x (concat cs))).
  { induction l as [|a l IH]; intros all Hl Hok; cbn [fold_left]; [exists all; simpl; intuition|].
    destruct (step_ok Hok (Hl a (or_introl eq_refl))) as (all' & -> & Hok' & Ha & Hs).
    destruct (IH all' (fun x Hx => Hl x (or_intror Hx)) Hok') as (cs & -> & Hc & H1 & H2). exists cs. split; auto. split; auto. split; auto.
    intros x [<-|Hx]; auto. }
  destruct (H (cart bits) []) as (cs & E & Hok & Ha & _); auto; [split; simpl; [tauto|constructor]|]. exists cs. auto.
Qed.
End Combos.

(** The groups of bit combinations: none is empty, every combination is in exactly one of them, and the group of a combination
    consists of what the permutations make of it. *)
Theorem C35_partition n bits ps : perm_group n ps -> sym_bits bits ps -> length bits = n ->
  exists cs, gen_combos bits ps = Some cs /\ NoDup (concat cs) /\ (forall a, In a (concat cs) <-> In a (cart bits)) /\
    (forall g, In g cs -> g <> []) /\
    (forall g a b, In g cs -> In a g -> (In b g <-> exists p, In p ps /\ permute a p = Some b)).
Proof.
  intros HG HB HL. destruct (combos_ok HG HL) as (cs & E & [H1 H2] & H3). exists cs.
  assert (Hc : forall g a, In g cs -> In a g -> In a (cart bits)).
  { intros g a Hg Ha. destruct (H1 g Hg) as (c & Hc & ->). apply orb_in in Ha as (p & Hp & ->). apply (cart_act HG HB HL); auto. }
  assert (Hlen : forall g a, In g cs -> In a g -> length a = n) by (intros g a Hg Ha; rewrite <- HL; apply cart_len; eauto).
  repeat split; auto.
  - intros Ha. apply in_concat in Ha as (g & Hg & Ha). eauto.
  - intros g Hg. destruct (H1 g Hg) as (c & Hcc & ->). intros Eo. pose proof (orb_self HG (a := c)) as Hs. rewrite Eo in Hs. apply Hs. rewrite (cart_len Hcc); auto.
  - intros Hb. destruct (H1 g) as (c & Hcc & Eg); auto. subst g. assert (Hab : In b (orb ps a)).
    { apply (orb_trans HG (x := c)); auto. apply (orb_sym HG); auto. rewrite (cart_len Hcc); auto. }
    apply orb_in in Hab as (p & Hp & ->). exists p. split; auto. apply (@permute_act n); eauto. intros; eapply ps_lt; eauto.
  - intros (p & Hp & Ep). destruct (H1 g) as (c & Hcc & Eg); auto. subst g. apply (orb_trans HG (x := a)); auto.
    apply orb_in. exists p. split; auto. rewrite (@permute_act n) in Ep; eauto; [congruence|]. intros; eapply ps_lt; eauto.
Qed.
Definition ex_perms : list (list nat) := [[0; 1]; [1; 0]].
Example ex_perm_group : perm_group 2 ex_perms.
Proof.
  constructor.
  - intros p [<-|[<-|[]]]; repeat split; simpl; try (repeat constructor; simpl; intuition lia); intuition lia.
  - simpl; auto.
  - intros p q r [<-|[<-|[]]] [<-|[<-|[]]]; vm_compute; intros [= <-]; auto.
  - intros p [<-|[<-|[]]]; [exists [0; 1]|exists [1; 0]]; simpl; auto.
Qed.
Example ex_sym_bits : sym_bits [[0; 1]; [0; 1]] ex_perms.
Proof. intros p i j [<-|[<-|[]]]; destruct i as [|[|[|i]]]; simpl; intros [= <-]; auto. Qed.
Example C35_case : gen_combos [[0; 1]; [0; 1]] ex_perms = Some [[[0; 0]]; [[0; 1]; [1; 0]]; [[1; 1]]].
Proof. reflexivity. Qed.

(** ** Indicator functions *)
Lemma nth_map_seq {A} (f : nat -> A) n i d : i < n -> nth i (map f (seq 0 n)) d = f i.
Proof. intros H. rewrite (nth_indep _ d (f 0)) by (rewrite map_length, seq_length; auto). rewrite map_nth, seq_nth; auto. Qed.
Lemma indicator_bprod dims bits codes : codes_below dims bits -> codes_below dims codes ->
  bprod (map indicator dims) bits codes = if row_eqb bits codes then 1%Qc else 0%Qc.
Proof.
  intros Hb. revert codes. induction Hb as [|d b ds bs Hd Hb IH]; intros codes Hc; inversion Hc as [|d' c ds' cs Hc' Hcs]; subst; [reflexivity|].
  specialize (IH _ Hcs). unfold bprod in *. cbn [map pick_rows row_eqb].
  assert (E : nth_error (indicator d) b = Some (map (fun j => if b =? j then 1%Qc else 0%Qc) (seq 0 d))).
  { unfold indicator. rewrite nth_error_map, nth_error_seq. destruct (Nat.ltb_spec b d); [auto|lia]. }
  rewrite E. cbn [option_bind]. destruct (pick_rows (map indicator ds) bs) as [rs|] eqn:Er; cbn [option_bind rprod].
  - rewrite IH. rewrite (nth_map_seq (fun j => if b =? j then 1%Qc else 0%Qc)) by auto. destruct (b =? c), (row_eqb bs cs); simpl; ring.
  - destruct (b =? c); simpl; auto.
Qed.
Lemma cart_below dims bits : In bits (cart (map (seq 0) dims)) <-> codes_below dims bits.
Proof.
  rewrite cart_in. split.
  - revert dims. induction bits as [|b bits IH]; intros [|d dims] H; simpl in H; inversion H as [|? ? ? ? H1 H2]; subst; constructor; [apply in_seq in H1; lia|apply IH; auto].
  - induction 1; simpl; constructor; auto. apply in_seq. lia.
Qed.
Lemma indicator_shape dims : basis_shape (map indicator dims) dims.
Proof.
  induction dims as [|d dims IH]; simpl; constructor; auto. intros r Hr. unfold indicator in Hr. apply in_map_iff in Hr as (i & <- & _).
  rewrite map_length, seq_length. auto.
Qed.
Lemma indicator_bits dims bits : codes_below dims bits -> bits_in (map indicator dims) bits.
Proof. induction 1; simpl; constructor; auto. unfold indicator. rewrite map_length, seq_length. auto. Qed.
Lemma qsum_delta (l : list (list nat)) x : NoDup l -> qsum (map (fun b => if row_eqb b x then 1%Qc else 0%Qc) l) = if existsb (row_eqb x) l then 1%Qc else 0%Qc.
Proof.
  induction 1 as [|b l Hb Hl IH]; [reflexivity|]. cbn [map existsb]. unfold qsum in *. cbn [fold_right]. rewrite IH.
  destruct (row_eqb b x) eqn:E.
  - apply row_eqb_eq in E. subst b. rewrite (proj2 (row_eqb_eq x x) eq_refl). cbn [Datatypes.orb].
    destruct (existsb (row_eqb x) l) eqn:Ex; [|simpl; ring]. exfalso. apply existsb_exists in Ex as (y & Hy & Ey). apply row_eqb_eq in Ey. subst. auto.
  - destruct (row_eqb x b) eqn:E'; [apply row_eqb_eq in E'; subst; rewrite (proj2 (row_eqb_eq b b) eq_refl) in E; discriminate|]. simpl. ring.
Qed.
Lemma codes_of_row sd N occu dims row : codes_ok sd N occu -> map sd row = dims -> (forall s, In s row -> s < N) ->
  codes_below dims (map (fun s => nth s occu 0) row).
Proof.
  intros [L HC] <- HN. induction row as [|s row IH]; simpl; constructor.
  - apply HC. apply nth_error_nth'. rewrite L. apply HN. simpl; auto.
  - apply IH. intros; apply HN; simpl; auto.
Qed.
Lemma Qc_inv_nonneg x : (0 <= x)%Qc -> (0 <= / x)%Qc.
Proof.
  intros H. destruct (Qc_eq_dec x 0) as [->|Hx]; [apply Qcle_refl|]. apply Qcnot_lt_le. intros Hl.
  assert (H1 : (x * / x <= 0)%Qc).
  { rewrite Qcmult_comm. replace 0%Qc with (0 * x)%Qc by ring. apply Qcmult_le_compat_r; auto. apply Qclt_le_weak; auto. }
  rewrite Qcmult_inv_r in H1 by auto. apply H1. reflexivity.
Qed.
(** The species on the sites of a cluster. *)
Definition decoration (occu row : list nat) : list nat := map (fun s => nth s occu 0) row.
Definition decorated (occu : list nat) (combos : list (list nat)) (row : list nat) : bool := existsb (row_eqb (decoration occu row)) combos.

Section Potts.
Variables (sd : nat -> nat) (N : nat) (P : proc) (occu : list nat) (n key mult i b : nat) (dims : list nat) (ps : list (list nat)) (so : sorbit) (o : orbit) (rows : ctable).
Hypothesis HP : proc_ok sd N P.
Hypothesis HC : codes_ok sd N occu.
Hypothesis HG : perm_group (length dims) ps.
Hypothesis HB : sym_bits (map (seq 0) dims) ps.
Hypothesis Hpos : forall d, In d dims -> 0 < d.
Hypothesis Hso : potts_orbit key mult dims ps = Some so.
Hypothesis Ho : orbit_data (fst (assign_ids (i, b, 0) so)) = Some o.
Hypothesis Hn : nth_error (e_orbits (p_eval P)) n = Some o.
Hypothesis Hr : nth_error (p_tables P) n = Some rows.
Hypothesis Hrows : forall row, In row rows -> map sd row = dims.

Lemma potts_combos : gen_combos (map (seq 0) dims) ps = Some (s_combos so) /\ s_basis so = map indicator dims.
Proof. unfold potts_orbit in Hso. destruct (gen_combos (map (seq 0) dims) ps); [|discriminate]. injection Hso as <-. auto. Qed.
Lemma potts_part : NoDup (concat (s_combos so)) /\ (forall a, In a (concat (s_combos so)) <-> codes_below dims a) /\ (forall g, In g (s_combos so) -> g <> []).
Proof.
  destruct potts_combos as [E _]. destruct (C35_partition HG HB) as (cs & E' & H1 & H2 & H3 & _); [rewrite map_length; auto|].
  rewrite E in E'. injection E' as <-. repeat split; auto; intros H.
  - apply cart_below. apply H2; auto.
  - apply H2. apply cart_below. auto.
Qed.
Lemma potts_ok : sorbit_ok dims so.
Proof.
  destruct potts_combos as [_ E]. destruct potts_part as (H1 & H2 & H3). constructor; auto; rewrite E.
  - apply indicator_shape.
  - intros B HBi. apply in_map_iff in HBi as (d & <- & Hd). apply Hpos in Hd. unfold indicator. destruct d; [lia|]. discriminate.
  - intros combos bits Hc Hb. apply indicator_bits. apply H2. apply in_concat; eauto.
Qed.
Lemma potts_rows : rows <> [] /\ forall row s, In row rows -> In s row -> s < N.
Proof.
  assert (Hlen : n < length (e_orbits (p_eval P))) by (apply nth_error_Some; rewrite Hn; discriminate).
  destruct (@nth_error_lt _ (e_inter (p_eval P)) n) as [it Hi]; [rewrite (ok_inter HP); auto|].
  destruct (ok_orbits HP _ Hn Hi Hr) as (dims' & _ & _ & _ & Hne & Hrr). split; auto. intros row s Hrow Hs. destruct (Hrr _ Hrow) as [_ H]. auto.
Qed.
Lemma potts_fraction : exists v, ce_features P occu = Some v /\ length v = e_num_corr (p_eval P) /\
  forall k g, nth_error (s_combos so) k = Some g ->
    nth_error v (b + k) = Some (Qc_of_nat (length (filter (decorated occu g) rows)) / Qc_of_nat (length g) / Qc_of_nat (length rows) * Qc_of_nat (p_size P))%Qc.
Proof.
  destruct (C26_change HP HC (flips := [])) as (v & _ & Ev & _); [intros s c []|].
  destruct (correlations_total HP HC) as (w & Ew & Lw & _).
  assert (Lv : length v = e_num_corr (p_eval P)).
  { unfold ce_features in Ev. rewrite Ew in Ev. injection Ev as <-. unfold scale. rewrite map_length. auto. }
  exists v. split; auto. split; auto. intros k g Hk.
  destruct potts_combos as [_ Eb]. destruct potts_part as (H1 & H2 & H3). destruct (tensors_ok potts_ok) as (ts & Et & Lt & Ed & Hl & Hv).
  assert (Eo : o = mkOrbit i b ts (flat_tensor_indices dims)).
  { clear - Ho Et Ed. unfold orbit_data in Ho. cbn [assign_ids fst] in Ho.
    change (correlation_tensors (mkS (s_key so) (s_mult so) (s_basis so) (s_combos so) i b)) with (correlation_tensors so) in Ho. rewrite Et in Ho. cbn [option_bind] in Ho.
    injection Ho as <-. cbn [s_id s_bit]. f_equal. f_equal. auto. }
  assert (Hkt : k < length ts) by (rewrite Lt; unfold s_len; apply nth_error_Some; rewrite Hk; discriminate).
  destruct (@nth_error_lt _ ts k Hkt) as [t Ht].
  destruct (@C26_value sd N P occu n o rows k t dims HP HC Hn Hr) as (v' & xs & Ev' & _ & _ & Exs & Hx); auto; [rewrite Eo; auto|].
  rewrite Ev in Ev'. injection Ev' as <-. rewrite Eo in Hx. cbn [o_bit] in Hx. rewrite Hx. f_equal. f_equal. f_equal.
  destruct potts_rows as [_ HN].
  assert (Hg : NoDup g /\ forall bits, In bits g -> codes_below dims bits).
  { split; [|intros bits Hb; apply H2; apply in_concat; exists g; split; auto; eapply nth_error_In; eauto].
    revert H1 Hk. clear. revert k. induction (s_combos so) as [|h cs IH]; intros [|k] H1 Hk; simpl in *; try discriminate.
    - injection Hk as ->. apply NoDup_app_remove_r in H1. auto.
    - apply (IH k); auto. apply NoDup_app_remove_l in H1. auto. }
  destruct Hg as [Hgn Hgb].
  assert (Exs' : xs = map (fun row => (if decorated occu g row then 1 else 0) / Qc_of_nat (length g))%Qc rows).
  { rewrite opt_map_map with (g := fun row => ((if decorated occu g row then 1 else 0) / Qc_of_nat (length g))%Qc) in Exs; [injection Exs as <-; auto|].
    intros row Hrow. pose proof (@codes_of_row sd N occu dims row HC (Hrows Hrow) (fun s Hs => HN row s Hrow Hs)) as Hcb.
    assert (Htl : length t = nprod dims) by (apply Hl; eapply nth_error_In; eauto).
    rewrite entry_index by auto. rewrite (nth_error_nth' t 0%Qc) by (rewrite Htl; apply index_lt; auto). f_equal.
    rewrite (Hv k g t _ Hk Ht Hcb). f_equal. rewrite Eb. unfold decorated, decoration. rewrite <- qsum_delta by auto. f_equal. apply map_ext_in.
    intros bits Hb. apply indicator_bprod; auto. }
  rewrite Exs'. clear. generalize (Qc_of_nat (length g)) as q. intros q. induction rows as [|row l IH]; [unfold qsum; simpl; unfold Qcdiv; rewrite Qcmult_0_l; reflexivity|].
  cbn [map filter]. unfold qsum in *. cbn [fold_right]. rewrite IH. destruct (decorated occu g row); cbn [length]; rewrite ?Qc_of_nat_S; unfold Qcdiv; ring.
Qed.
End Potts.

(** The correlation of a decoration is the fraction of clusters with one of its variants, divided by the number of variants. *)
Theorem C36_fraction sd N P occu n key mult i b dims ps so o rows : proc_ok sd N P -> codes_ok sd N occu ->
  perm_group (length dims) ps -> sym_bits (map (seq 0) dims) ps -> (forall d, In d dims -> 0 < d) ->
  potts_orbit key mult dims ps = Some so -> orbit_data (fst (assign_ids (i, b, 0) so)) = Some o ->
  nth_error (e_orbits (p_eval P)) n = Some o -> nth_error (p_tables P) n = Some rows -> (forall row, In row rows -> map sd row = dims) ->
  exists v, ce_features P occu = Some v /\
    forall k g, nth_error (s_combos so) k = Some g ->
      nth_error v (b + k) = Some (Qc_of_nat (length (filter (decorated occu g) rows)) / Qc_of_nat (length g) / Qc_of_nat (length rows) * Qc_of_nat (p_size P))%Qc.
Proof.
  intros HP HC HG HB Hpos Hso Ho Hn Hr Hrows. destruct (potts_fraction HP HC HG HB Hpos Hso Ho Hn Hr Hrows) as (v & E & _ & V). eauto.
Qed.

Lemma filter_groups {A B} (f : B -> A -> bool) (gs : list B) (l : list A) :
  (forall x, In x l -> qsum (map (fun g => if f g x then 1%Qc else 0%Qc) gs) = 1%Qc) ->
  qsum (map (fun g => Qc_of_nat (length (filter (f g) l))) gs) = Qc_of_nat (length l).
Proof.
  induction l as [|x l IH]; intros H; simpl.
  - rewrite qsum_map_0 by (intros; reflexivity). reflexivity.
  - rewrite Qc_of_nat_S, <- IH by (intros; apply H; simpl; auto). rewrite <- (H x) by (simpl; auto). rewrite Qcplus_comm, <- qsum_map_add. f_equal. apply map_ext. intros g.
    destruct (f g x); cbn [length]; rewrite ?Qc_of_nat_S; ring.
Qed.
Lemma one_group (gs : list (list (list nat))) x : NoDup (concat gs) -> In x (concat gs) ->
  qsum (map (fun g => if existsb (row_eqb x) g then 1%Qc else 0%Qc) gs) = 1%Qc.
Proof.
  intros Hn Hx. assert (H : forall l : list (list (list nat)), NoDup (concat l) -> qsum (map (fun g => if existsb (row_eqb x) g then 1%Qc else 0%Qc) l) = if existsb (row_eqb x) (concat l) then 1%Qc else 0%Qc).
  { induction l as [|g l IH]; intros H; [reflexivity|]. simpl in *. rewrite existsb_app. unfold qsum in *. cbn [fold_right]. rewrite IH by (apply NoDup_app_remove_l in H; auto).
    destruct (existsb (row_eqb x) g) eqn:E1, (existsb (row_eqb x) (concat l)) eqn:E2; cbn [Datatypes.orb]; try ring. exfalso.
    apply existsb_exists in E1 as (y & Hy & Ey). apply row_eqb_eq in Ey. subst y. apply existsb_exists in E2 as (z & Hz & Ez). apply row_eqb_eq in Ez. subst z.
    apply (@NoDup_app_disj _ _ _ x H); auto. }
  rewrite H by auto. replace (existsb (row_eqb x) (concat gs)) with true; auto. symmetry. apply existsb_exists. exists x. split; auto. apply row_eqb_eq. auto.
Qed.
(** Correlations are not negative, and weighted with the numbers of variants they add up to one (times the size). *)
Theorem C36_weighted_partial sd N P occu n key mult i b dims ps so o rows : proc_ok sd N P -> codes_ok sd N occu ->
  perm_group (length dims) ps -> sym_bits (map (seq 0) dims) ps -> (forall d, In d dims -> 0 < d) ->
  potts_orbit key mult dims ps = Some so -> orbit_data (fst (assign_ids (i, b, 0) so)) = Some o ->
  nth_error (e_orbits (p_eval P)) n = Some o -> nth_error (p_tables P) n = Some rows -> (forall row, In row rows -> map sd row = dims) ->
  exists v, ce_features P occu = Some v /\
    (forall k, k < s_len so -> exists x, nth_error v (b + k) = Some x /\ (0 <= x)%Qc) /\
    qsum (map (fun k => Qc_of_nat (nth k (combo_mults so) 0%nat) * nth (b + k) v 0)%Qc (seq 0 (s_len so))) = Qc_of_nat (p_size P).
Proof.
  intros HP HC HG HB Hpos Hso Ho Hn Hr Hrows. destruct (potts_fraction HP HC HG HB Hpos Hso Ho Hn Hr Hrows) as (v & E & _ & V).
  destruct (potts_part HG HB Hso Ho) as (H1 & H2 & H3). destruct (potts_rows HP Hn Hr) as [Hne HN].
  exists v. split; auto. split.
  - intros k Hk. destruct (@nth_error_lt _ (s_combos so) k Hk) as [g Hg]. eexists. split; [apply (V k g Hg)|].
    assert (Hd : forall x m, (0 <= x)%Qc -> (0 <= x / Qc_of_nat m)%Qc).
    { intros x m Hx. unfold Qcdiv. replace 0%Qc with (0 * / Qc_of_nat m)%Qc by ring. apply Qcmult_le_compat_r; auto. apply Qc_inv_nonneg, Qc_of_nat_nonneg. }
    replace 0%Qc with (0 * Qc_of_nat (p_size P))%Qc by ring. apply Qcmult_le_compat_r; [|apply Qc_of_nat_nonneg]. apply Hd, Hd, Qc_of_nat_nonneg.
  - rewrite (map_ext_in _ (fun k => Qc_of_nat (length (filter (decorated occu (nth k (s_combos so) [])) rows)) / Qc_of_nat (length rows) * Qc_of_nat (p_size P))%Qc).
    2:{ intros k Hk. apply in_seq in Hk. unfold s_len in Hk. destruct (@nth_error_lt _ (s_combos so) k) as [g Hg]; [lia|].
        rewrite (nth_error_nth _ _ _ (V k g Hg)), (nth_error_nth _ _ _ Hg). unfold combo_mults.
        rewrite (nth_error_nth (map (@length (list nat)) (s_combos so)) k 0 (x := length g)) by (rewrite nth_error_map, Hg; auto).
        assert (Hgl : length g <> 0) by (intros Eg; apply length_zero_iff_nil in Eg; apply (H3 g); auto; eapply nth_error_In; eauto).
        pose proof (Qc_of_nat_nz Hgl). unfold Qcdiv.
        transitivity (Qc_of_nat (length (filter (decorated occu g) rows)) * (Qc_of_nat (length g) * / Qc_of_nat (length g)) * / Qc_of_nat (length rows) * Qc_of_nat (p_size P))%Qc; [ring|].
        rewrite Qcmult_inv_r by auto. ring. }
    assert (Hrl : length rows <> 0) by (intros Eg; apply length_zero_iff_nil in Eg; auto). pose proof (Qc_of_nat_nz Hrl) as Hq.
    transitivity ((qsum (map (fun g => Qc_of_nat (length (filter (decorated occu g) rows))) (s_combos so))) * (/ Qc_of_nat (length rows) * Qc_of_nat (p_size P)))%Qc.
    + rewrite <- qsum_map_scale_r. f_equal. unfold s_len. apply (nth_ext _ _ 0%Qc 0%Qc); [rewrite !map_length, seq_length; auto|].
      intros k Hk. rewrite map_length, seq_length in Hk. rewrite nth_map_seq by auto.
      destruct (@nth_error_lt _ (s_combos so) k) as [g Hg]; auto.
      rewrite (nth_error_nth _ _ _ Hg). symmetry. apply nth_error_nth. rewrite nth_error_map, Hg. cbn [option_map]. f_equal. unfold Qcdiv. ring.
    + rewrite (@filter_groups _ _ (decorated occu) (s_combos so) rows); [transitivity ((Qc_of_nat (length rows) * / Qc_of_nat (length rows)) * Qc_of_nat (p_size P))%Qc; [ring|]; rewrite Qcmult_inv_r by auto; ring|].
      intros row Hrow. unfold decorated. apply one_group; auto. apply H2. apply (codes_of_row (sd := sd) (N := N)); auto. intros; eapply HN; eauto.
Qed.

(** A binary pair orbit whose sites are exchanged by a symmetry, on two sites with different species: the plain sum
    of the correlations is one half. *)
Definition ex_potts : sorbit := mkS 0 1 [indicator 2; indicator 2] [[[0; 0]]; [[0; 1]; [1; 0]]; [[1; 1]]] 0 0.
Definition ex_potts_data : orbit := match orbit_data (fst (assign_ids (1, 1, 0) ex_potts)) with Some o => o | None => mkOrbit 0 0 [] [] end.
Definition ex_potts_proc : proc := mkProc 1 (mkEval [ex_potts_data] 2 4 0%Qc [repeat (Q2Qc 0) 4]) [[[0; 1]]].
Example ex_potts_orbit : potts_orbit 0 1 [2; 2] ex_perms = Some ex_potts.
Proof. reflexivity. Qed.
Example ex_potts_orbit_data : orbit_data (fst (assign_ids (1, 1, 0) ex_potts)) = Some ex_potts_data.
Proof. reflexivity. Qed.
Example ex_potts_ok : proc_ok ex_sd 2 ex_potts_proc.
Proof.
  constructor; try reflexivity; simpl.
  - intros [|[|n]] o i rows; simpl; try discriminate; intros [= <-] [= <-] [= <-]. exists [2; 2]. split; [reflexivity|].
    split; [intros t H; ex_in H; reflexivity|]. split; [reflexivity|]. split; [congruence|].
    intros row H; ex_in H; (split; [reflexivity|]); intros s H'; ex_in H'; lia.
  - repeat constructor; simpl; intuition lia.
  - intros o k [<-|[]] Hk. change (k < 3) in Hk. change (0 < 1 + k < 4). lia.
  - repeat constructor; simpl; intuition.
  - intros o [<-|[]]. change (0 < 1 < 2). lia.
  - lia.
Qed.
Example ex_potts_codes : codes_ok ex_sd 2 [0; 1].
Proof. split; auto. intros [|[|[|s]]] c E; simpl in E; try discriminate; injection E as <-; unfold ex_sd; lia. Qed.
Theorem C36_sum_refuted : exists sd N P occu n key mult i b dims ps so o rows v, proc_ok sd N P /\ codes_ok sd N occu /\
  perm_group (length dims) ps /\ sym_bits (map (seq 0) dims) ps /\ (forall d, In d dims -> 0 < d) /\
  potts_orbit key mult dims ps = Some so /\ orbit_data (fst (assign_ids (i, b, 0) so)) = Some o /\
  nth_error (e_orbits (p_eval P)) n = Some o /\ nth_error (p_tables P) n = Some rows /\ (forall row, In row rows -> map sd row = dims) /\
  p_size P = 1 /\ ce_features P occu = Some v /\ qsum (map (fun k => nth (b + k) v 0%Qc) (seq 0 (s_len so))) <> 1%Qc.
Proof.
  destruct (C36_fraction (n := 0) ex_potts_ok ex_potts_codes ex_perm_group ex_sym_bits (dims := [2; 2]) (key := 0) (mult := 1) (i := 1) (b := 1)
              (so := ex_potts) (o := ex_potts_data) (rows := [[0; 1]])) as (v & Ev & V); try reflexivity.
  { intros d H; ex_in H; lia. }
  { intros row H; ex_in H; reflexivity. }
  exists ex_sd, 2, ex_potts_proc, [0; 1], 0, 0, 1, 1, 1, [2; 2], ex_perms, ex_potts, ex_potts_data, [[0; 1]], v.
  repeat (match goal with |- _ /\ _ => split end); auto using ex_potts_ok, ex_potts_codes, ex_perm_group, ex_sym_bits.
  - intros d H; ex_in H; lia.
  - intros row H; ex_in H; reflexivity.
  - unfold s_len. cbn [ex_potts s_combos length seq map]. rewrite (nth_error_nth _ _ _ (V 0 _ eq_refl)), (nth_error_nth _ _ _ (V 1 _ eq_refl)), (nth_error_nth _ _ _ (V 2 _ eq_refl)).
    intros E. apply (f_equal this) in E. vm_compute in E. discriminate.
Qed.

Print Assumptions C35_partition.
Print Assumptions C36_fraction.
Print Assumptions C36_weighted_partial.
Print Assumptions C36_sum_refuted.
