(** Properties C14, C68 and C69: multi-cell kernels. *)
From Verif Require Import Multicell KernelSpec KernelProofs LibProofs ProbProofs UsherProofs WangLandauProofs.
From Coq Require Import Lia Lra.
Set Implicit Arguments.
Unset Strict Implicit.
Open Scope nat_scope.

(** ** Specification *)
(** All cells share the parameters, have exact changes on a common set of occupancies closed under
    the steps they propose, and a defined a-priori factor. *)
Definition good_cells (M : mcells) (params : list Qc) (Good : list nat -> Prop) : Prop :=
  forall i K, nth_error (m_kernels M) i = Some K ->
    k_params K = params /\
    (forall o, Good o -> length (k_feat K o) = length params) /\
    (forall o st, Good o -> outcome (k_propose K o) st ->
       Good (apply_step o st) /\ exact_changes K o st /\ exists r, k_logp K o st = Some r).
Definition cell_kernel M i : mckernel := nth i (m_kernels M) (mkKernel [] (fun _ => []) (fun _ _ => []) None (fun _ => []) (fun _ _ => None)).

(** Inputs that can occur: a target cell, a step the moving cell proposes for the occupancy
    it starts from, a uniform number. *)
Definition possible (M : mcells) (s : mc) (i : mc_input) : Prop :=
  (0 < i_u i < 1)%R /\ i_target i < length (m_kernels M) /\
  exists o, (if hop_due s then stored s (i_target i) else walker s) = Some o /\
    outcome (k_propose (cell_kernel M (if hop_due s then i_target i else c_cur s)) o) (i_step i).

(** Histories: several sampling runs after each other, each continuing from any
    good occupancy; the recorded values belong to the last run.  The flag is [true] while no run
    was continued from a single occupancy. *)
Inductive mc_run (M : mcells) (Good : list nat -> Prop) : bool -> mc -> rec -> Prop :=
| mc_run_start cur count period bs occus s r :
    Forall Good occus -> length bs = length occus -> mc_start M cur count period bs occus = Some s -> rec_start M s = Some r -> mc_run M Good true s r
| mc_run_continue b s r occu s' r' :
    mc_run M Good b s r -> Good occu -> mc_continue M s occu = Some s' -> rec_start M s' = Some r' -> mc_run M Good false s' r'
| mc_run_step b s r i s' tr :
    mc_run M Good b s r -> possible M s i -> mc_step M s i = Some (s', tr) -> mc_run M Good b s' (rec_step r s' tr).

(** ** Invariant *)
Lemma qvadd_qvsub a b : length a = length b -> qvadd b (qvsub a b) = a.
Proof.
  revert b. induction a as [|x a IH]; intros [|y b] H; simpl in *; try discriminate; auto.
  unfold qvadd, qvsub, qmap2 in *. simpl. f_equal; [ring|apply IH; lia].
Qed.
Lemma length_qvsub a b : length (qvsub a b) = Nat.min (length a) (length b).
Proof. unfold qvsub, qmap2. rewrite map_length, combine_length. auto. Qed.
Lemma Forall_upd {A} (P : A -> Prop) l i x : Forall P l -> P x -> Forall P (upd l i x).
Proof.
  intros H Hx. revert i. induction H; intros [|i]; simpl; constructor; auto.
Qed.
Lemma Forall_nth_error {A} (P : A -> Prop) l i x : Forall P l -> nth_error l i = Some x -> P x.
Proof. intros H E. rewrite Forall_forall in H. eapply H, nth_error_In; eauto. Qed.

Lemma qvsub_of_add a b c : length c = length b -> a = qvadd b c -> c = qvsub a b.
Proof.
  intros L ->. revert c L. induction b as [|x b IH]; intros [|y c] L; simpl in *; try discriminate; auto.
  unfold qvsub, qvadd, qmap2 in *. simpl. f_equal; [ring|apply IH; lia].
Qed.

Section Inv.
Variables (M : mcells) (params : list Qc) (Good : list nat -> Prop).
Hypothesis HM : good_cells M params Good.
Let n := length (m_kernels M).
Definition inv (b : bool) (s : mc) (r : rec) : Prop :=
  c_cur s < n /\ length (c_ptr s) = n /\ length (c_feat s) = n /\ length (c_bias s) = n /\ n <= c_walker s < length (c_heap s) /\
  (forall i p, nth_error (c_ptr s) i = Some p -> p < length (c_heap s) /\ (p < n -> p = i)) /\
  Forall Good (c_heap s) /\
  (exists w, walker s = Some w /\ nth_error (c_feat s) (c_cur s) = Some (k_feat (cell_kernel M (c_cur s)) w) /\
     r_occu r = w /\ r_cell r = c_cur s /\ r_feat r = k_feat (cell_kernel M (c_cur s)) w /\
     r_enth r = qdot params (k_feat (cell_kernel M (c_cur s)) w)) /\
  (b = true -> forall i o, nth_error (c_ptr s) i = Some i -> nth_error (c_heap s) i = Some o ->
     nth_error (c_feat s) i = Some (k_feat (cell_kernel M i) o)).

Lemma kernel_at i : i < n -> nth_error (m_kernels M) i = Some (cell_kernel M i).
Proof. intros H. unfold cell_kernel. apply nth_error_nth'. auto. Qed.
Lemma good_at i : i < n -> k_params (cell_kernel M i) = params /\
    (forall o, Good o -> length (k_feat (cell_kernel M i) o) = length params) /\
    (forall o st, Good o -> outcome (k_propose (cell_kernel M i) o) st ->
       Good (apply_step o st) /\ exact_changes (cell_kernel M i) o st /\ exists r, k_logp (cell_kernel M i) o st = Some r).
Proof. intros H. apply (HM (kernel_at H)). Qed.

(** One step, described. *)
Definition step_effect (s : mc) (i : mc_input) (s' : mc) (tr : step_trace) : Prop :=
  (exists w w', walker s = Some w /\ walker s' = Some w' /\ s_occu tr = w' /\
     (s_accepted tr = false -> w' = w /\ c_cur s' = c_cur s) /\
     (s_accepted tr = true -> c_cur s' = (if hop_due s then i_target i else c_cur s) /\
        (exists o, (if hop_due s then stored s (i_target i) else Some w) = Some o /\ w' = apply_step o (i_step i)) /\
        d_feat (s_delta tr) = qvsub (k_feat (cell_kernel M (c_cur s')) w') (k_feat (cell_kernel M (c_cur s)) w))).

Lemma inv_step b s r i : inv b s r -> possible M s i ->
  exists s' tr, mc_step M s i = Some (s', tr) /\ inv b s' (rec_step r s' tr) /\ step_effect s i s' tr.
Proof.
  intros (Hc & Lp & Lf & Lb & Hw & Hp & HG & (w & Ew & Ef & R1 & R2 & R3 & R4) & Hs) (Hu & Ht & o & Eo & Hst).
  unfold walker in Ew. pose proof (Forall_nth_error HG Ew) as Gw.
  destruct (good_at Hc) as (Pc & Lc & Xc).
  unfold mc_step. destruct (hop_due s) eqn:Eh.
  - (* hop *)
    unfold mc_hop. rewrite (kernel_at Ht). cbn [option_bind].
    destruct (good_at Ht) as (Pt & Lt & Xt).
    unfold stored in Eo. destruct (nth_error (c_ptr s) (i_target i)) as [p|] eqn:Ep; [|discriminate]. cbn [option_bind] in *.
    rewrite Eo, Ef. cbn [option_bind]. pose proof (Forall_nth_error HG Eo) as Go.
    destruct (Hp _ _ Ep) as [Hpl Hpn].
    destruct (Xt _ _ Go Hst) as (G' & _ & lf & Elf). rewrite Elf.
    destruct (@nth_error_lt _ (c_bias s) (i_target i)) as (stale & Es); [fold n in Ht; lia|]. rewrite Es. cbn [option_bind].
    set (K := cell_kernel M (i_target i)) in *. set (o' := apply_step o (i_step i)) in *.
    set (df := qvsub (k_feat K o') (k_feat (cell_kernel M (c_cur s)) w)).
    set (db := match k_bias K with Some _ => stale | None => None end).
    destruct (accept_test_spec (m_hop_rule M (qdot df (k_params K)) lf db) Hu) as (acc & Ea & _). rewrite Ea. cbn [option_bind].
    assert (Ldf : length (k_feat K o') = length (k_feat (cell_kernel M (c_cur s)) w)) by (rewrite Lt, Lc; auto).
    destruct acc.
    + do 2 eexists. split; [reflexivity|].
      assert (Ew' : nth_error (upd (upd (c_heap s) p o') (c_walker s) o') (c_walker s) = Some o').
      { apply nth_error_upd_eq. rewrite length_upd. lia. }
      split.
      * unfold inv. cbn [c_cur c_ptr c_feat c_bias c_walker c_heap]. unfold walker. cbn [c_heap c_walker].
        rewrite !length_upd. split; auto. split; auto. split; auto. split; auto. split; auto.
        split; [exact Hp|]. split; [apply Forall_upd; auto; apply Forall_upd; auto|]. split.
        -- exists o'. rewrite Ew'. split; auto. rewrite nth_error_upd_eq by (fold n in Ht; lia). split; auto.
           unfold rec_step. cbn [s_accepted s_delta d_feat d_enth s_occu r_occu r_cell r_feat r_enth c_cur].
           split; auto. split; auto. split.
           ++ rewrite R3. apply qvadd_qvsub; auto.
           ++ rewrite R4, Pt, (qdot_comm df params). rewrite <- qdot_qvadd; [unfold df; rewrite qvadd_qvsub; auto|].
              unfold df. rewrite length_qvsub. lia.
        -- intros Hb j oj Hpj Hoj.
           assert (Hjn : j < n) by (rewrite <- Lp; apply nth_error_Some; congruence).
           rewrite nth_error_upd_neq in Hoj by lia.
           destruct (Nat.eq_dec (i_target i) j) as [Etj|Ntj].
           ++ subst j. rewrite Ep in Hpj. injection Hpj as ->.
              rewrite nth_error_upd_eq in Hoj by lia. injection Hoj as <-.
              rewrite nth_error_upd_eq by lia. auto.
           ++ rewrite nth_error_upd_neq in Hoj by (intros ->; apply Ntj; symmetry; apply Hpn; auto).
              rewrite nth_error_upd_neq by auto. apply Hs; auto.
      * exists w, o'. unfold walker. cbn [c_heap c_walker c_cur s_occu s_accepted s_delta d_feat]. split; auto. split; auto. split; auto.
        split; [discriminate|]. intros _. rewrite Eh. split; auto. split; auto. exists o. unfold stored. rewrite Ep. auto.
    + unfold walker. rewrite Ew. cbn [option_bind].
      do 2 eexists. split; [reflexivity|]. split.
      * unfold inv. cbn [c_cur c_ptr c_feat c_bias c_walker c_heap]. unfold walker. cbn [c_heap c_walker].
        rewrite !length_upd. split; auto. split; auto. split; auto. split; auto. split; auto. split.
        { intros j q Hq. destruct (Nat.eq_dec (c_cur s) j) as [Ej|Nj].
          - subst j. rewrite nth_error_upd_eq in Hq by lia. injection Hq as <-. split; [lia|]. intros; lia.
          - rewrite nth_error_upd_neq in Hq by auto. apply Hp; auto. }
        split; auto. split.
        -- exists w. rewrite Ew. split; auto.
        -- intros Hb j oj Hpj Hoj. destruct (Nat.eq_dec (c_cur s) j) as [Ej|Nj].
           ++ subst j. rewrite nth_error_upd_eq in Hpj by lia. injection Hpj as Hpj. lia.
           ++ rewrite nth_error_upd_neq in Hpj by auto. apply Hs; auto.
      * exists w, w. unfold walker. cbn [c_heap c_walker c_cur s_occu s_accepted s_delta d_feat]. split; auto. split; auto. split; auto.
        split; [auto|discriminate].
  - (* inside *)
    unfold mc_inside. rewrite (kernel_at Hc). unfold walker in *. rewrite Ew in *. cbn [option_bind].
    injection Eo as <-. destruct (Xc _ _ Gw Hst) as (G' & (X1 & X2 & X3) & lf & Elf).
    unfold single_step. rewrite Elf. cbn [option_bind].
    set (K := cell_kernel M (c_cur s)) in *. set (d := compute_step_trace K w (i_step i)).
    destruct (accept_test_spec (m_cell_rule M (c_cur s) (d_enth d) lf (d_bias d)) Hu) as (acc & Ea & _). rewrite Ea. cbn [option_bind].
    rewrite Ef. cbn [option_bind s_occu s_accepted s_delta].
    assert (Lo : length (k_dfeat K w (i_step i)) = length (k_feat K w)) by auto.
    set (w' := if acc then apply_step w (i_step i) else w).
    assert (Ew' : nth_error (upd (c_heap s) (c_walker s) w') (c_walker s) = Some w') by (apply nth_error_upd_eq; lia).
    assert (Ed : d_feat d = k_dfeat K w (i_step i)) by reflexivity.
    assert (Ee : d_enth d = qdot params (k_dfeat K w (i_step i))) by (rewrite <- Pc; reflexivity).
    do 2 eexists. split; [reflexivity|]. split.
    + unfold inv. cbn [c_cur c_ptr c_feat c_bias c_walker c_heap]. unfold walker. cbn [c_heap c_walker].
      rewrite !length_upd. split; auto. split; auto. split; [destruct acc; rewrite ?length_upd; auto|]. split; auto. split; auto. split.
      { intros j q Hq. destruct (Nat.eq_dec (c_cur s) j) as [Ej|Nj].
        - subst j. rewrite nth_error_upd_eq in Hq by lia. injection Hq as <-. split; [lia|]. intros; lia.
        - rewrite nth_error_upd_neq in Hq by auto. apply Hp; auto. }
      split; [apply Forall_upd; auto; unfold w'; destruct acc; auto|]. split.
      * exists w'. rewrite Ew'. split; auto. unfold rec_step. cbn [s_accepted s_delta d_feat d_enth s_occu c_cur].
        destruct acc; cbn [r_occu r_cell r_feat r_enth]; fold K.
        -- rewrite nth_error_upd_eq by lia. rewrite Ed, Ee. unfold w'.
           split; [f_equal; auto|]. split; auto. split; auto. split; [rewrite R3; auto|].
           rewrite R4, X2. fold K. rewrite qdot_qvadd; auto.
        -- unfold w'. repeat split; auto.
      * intros Hb j oj Hpj Hoj. destruct (Nat.eq_dec (c_cur s) j) as [Ej|Nj].
        -- subst j. rewrite nth_error_upd_eq in Hpj by lia. injection Hpj as Hpj. lia.
        -- assert (Hjn : j < n) by (rewrite <- Lp, <- (length_upd (c_ptr s) (c_cur s) (c_walker s)); apply nth_error_Some; congruence).
           rewrite nth_error_upd_neq in Hpj by auto. rewrite nth_error_upd_neq in Hoj by lia.
           destruct acc; rewrite ?nth_error_upd_neq by auto; apply Hs; auto.
    + exists w, w'. unfold walker. cbn [c_heap c_walker c_cur s_occu s_accepted s_delta]. split; auto. split; auto. split; auto.
      split; intros ->; unfold w'; [auto|]. rewrite Eh. split; auto. split; [exists w; auto|]. fold K. rewrite Ed.
      apply qvsub_of_add; auto.
Qed.
End Inv.

Lemma inv_run M params Good b s r : good_cells M params Good -> mc_run M Good b s r -> inv M params Good b s r.
Proof.
  intros HM H. induction H as [cur count period bs occus s r HG Lb Es Er | b s r occu s' r' H IH HG Es Er | b s r i s' tr H IH Hp Es].
  - unfold mc_start in Es. destruct (Nat.eqb_spec (length occus) (length (m_kernels M))) as [L|]; [|discriminate].
    destruct (nth_error occus cur) as [w|] eqn:Ew; [|discriminate]. cbn [option_bind] in Es. injection Es as <-.
    assert (Hcur : cur < length (m_kernels M)) by (rewrite <- L; apply nth_error_Some; congruence).
    unfold rec_start, walker in Er. cbn [c_cur c_heap c_walker] in Er. rewrite (kernel_at Hcur) in Er.
    rewrite nth_error_app2, Nat.sub_diag in Er by auto. cbn [option_bind nth_error] in Er. injection Er as <-.
    assert (Ff : forall i o, nth_error occus i = Some o ->
       nth_error (map (fun p => k_feat (fst p) (snd p)) (combine (m_kernels M) occus)) i = Some (k_feat (cell_kernel M i) o)).
    { intros i o Hi. assert (i < length (m_kernels M)) by (rewrite <- L; apply nth_error_Some; congruence).
      rewrite nth_error_map.
      assert (Ec : nth_error (combine (m_kernels M) occus) i = Some (cell_kernel M i, o)).
      { clear - H Hi. unfold cell_kernel. revert i occus H Hi. induction (m_kernels M) as [|k l IH]; intros [|i] [|y occus] H Hi; simpl in *; try lia; try discriminate.
        - congruence.
        - apply IH; auto. lia. }
      rewrite Ec. auto. }
    unfold inv. cbn [c_cur c_ptr c_feat c_bias c_walker c_heap]. rewrite seq_length, map_length, combine_length, app_length.
    cbn [length]. split; auto. split; auto. split; [lia|]. split; [lia|]. split; [lia|]. split.
    { intros i p Hi. assert (Hil : i < length occus) by (rewrite <- (seq_length (length occus) 0); apply nth_error_Some; congruence).
      rewrite nth_error_seq in Hi. destruct (Nat.ltb_spec i (length occus)); [|lia]. injection Hi as <-. split; [lia|auto]. }
    split; [apply Forall_app; split; auto; constructor; auto; eapply Forall_nth_error; eauto|]. split.
    + exists w. unfold walker. cbn [c_heap c_walker]. rewrite nth_error_app2, Nat.sub_diag by auto. split; auto.
      split; [apply Ff; auto|]. cbn [r_occu r_cell r_feat r_enth initial_trace w_feat w_enth]. repeat split; auto.
      rewrite (proj1 (good_at HM Hcur)). auto.
    + intros _ i o Hi Ho. assert (Hil : i < length occus) by (rewrite <- (seq_length (length occus) 0); apply nth_error_Some; congruence).
      rewrite nth_error_app1 in Ho by auto. apply Ff; auto.
  - destruct IH as (Hc & Lp & Lf & Lb & Hw & Hp & HGs & _ & _).
    unfold mc_continue in Es. rewrite (kernel_at Hc) in Es. cbn [option_bind] in Es. injection Es as <-.
    unfold rec_start, walker in Er. cbn [c_cur c_heap c_walker] in Er. rewrite (kernel_at Hc) in Er.
    rewrite nth_error_app2, Nat.sub_diag in Er by auto. cbn [option_bind nth_error] in Er. injection Er as <-.
    unfold inv. cbn [c_cur c_ptr c_feat c_bias c_walker c_heap]. rewrite length_upd, app_length. cbn [length].
    split; auto. split; auto. split; auto. split; auto. split; [lia|]. split.
    { intros i p Hi. destruct (Hp _ _ Hi). split; [lia|auto]. }
    split; [apply Forall_app; split; auto|]. split; [|discriminate].
    exists occu. unfold walker. cbn [c_heap c_walker]. rewrite nth_error_app2, Nat.sub_diag by auto. split; auto.
    rewrite nth_error_upd_eq by (rewrite Lf; auto). split; auto. cbn [r_occu r_cell r_feat r_enth initial_trace w_feat w_enth]. repeat split; auto.
    rewrite (proj1 (good_at HM Hc)). auto.
  - destruct (inv_step HM IH Hp) as (s1 & tr1 & E1 & I & _). rewrite E1 in Es. injection Es as <- <-. auto.
Qed.

(** ** C14 *)
(** The recorded occupancy, cell, features and enthalpy are always those of the walker in the
    current cell, and no step raises. *)
Theorem C14_current_cell_partial M params Good b s r : good_cells M params Good -> mc_run M Good b s r ->
  exists w, walker s = Some w /\ r_occu r = w /\ r_cell r = c_cur s /\
    r_feat r = k_feat (cell_kernel M (c_cur s)) w /\
    nth_error (c_feat s) (c_cur s) = Some (k_feat (cell_kernel M (c_cur s)) w) /\
    r_enth r = qdot params (k_feat (cell_kernel M (c_cur s)) w) /\
    (forall i, possible M s i -> mc_step M s i <> None).
Proof.
  intros HM H. pose proof (inv_run HM H) as I. destruct I as (Hc & _ & _ & _ & _ & _ & _ & (w & Ew & Ef & R1 & R2 & R3 & R4) & _).
  exists w. repeat split; auto. intros i Hi. destruct (inv_step HM (inv_run HM H) Hi) as (s1 & tr1 & E1 & _). congruence.
Qed.
(** A step moves to another cell only when a hop is due and accepted; a rejected step changes
    neither occupancy nor cell; an accepted one reports the features of the new occupancy in its
    cell minus those of the old occupancy in its own. *)
Theorem C14_step_partial M params Good b s r i s' tr : good_cells M params Good -> mc_run M Good b s r ->
  possible M s i -> mc_step M s i = Some (s', tr) ->
  exists w w', walker s = Some w /\ walker s' = Some w' /\ s_occu tr = w' /\
     (s_accepted tr = false -> w' = w /\ c_cur s' = c_cur s) /\
     (s_accepted tr = true -> c_cur s' = (if hop_due s then i_target i else c_cur s) /\
        (exists o, (if hop_due s then stored s (i_target i) else Some w) = Some o /\ w' = apply_step o (i_step i)) /\
        d_feat (s_delta tr) = qvsub (k_feat (cell_kernel M (c_cur s')) w') (k_feat (cell_kernel M (c_cur s)) w)).
Proof.
  intros HM H Hp E. destruct (inv_step HM (inv_run HM H) Hp) as (s1 & tr1 & E1 & _ & Hs).
  rewrite E1 in E. injection E as <- <-. exact Hs.
Qed.
(** While a cell still holds the array it was given, its cached features are those of its stored
    occupancy (within one run). *)
Theorem C14_own_array_partial M params Good s r i o : good_cells M params Good -> mc_run M Good true s r ->
  nth_error (c_ptr s) i = Some i -> stored s i = Some o ->
  nth_error (c_feat s) i = Some (k_feat (cell_kernel M i) o).
Proof.
  intros HM H Hp Ho. destruct (inv_run HM H) as (_ & _ & _ & _ & _ & _ & _ & _ & Hs).
  unfold stored in Ho. rewrite Hp in Ho. apply Hs; auto.
Qed.

(** *** A concrete pair of cells *)
(** Two sites with two species; cell [c] has the feature [x0 + c * x1]. *)
Definition ex_feat (c : nat) (o : list nat) : list Qc := [Qcplus (Qc_of_nat (nth 0 o 0)) (Qcmult (Qc_of_nat c) (Qc_of_nat (nth 1 o 0)))].
Definition ex_cell (c : nat) : mckernel :=
  mkKernel [1%Qc] (ex_feat c) (fun o st => qvsub (ex_feat c (apply_step o st)) (ex_feat c o)) None
    (fun o => uniform [[(0, 0)]; [(0, 1)]; [(1, 0)]; [(1, 1)]]) (fun _ _ => Some 0%R).
Definition ex_M : mcells := mkCells [ex_cell 0; ex_cell 1] (fun _ => random_rule) random_rule.
Definition ex_good (o : list nat) : Prop := length o = 2.
Lemma ex_good_cells : good_cells ex_M [1%Qc] ex_good.
Proof.
  intros i K H. assert (E : exists c, K = ex_cell c).
  { destruct i as [|[|[|i]]]; simpl in H; try discriminate; injection H as <-; eauto. }
  destruct E as (c & ->). split; auto. split; auto. intros o st Ho Hst. split; [red; rewrite apply_step_length; auto|].
  split; [|simpl; eauto]. split; auto. split; [|discriminate]. unfold ex_cell. cbn [k_feat k_dfeat].
  rewrite qvadd_qvsub; auto.
Qed.
Definition ex_start : option mc := mc_start ex_M 0 1 2 [None; None] [[0; 0]; [0; 0]].
Definition ex_in1 : mc_input := mkIn 0 [(0, 0)] (1 / 2)%R 2.
Definition ex_in2 : mc_input := mkIn 1 [(0, 1)] (1 / 2)%R 2.
Lemma accept_0 u : accept_test 0 u = Some true.
Proof. unfold accept_test. destruct (Rle_dec 0 0); auto. lra. Qed.
(** After one step in the first cell and an accepted hop, the occupancy stored for the first
    cell is the one of the second, and its cached features are not those of it. *)
Lemma ex_run : exists s r, mc_run ex_M ex_good true s r /\ stored s 0 = Some [1; 0] /\ nth_error (c_feat s) 0 = Some [0%Qc] /\ c_cur s = 1.
Proof.
  unfold ex_start, ex_M.
  destruct (mc_start ex_M 0 1 2 [None; None] [[0; 0]; [0; 0]]) as [s0|] eqn:E0; [|discriminate].
  destruct (rec_start ex_M s0) as [r0|] eqn:R0; [|cbn in E0; injection E0 as <-; discriminate].
  assert (H0 : mc_run ex_M ex_good true s0 r0).
  { refine (mc_run_start _ _ E0 R0); [repeat constructor|auto]. }
  cbn in E0. injection E0 as <-.
  match type of H0 with mc_run _ _ _ ?s _ => destruct (mc_step ex_M s ex_in1) as [[s1 t1]|] eqn:E1 end.
  2:{ unfold mc_step, mc_inside, single_step in E1. cbn in E1. unfold random_rule in E1. cbn in E1. rewrite accept_0 in E1. discriminate. }
  assert (H1 : mc_run ex_M ex_good true s1 (rec_step r0 s1 t1)).
  { eapply mc_run_step; [exact H0| |exact E1]. split; [cbn; lra|]. split; [cbn; lia|]. exists [0; 0]. split; [reflexivity|].
    apply outcome_uniform. simpl. auto. }
  unfold mc_step, mc_inside, single_step in E1. cbn in E1. unfold random_rule in E1. cbn in E1. rewrite accept_0 in E1.
  cbn in E1. injection E1 as <- Et1.
  match type of H1 with mc_run _ _ _ ?s _ => destruct (mc_step ex_M s ex_in2) as [[s2 t2]|] eqn:E2 end.
  2:{ unfold mc_step, mc_hop in E2. cbn in E2. unfold random_rule in E2. cbn in E2. rewrite accept_0 in E2. discriminate. }
  exists s2. eexists. split.
  { eapply mc_run_step; [exact H1| |exact E2]. split; [cbn; lra|]. split; [cbn; lia|]. exists [0; 0]. split; [reflexivity|].
    apply outcome_uniform. simpl. auto. }
  unfold mc_step, mc_hop in E2. cbn in E2. unfold random_rule in E2. cbn in E2. rewrite accept_0 in E2.
  cbn in E2. injection E2 as <- Et2. cbn. repeat split; auto.
Qed.
Theorem C14_stored_features_refuted : ~ (forall M params Good s r i o, good_cells M params Good -> mc_run M Good true s r ->
  i < length (m_kernels M) -> stored s i = Some o -> nth_error (c_feat s) i = Some (k_feat (cell_kernel M i) o)).
Proof.
  intros H. destruct ex_run as (s & r & Hr & Hs & Hf & _).
  specialize (H _ _ _ _ _ 0 _ ex_good_cells Hr ltac:(cbn; lia) Hs). rewrite Hf in H.
  injection H as H. cbn in H. discriminate.
Qed.

(** ** C68: recorded bias *)
Inductive quiet_run (M : mcells) : mc -> rec -> Prop :=
| quiet_start s r : rec_start M s = Some r -> quiet_run M s r
| quiet_step s r i s' tr : quiet_run M s r -> mc_step M s i = Some (s', tr) ->
    (forall w K, walker s = Some w -> nth_error (m_kernels M) (c_cur s) = Some K -> exact_changes K w (i_step i)) ->
    hop_due s = false \/ s_accepted tr = false -> c_walker s < length (c_heap s) ->
    quiet_run M s' (rec_step r s' tr).
(** As long as no hop is accepted the recorded bias is the one of the walker's occupancy. *)
Theorem C68_between_hops_partial M s r : quiet_run M s r ->
  exists K w, nth_error (m_kernels M) (c_cur s) = Some K /\ walker s = Some w /\
    r_bias r = match k_bias K with Some b => Some (b_value b w) | None => None end.
Proof.
  induction 1 as [s r E | s r i s' tr H (K & w & EK & Ew & Eb) Es Hx Hq Hl].
  - unfold rec_start in E. destruct (nth_error (m_kernels M) (c_cur s)) as [K|]; [|discriminate].
    destruct (walker s) as [w|]; [|discriminate]. cbn [option_bind] in E. injection E as <-. exists K, w. repeat split; auto.
  - specialize (Hx _ _ Ew EK). destruct Hx as (_ & _ & Hx). unfold mc_step in Es. destruct (hop_due s).
    + destruct Hq as [|Hq]; [discriminate|]. unfold mc_hop in Es.
      destruct (nth_error (m_kernels M) (i_target i)) as [Kt|]; [|discriminate]. cbn [option_bind] in Es.
      destruct (nth_error (c_ptr s) (i_target i)) as [p|]; [|discriminate]. cbn [option_bind] in Es.
      destruct (nth_error (c_heap s) p) as [o|]; [|discriminate]. cbn [option_bind] in Es.
      destruct (nth_error (c_feat s) (c_cur s)) as [f|]; [|discriminate]. cbn [option_bind] in Es.
      destruct (nth_error (c_bias s) (i_target i)) as [bt|]; [|discriminate]. cbn [option_bind] in Es.
      destruct (k_logp Kt o (i_step i)) as [lf|]; [|discriminate]. cbn [option_bind] in Es.
      destruct (accept_test _ _) as [acc|]; [|discriminate]. cbn [option_bind] in Es.
      destruct acc; [injection Es as <- <-; discriminate|].
      rewrite Ew in Es. cbn [option_bind] in Es. injection Es as <- <-. exists K, w. repeat split; auto.
    + unfold mc_inside in Es. rewrite EK, Ew in Es. cbn [option_bind] in Es.
      unfold single_step in Es. destruct (k_logp K w (i_step i)) as [lf|]; [|discriminate]. cbn [option_bind] in Es.
      destruct (accept_test _ _) as [acc|]; [|discriminate]. cbn [option_bind] in Es.
      destruct (nth_error (c_feat s) (c_cur s)) as [f|]; [|discriminate]. cbn [option_bind s_occu s_accepted s_delta] in Es.
      injection Es as <- <-. exists K, (if acc then apply_step w (i_step i) else w). cbn [c_cur].
      split; auto. split; [unfold walker; cbn [c_heap c_walker]; apply nth_error_upd_eq; auto|].
      unfold rec_step. cbn [s_accepted s_delta]. destruct acc; cbn [r_bias]; auto.
      rewrite Eb. unfold compute_step_trace. cbn [d_bias]. destruct (k_bias K) as [b|]; auto.
      rewrite (Hx b) by auto. f_equal. lra.
Qed.
(** An accepted hop adds the bias change of an earlier step of the target cell. *)
Definition bx_bias : bias := mkBias (fun o => INR (nth 0 o 0)) (fun o st => Rminus (INR (nth 0 (apply_step o st) 0)) (INR (nth 0 o 0))).
Definition bx_cell : mckernel :=
  mkKernel [1%Qc] (ex_feat 0) (fun o st => qvsub (ex_feat 0 (apply_step o st)) (ex_feat 0 o)) (Some bx_bias)
    (fun o => uniform [[(0, 0)]; [(0, 1)]; [(1, 0)]; [(1, 1)]]) (fun _ _ => Some 0%R).
Definition bx_M : mcells := mkCells [bx_cell; bx_cell] (fun _ => random_rule) random_rule.
Lemma bx_good_cells : good_cells bx_M [1%Qc] ex_good.
Proof.
  intros i K H. assert (E : K = bx_cell).
  { destruct i as [|[|[|i]]]; simpl in H; try discriminate; injection H as <-; eauto. }
  subst K. split; auto. split; auto. intros o st Ho Hst. split; [red; rewrite apply_step_length; auto|].
  split; [|simpl; eauto]. split; auto. split; [|intros b Hb; injection Hb as <-; reflexivity]. unfold bx_cell. cbn [k_feat k_dfeat].
  rewrite qvadd_qvsub; auto.
Qed.
(** The traces of both cells start with the change of a step from the constructor that keeps the occupancy. *)
Lemma bx_run : exists s r w, mc_run bx_M ex_good true s r /\ walker s = Some w /\ c_cur s = 1 /\ r_bias r = Some 0%R /\ nth 0 w 0 = 1.
Proof.
  destruct (mc_start bx_M 0 1 1 [Some 0%R; Some 0%R] [[0; 0]; [0; 0]]) as [s0|] eqn:E0; [|discriminate].
  destruct (rec_start bx_M s0) as [r0|] eqn:R0; [|cbn in E0; injection E0 as <-; discriminate].
  assert (H0 : mc_run bx_M ex_good true s0 r0).
  { refine (mc_run_start _ _ E0 R0); [repeat constructor|auto]. }
  cbn in E0. injection E0 as <-. cbn in R0. injection R0 as <-.
  match type of H0 with mc_run _ _ _ ?s _ => destruct (mc_step bx_M s ex_in2) as [[s2 t2]|] eqn:E2 end.
  2:{ unfold mc_step, mc_hop in E2. cbn in E2. unfold random_rule in E2. cbn in E2. rewrite Rplus_0_l, accept_0 in E2. discriminate. }
  exists s2. do 2 eexists. split.
  { eapply mc_run_step; [exact H0| |exact E2]. split; [cbn; lra|]. split; [cbn; lia|]. exists [0; 0]. split; [reflexivity|].
    apply outcome_uniform. simpl. auto. }
  unfold mc_step, mc_hop in E2. cbn in E2. unfold random_rule in E2. cbn in E2. rewrite Rplus_0_l, accept_0 in E2.
  cbn in E2. injection E2 as <- <-. cbn. repeat split. f_equal. lra.
Qed.
Theorem C68_hop_refuted : ~ (forall M params Good s r w K b, good_cells M params Good -> mc_run M Good true s r -> walker s = Some w ->
  nth_error (m_kernels M) (c_cur s) = Some K -> k_bias K = Some b -> r_bias r = Some (b_value b w)).
Proof.
  intros H. destruct bx_run as (s & r & w & Hr & Hw & Hc & Hb & H1).
  assert (E : nth_error (m_kernels bx_M) (c_cur s) = Some bx_cell) by (rewrite Hc; reflexivity).
  specialize (H _ _ _ _ _ _ _ bx_bias bx_good_cells Hr Hw E eq_refl). rewrite Hb in H. injection H as H.
  cbn in H. rewrite H1 in H. cbn in H. lra.
Qed.

(** ** C69: probabilities of cells and hop periods *)
Lemma prob_choice_nth l p i x q : length l = length p -> NoDup l -> (forall y, In y p -> (0 <= y)%Qc) -> qsum p = 1%Qc ->
  nth_error l i = Some x -> nth_error p i = Some q -> prob (choice_p l p) (Nat.eqb x) = q.
Proof.
  intros Hl Hn Hp Hs Hx Hq.
  assert (Hne : l <> []) by (intros ->; destruct i; discriminate).
  assert (E : prob (choice_p l p) (Nat.eqb x) = prob (pbind (choice_p l p) (@pret nat)) (Nat.eqb x)).
  { rewrite prob_bind. unfold prob. apply qsum_map_ext. intros [w [y|]] _; cbn [fst snd]; auto.
    change (qsum (map _ (pret y))) with (prob (pret y) (Nat.eqb x)). rewrite prob_ret. destruct (Nat.eqb x y); ring. }
  rewrite E, prob_bind_choice_p by auto. clear E Hs Hne Hp.
  revert p i Hl Hx Hq. induction Hn as [|a l Ha Hn IH]; intros [|b p] [|i] Hl Hx Hq; try discriminate.
  - simpl in Hx, Hq. injection Hx as ->. injection Hq as ->. simpl. rewrite prob_ret, Nat.eqb_refl.
    rewrite qsum_map_0; [ring|]. intros [y z] Hin. simpl. rewrite prob_ret.
    destruct (Nat.eqb_spec x y) as [->|]; [|ring]. apply in_combine_l in Hin. contradiction.
  - simpl in Hx, Hq, Hl. simpl. rewrite prob_ret.
    destruct (Nat.eqb_spec x a) as [->|]; [apply nth_error_In in Hx; contradiction|].
    rewrite (IH p i) by (auto; lia). ring.
Qed.
Lemma even_probs_ok n : n <> 0 -> length (even_probs n) = n /\ (forall y, In y (even_probs n) -> (0 <= y)%Qc) /\ qsum (even_probs n) = 1%Qc /\
  forall i, i < n -> nth_error (even_probs n) i = Some (1 / Qc_of_nat n)%Qc.
Proof.
  intros H. unfold even_probs. rewrite map_length, seq_length. split; auto. split; [|split].
  - intros y Hy. apply in_map_iff in Hy as (_ & <- & _).
    apply Qcdiv_ge_iff; [apply Qc_of_nat_pos; lia|]. qclra.
  - rewrite qsum_const, seq_length. field. apply Qc_of_nat_nz; auto.
  - intros i Hi. rewrite nth_error_map, nth_error_seq. destruct (Nat.ltb_spec i n); [auto|lia].
Qed.
(** Without [kernel_probabilities] the kernel can be built and hops target every cell equally often. *)
Theorem C69_default_cells_partial n periods : n <> 0 ->
  exists a, mc_init n None periods None = Some a /\ forall i, i < n -> prob (choose_cell n a) (Nat.eqb i) = (1 / Qc_of_nat n)%Qc.
Proof.
  intros H. eexists. split; [reflexivity|]. intros i Hi. unfold choose_cell. cbn [app get_attr find fst String.eqb Ascii.eqb Bool.eqb option_bind snd].
  destruct (even_probs_ok H) as (L & Hp & Hs & Hn).
  apply (@prob_choice_nth _ _ i); auto; [rewrite seq_length; auto|apply seq_NoDup|].
  rewrite nth_error_seq. destruct (Nat.ltb_spec i n); [auto|lia].
Qed.
(** Hop periods are drawn with the given probabilities. *)
Theorem C69_hop_periods_partial n periods p : n <> 0 -> NoDup periods -> length p = length periods ->
  (forall y, In y p -> (0 <= y)%Qc) -> qsum p = 1%Qc ->
  exists a, mc_init n None periods (Some p) = Some a /\
    forall i x q, nth_error periods i = Some x -> nth_error p i = Some q -> prob (choose_period periods a) (Nat.eqb x) = q.
Proof.
  intros H Hn Hl Hp Hs. unfold mc_init, check_probs. rewrite Hl, Nat.eqb_refl.
  destruct (Qceqb_spec (qsum p) 1); [|congruence]. eexists. split; [reflexivity|].
  intros i x q Hx Hq. apply (@prob_choice_nth periods p i); auto.
Qed.
Lemma half_half : qsum [Qc_frac 1 2; Qc_frac 1 2] = 1%Qc.
Proof. apply Qc_is_canon; reflexivity. Qed.
Example C69_hop_periods_case : exists a, mc_init 2 None [5; 7] (Some [Qc_frac 1 2; Qc_frac 1 2]) = Some a.
Proof.
  destruct (@C69_hop_periods_partial 2 [5; 7] [Qc_frac 1 2; Qc_frac 1 2]) as (a & E & _); eauto.
  - repeat constructor; simpl; intuition discriminate.
  - intros y [<-|[<-|[]]]; (unfold Qcle; simpl; unfold Qle; simpl; lia).
  - apply half_half.
Qed.
(** With [kernel_probabilities] it can never be built, whatever they are. *)
Theorem C69_cell_probabilities_refuted :
  (exists p : list Qc, length p = 2 /\ qsum p = 1%Qc /\ Forall (fun y => (0 <= y)%Qc) p) /\
  forall n p periods hp, mc_init n (Some p) periods hp = None.
Proof.
  split.
  - exists [Qc_frac 1 2; Qc_frac 1 2]. split; auto. split; [apply half_half|]. repeat constructor; (unfold Qcle; simpl; unfold Qle; simpl; lia).
  - intros n p periods hp. unfold mc_init. destruct (check_probs p n); auto. cbn [option_bind].
    destruct hp as [h|]; [destruct (check_probs h (length periods))|]; auto.
Qed.

Print Assumptions C14_current_cell_partial.
Print Assumptions C14_step_partial.
Print Assumptions C14_own_array_partial.
Print Assumptions C14_stored_features_refuted.
Print Assumptions C68_between_hops_partial.
Print Assumptions C68_hop_refuted.
Print Assumptions C69_default_cells_partial.
Print Assumptions C69_hop_periods_partial.
Print Assumptions C69_cell_probabilities_refuted.
