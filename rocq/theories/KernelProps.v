(** Properties C11, C12 and C15 (vocabulary in KernelSpec.v and UsherSpec.v). *)
From Verif Require Import KernelProofs TableFlipLogProofs TableFlipProps OccuUtilsProps UsherProps.
Set Implicit Arguments.
Unset Strict Implicit.
Open Scope nat_scope.

(** ** C11 *)

(** A uniform draw [u] in (0,1) accepts exactly if [u < min(1, exp(exponent))]; so the
    acceptance probability is the length of that interval. *)
Theorem C11_acceptance :
  forall e u, (0 < u < 1)%R ->
    exists b, accept_test e u = Some b /\ (b = true <-> (u < Rmin 1 (exp e))%R).
Proof. exact accept_test_spec. Qed.
Print Assumptions C11_acceptance.

(** Downhill moves (non-negative exponents) are accepted whatever is drawn. *)
Theorem C11_downhill :
  forall beta denth lf db u,
    (0 <= - beta * Qc2R denth + lf + match db with Some b => b | None => 0 end)%R ->
    accept_test (metropolis_rule beta denth lf db) u = Some true.
Proof.
  intros beta denth lf db u H. unfold accept_test, metropolis_rule, add_bias.
  destruct db as [b|]; destruct (Rle_dec _ _) as [|N]; auto; exfalso; lra.
Qed.
Print Assumptions C11_downhill.

(** Detailed balance with respect to [exp(-beta H + bias)], for every kernel with exact
    changes whose a-priori factor is the log ratio of proposal probabilities. *)
Definition stationary_weight (K : mckernel) (beta : R) (o : list nat) : R :=
  exp (- beta * Qc2R (enthalpy K o) + bias_of K o)%R.
Theorem C11_detailed_balance :
  forall (K : mckernel) (beta : R) (S : list nat -> Prop),
    (forall o, S o -> pos_prog (k_propose K o)) ->
    (forall o st, S o -> outcome (k_propose K o) st ->
       S (apply_step o st) /\ exact_changes K o st /\
       exists r, k_logp K o st = Some r /\
         (exp r * Qc2R (transition (k_propose K) o (apply_step o st)) =
          Qc2R (transition (k_propose K) (apply_step o st) o))%R) ->
    forall o o', S o -> S o' ->
      (stationary_weight K beta o * move_prob K (metropolis_rule beta) o o' =
       stationary_weight K beta o' * move_prob K (metropolis_rule beta) o' o)%R.
Proof.
  intros K beta S Hp H o o'. apply balance with (S := S); auto; intros a st Ha Hst; apply H; auto.
Qed.
Print Assumptions C11_detailed_balance.

(** The same for [UniformlyRandom], with respect to [exp(bias)]. *)
Theorem C11_random_balance :
  forall (K : mckernel) (S : list nat -> Prop),
    (forall o, S o -> pos_prog (k_propose K o)) ->
    (forall o st, S o -> outcome (k_propose K o) st ->
       S (apply_step o st) /\ exact_changes K o st /\
       exists r, k_logp K o st = Some r /\
         (exp r * Qc2R (transition (k_propose K) o (apply_step o st)) =
          Qc2R (transition (k_propose K) (apply_step o st) o))%R) ->
    forall o o', S o -> S o' ->
      (exp (bias_of K o) * move_prob K random_rule o o' =
       exp (bias_of K o') * move_prob K random_rule o' o)%R.
Proof.
  intros K S Hp H o o' Ho Ho'.
  pose proof (@C11_detailed_balance K 0%R S Hp H o o' Ho Ho') as B.
  unfold stationary_weight in B. rewrite !Ropp_0, !Rmult_0_l, !Rplus_0_l in B.
  assert (E : forall a b, move_prob K random_rule a b = move_prob K (metropolis_rule 0) a b).
  { intros a b. unfold move_prob. apply rsum_map_ext. intros [w [st|]] _; simpl; auto.
    destruct (occu_eqb _ _); auto. destruct (k_logp K a st); auto.
    unfold metropolis_rule, random_rule. rewrite Ropp_0, Rmult_0_l, Rplus_0_l. auto. }
  rewrite !E. auto.
Qed.
Print Assumptions C11_random_balance.

(** Instances: flips, swaps and table flips on any layout, with any exact ensemble.  The
    a-priori factor of [Flip] and [Swap] is [0] (mcusher.py:108-124). *)
Lemma pos_flip u o : pos_prog (flip_propose u o).
Proof.
  apply pos_bind; [apply pos_choice_p|]. intros sl _. apply pos_bind; [apply pos_uniform|]. intros s _.
  apply pos_bind; [apply pos_of_opt|]. intros c _. apply pos_bind; [apply pos_uniform|]. intros; apply pos_ret.
Qed.

Theorem C11_flip_balance :
  forall sls N u params feat dfeat b beta o o',
    let K := mkKernel params feat dfeat b (flip_propose u) (fun _ _ => Some 0%R) in
    layout sls N -> mk_usher sls None = Some u ->
    (forall o st, valid_occu sls N o -> outcome (flip_propose u o) st -> exact_changes K o st) ->
    valid_occu sls N o -> valid_occu sls N o' ->
    (stationary_weight K beta o * move_prob K (metropolis_rule beta) o o' =
     stationary_weight K beta o' * move_prob K (metropolis_rule beta) o' o)%R.
Proof.
  intros sls N u params feat dfeat b beta o o' K L M X V V'.
  apply (@C11_detailed_balance K beta (valid_occu sls N)); auto; [intros; apply pos_flip|].
  intros a st Ha Hst.
  destruct (@C05_flip_legal sls N None u a st L M ltac:(discriminate) Ha Hst) as (s & c & E & _ & Hv).
  split; auto. split; auto. exists 0%R. split; auto. rewrite exp_0, Rmult_1_l. f_equal.
  apply (@C05_flip_symmetric sls N None u); auto. discriminate.
Qed.
Print Assumptions C11_flip_balance.

Theorem C11_swap_balance :
  forall sls N u params feat dfeat b beta o o',
    let K := mkKernel params feat dfeat b (swap_propose u) (fun _ _ => Some 0%R) in
    layout sls N -> mk_usher sls None = Some u ->
    (forall o st, valid_occu sls N o -> outcome (swap_propose u o) st -> exact_changes K o st) ->
    valid_occu sls N o -> valid_occu sls N o' ->
    (stationary_weight K beta o * move_prob K (metropolis_rule beta) o o' =
     stationary_weight K beta o' * move_prob K (metropolis_rule beta) o' o)%R.
Proof.
  intros sls N u params feat dfeat b beta o o' K L M X V V'.
  apply (@C11_detailed_balance K beta (valid_occu sls N)); auto; [intros; apply pos_swap|].
  intros a st Ha Hst.
  destruct (@species_lists sls N true a L Ha) as (t & _ & _ & Ht & _).
  destruct (@C06_swap_conserves sls N None u a st true t L M ltac:(discriminate) Ha Hst Ht) as (Hv & _).
  split; auto. split; auto. exists 0%R. split; auto. rewrite exp_0, Rmult_1_l. f_equal.
  apply (@C06_swap_symmetric sls N None u); auto. discriminate.
Qed.
Print Assumptions C11_swap_balance.

Theorem C11_tableflip_balance :
  forall N tf params feat dfeat b beta o o',
    let K := mkKernel params feat dfeat b (table_propose tf) (log_priori tf) in
    tf_built N tf ->
    (forall o st, valid_occu (tf_sls tf) N o -> outcome (table_propose tf o) st -> exact_changes K o st) ->
    valid_occu (tf_sls tf) N o -> valid_occu (tf_sls tf) N o' ->
    (stationary_weight K beta o * move_prob K (metropolis_rule beta) o o' =
     stationary_weight K beta o' * move_prob K (metropolis_rule beta) o' o)%R.
Proof.
  intros N tf params feat dfeat b beta o o' K B X V V'.
  apply (@C11_detailed_balance K beta (valid_occu (tf_sls tf) N)); auto; [intros; apply pos_table_propose|].
  intros a st Ha Hst. pose proof (built_ok B) as Ok.
  split; [|split; [auto|apply (log_priori_exact Ok Ha Hst)]].
  destruct (has_lists_ex Ok true Ha) as (L & HL). destruct (has_lists_ex Ok false Ha) as (Lf & HLf).
  destruct (table_outcome Ok Ha HL HLf Hst) as [Hsw|(Hc & Hq & i & w & x & Hi & Hw & Hx & Hne & Hfl)].
  - apply (swap_lists Ok Ha HL Hsw).
  - apply (flip_along_outcome Ok Ha HL (feasible_good Ok HL Hi Hw) Hfl).
Qed.
Print Assumptions C11_tableflip_balance.

(** Non-vacuity: counting energy on the example layout, exact for every step. *)
Definition ex_feat (o : list nat) : list Qc := [Qc_of_nat (countb (fun c => c =? 0) o); 1%Qc].
Definition ex_dfeat (o : list nat) (st : step) : list Qc :=
  [(Qc_of_nat (countb (fun c => c =? 0) (apply_step o st)) - Qc_of_nat (countb (fun c => c =? 0) o))%Qc; 0%Qc].
Definition ex_bias : bias :=
  mkBias (fun o => INR (list_sum o)) (fun o st => (INR (list_sum (apply_step o st)) - INR (list_sum o))%R).
Definition ex_kernel : mckernel :=
  mkKernel [Qc_frac 3 2; 1%Qc] ex_feat ex_dfeat (Some ex_bias) (flip_propose ex_usher) (fun _ _ => Some 0%R).
Example ex_kernel_exact : forall o st, exact_changes ex_kernel o st.
Proof.
  intros o st. split; [reflexivity|]. split.
  - unfold ex_kernel, k_feat, k_dfeat, ex_feat, ex_dfeat, qvadd, qmap2. simpl combine. simpl map.
    cbn [fst snd]. repeat (f_equal; try ring).
  - intros b E. injection E as <-. reflexivity.
Qed.
Example ex_kernel_balance : forall beta o o',
  valid_occu ex_layout 5 o -> valid_occu ex_layout 5 o' ->
  (stationary_weight ex_kernel beta o * move_prob ex_kernel (metropolis_rule beta) o o' =
   stationary_weight ex_kernel beta o' * move_prob ex_kernel (metropolis_rule beta) o' o)%R.
Proof.
  intros beta o o' V V'. apply (@C11_flip_balance ex_layout 5); auto.
  - exact ex_layout_ok.
  - intros; apply ex_kernel_exact.
Qed.

(** ** C12 *)
Theorem C12_step_all_or_nothing :
  forall K rule o st u tr,
    single_step K rule o st u = Some tr ->
    length (s_occu tr) = length o /\
    (s_accepted tr = false -> s_occu tr = o) /\
    (s_accepted tr = true -> forall s, s < length o ->
       nth_error (s_occu tr) s = match last_flip st s with Some c => Some c | None => nth_error o s end) /\
    d_feat (s_delta tr) = k_dfeat K o st /\
    d_enth (s_delta tr) = qdot (k_params K) (k_dfeat K o st) /\
    d_bias (s_delta tr) = match k_bias K with Some b => Some (b_change b o st) | None => None end.
Proof.
  intros K rule o st u tr H. unfold single_step in H.
  destruct (k_logp K o st) as [lf|]; simpl in H; [|discriminate].
  destruct (accept_test _ u) as [acc|]; simpl in H; [|discriminate].
  injection H as <-. simpl. split; [destruct acc; auto; apply apply_step_length|].
  split; [intros ->; auto|]. split; [|auto]. intros -> s Hs. apply apply_step_nth; auto.
Qed.
Print Assumptions C12_step_all_or_nothing.

(** A step is defined whenever the a-priori factor is, for draws in (0,1), and the
    decision is the test of C11 on the recorded changes. *)
Theorem C12_step_defined :
  forall K rule o st u lf, (0 < u < 1)%R -> k_logp K o st = Some lf ->
    exists tr, single_step K rule o st u = Some tr /\
      (s_accepted tr = true <-> (u < Rmin 1 (exp (rule (d_enth (s_delta tr)) lf (d_bias (s_delta tr)))))%R).
Proof.
  intros K rule o st u lf Hu Hl. unfold single_step. rewrite Hl. simpl.
  destruct (accept_test_spec (rule (qdot (k_params K) (k_dfeat K o st)) lf
     match k_bias K with Some b => Some (b_change b o st) | None => None end) Hu) as (b & E & Hb).
  simpl in *. rewrite E. simpl. eexists. split; [reflexivity|]. auto.
Qed.
Print Assumptions C12_step_defined.

Example C12_example :
  exists tr, single_step ex_kernel (metropolis_rule 0) ex_occu [(0, 0); (1, 0); (0, 1)] (/ 2) = Some tr.
Proof.
  destruct (@C12_step_defined ex_kernel (metropolis_rule 0) ex_occu [(0, 0); (1, 0); (0, 1)] (/ 2) 0%R)
    as (tr & H & _); [lra|reflexivity|eauto].
Qed.

(** ** C15 *)

(** Histories of assignments that did not raise. *)
Inductive thermal_history : thermal -> Qc -> Qc -> Prop :=
| th_start : forall kB T th, thermal_init kB T = Some th -> thermal_history th kB T
| th_temp : forall th kB T T' th', thermal_history th kB T ->
    set_temperature th T' = (th', true) -> thermal_history th' kB T'
| th_kb : forall th kB T kB' th', thermal_history th kB T ->
    set_kB th kB' = (th', true) -> thermal_history th' kB' T.

Theorem C15_beta_consistent :
  forall th kB T, thermal_history th kB T ->
    th_kB th = kB /\ th_T th = T /\ (th_beta th * (kB * T))%Qc = 1%Qc.
Proof.
  assert (I : forall kB T b, inv_kT kB T = Some b -> (b * (kB * T))%Qc = 1%Qc).
  { unfold inv_kT. intros kB T b. destruct (Qceqb_spec (kB * T) 0) as [|N]; [discriminate|].
    intros H; injection H as <-. field. split; intros E; apply N; rewrite E; ring. }
  induction 1 as [kB T th H|th kB T T' th' _ IH H|th kB T kB' th' _ IH H].
  - unfold thermal_init in H. destruct (inv_kT kB T) as [b|] eqn:E; simpl in H; [|discriminate].
    injection H as <-. simpl. auto.
  - destruct IH as (H1 & H2 & _). unfold set_temperature in H.
    destruct (inv_kT (th_kB th) T') as [b|] eqn:E; [|discriminate]. injection H as <-. simpl.
    rewrite H1 in E. auto.
  - destruct IH as (H1 & H2 & _). unfold set_kB in H.
    destruct (inv_kT kB' (th_T th)) as [b|] eqn:E; [|discriminate]. injection H as <-. simpl.
    rewrite H2 in E. auto.
Qed.
Print Assumptions C15_beta_consistent.

(** Assigning a temperature to a multi-cell kernel reaches every cell. *)
Theorem C15_multicell_temperature :
  forall m T m', set_multicell_temperature m T = (m', true) ->
    length (mt_cells m') = length (mt_cells m) /\
    (th_beta (mt_own m') * (th_kB (mt_own m) * T))%Qc = 1%Qc /\
    forall k th, nth_error (mt_cells m) k = Some th ->
      exists th', nth_error (mt_cells m') k = Some th' /\ th_T th' = T /\ th_kB th' = th_kB th /\
        (th_beta th' * (th_kB th * T))%Qc = 1%Qc.
Proof.
  assert (I : forall th T th', set_temperature th T = (th', true) ->
     th_T th' = T /\ th_kB th' = th_kB th /\ (th_beta th' * (th_kB th * T))%Qc = 1%Qc).
  { unfold set_temperature, inv_kT. intros th T th'. destruct (Qceqb_spec (th_kB th * T) 0) as [|N]; [discriminate|].
    intros H; injection H as <-. simpl. repeat (split; auto). field. split; intros E; apply N; rewrite E; ring. }
  intros m T m' H. unfold set_multicell_temperature in H.
  destruct (set_temperature (mt_own m) T) as [th [|]] eqn:E0; [|discriminate].
  destruct (set_cell_temps (mt_cells m) T) as [r ok] eqn:E. injection H as <- ->. simpl.
  destruct (I _ _ _ E0) as (_ & _ & H0).
  assert (C : forall l r, set_cell_temps l T = (r, true) -> length r = length l /\
    forall k th, nth_error l k = Some th -> exists th', nth_error r k = Some th' /\ th_T th' = T /\
        th_kB th' = th_kB th /\ (th_beta th' * (th_kB th * T))%Qc = 1%Qc).
  { clear - I. induction l as [|a l IH]; simpl; intros r H.
    - injection H as <-. split; auto. intros [|k]; discriminate.
    - destruct (set_temperature a T) as [a' [|]] eqn:Ea; [|discriminate].
      destruct (set_cell_temps l T) as [r' ok] eqn:El. injection H as <- ->.
      destruct (IH r' eq_refl) as [H1 H2]. split; [simpl; lia|].
      intros [|k] th Hk; simpl in *; auto. injection Hk as <-. exists a'. split; auto. }
  destruct (C _ _ E) as [H1 H2]. auto.
Qed.
Print Assumptions C15_multicell_temperature.

Example C15_example : exists th,
  thermal_history th (Qc_frac 1 2) (Qc_frac 300 1) /\ this (th_beta th) = (1 # 150)%Q.
Proof.
  exists (mkTh (Qc_frac 1 2) (Qc_frac 300 1) (1 / (Qc_frac 1 2 * Qc_frac 300 1))%Qc). split; [|reflexivity].
  apply th_kb with (th := mkTh 1 (Qc_frac 300 1) (1 / (1 * Qc_frac 300 1))%Qc) (kB := 1%Qc).
  - apply th_temp with (th := mkTh 1 (Qc_frac 500 1) (1 / (1 * Qc_frac 500 1))%Qc) (T := Qc_frac 500 1); [|reflexivity].
    apply th_start. reflexivity.
  - reflexivity.
Qed.
