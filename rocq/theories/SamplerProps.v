(** Properties C13 (recorded values), C15 (annealing), C22 and C23 (stored samples). *)
From Verif Require Import SamplerProofs KernelProps Prob ProbProofs OccuUtilsSpec OccuUtilsProps UsherSpec UsherProps.
Set Implicit Arguments.
Unset Strict Implicit.
Open Scope nat_scope.

(** ** C13 *)
Lemma walk_step_consistent w d (S : list nat -> Prop) x z :
  exact_on (wk_kernel w) S -> outcome (k_propose (wk_kernel w) (w_occu x)) (fst (d (w_occu x))) ->
  consistent (wk_kernel w) x -> S (w_occu x) -> walk_step w d x = Some z ->
  consistent (wk_kernel w) z /\ S (w_occu z).
Proof.
  intros He Ho (C1 & C2 & C3) HS. unfold walk_step.
  destruct (d (w_occu x)) as [st u]. simpl in Ho.
  destruct (He _ _ HS Ho) as (HS' & L & F & B). set (K := wk_kernel w) in *.
  unfold single_step. destruct (k_logp K (w_occu x) st) as [lf|]; simpl; [|discriminate].
  match goal with |- context [accept_test ?e ?u] => destruct (accept_test e u) as [acc|] end; simpl; [|discriminate].
  destruct acc; simpl.
  - unfold consistent in *. destruct (k_bias K) as [b|] eqn:Eb; rewrite C3; simpl; intros H; injection H as <-; simpl.
    + repeat split; auto.
      * rewrite F, C1. auto.
      * rewrite C2. unfold enthalpy. rewrite F, qdot_qvadd by auto. auto.
      * rewrite (B b eq_refl). f_equal. lra.
    + repeat split; auto.
      * rewrite F, C1. auto.
      * rewrite C2. unfold enthalpy. rewrite F, qdot_qvadd by auto. auto.
  - intros H; injection H as <-. unfold consistent; simpl. auto.
Qed.

Lemma initial_consistent K o : consistent K (initial_trace K o).
Proof. repeat split. Qed.

Theorem C13_recorded_values : forall ws draws nsteps thin occus (S : nat -> list nat -> Prop) l,
  (forall i w, nth_error ws i = Some w -> exact_on (wk_kernel w) (S i)) ->
  proposes ws S draws ->
  (forall i o, nth_error occus i = Some o -> S i o) ->
  sample_run ws draws nsteps thin occus = Some l ->
  forall x i y, In x l -> nth_error x i = Some y ->
    exists w, nth_error ws i = Some w /\ consistent (wk_kernel w) y /\ S i (w_occu y).
Proof.
  intros ws draws nsteps thin occus S l He Hp Hi H x i y Hx Hy. unfold sample_run in H.
  destruct (thin =? 0); [discriminate|].
  destruct (setup_sample ws occus) as [xs|] eqn:Es; simpl in H; [|discriminate].
  destruct (setup_sample_spec Es) as (L & Lo & N).
  destruct (samples_from_after L (@after_0 ws draws xs) H) as (_ & A).
  apply In_nth_error in Hx as (j & Hj). specialize (A j x Hj).
  pose (P := fun i y => exists w, nth_error ws i = Some w /\ consistent (wk_kernel w) y /\ S i (w_occu y)).
  apply (@after_invariant ws draws xs P L) with (i := i) (y := y) in A; auto.
  - intros k u Hk. destruct (N k u Hk) as (w & o & Hw & Ho & ->). exists w. split; [auto|]. split; [apply initial_consistent|]. simpl. eauto.
  - intros t k w u z Hw (w' & Hw' & C & HS) Hz. assert (w' = w) by congruence; subst w'.
    exists w. split; auto. eapply walk_step_consistent; eauto.
Qed.

(** The loop never raises when the proposals have a defined a-priori factor and the
    uniform draws are positive. *)
Theorem C13_run_defined : forall ws draws nsteps thin occus (S : nat -> list nat -> Prop),
  0 < thin -> length occus = length ws ->
  (forall i w, nth_error ws i = Some w -> exact_on (wk_kernel w) (S i)) ->
  proposes ws S draws ->
  (forall i o, nth_error occus i = Some o -> S i o) ->
  (forall i w o st, nth_error ws i = Some w -> S i o -> outcome (k_propose (wk_kernel w) o) st ->
     k_logp (wk_kernel w) o st <> None) ->
  (forall t i o, (0 < snd (draws t i o) < 1)%R) ->
  exists l, sample_run ws draws nsteps thin occus = Some l.
Proof.
  intros ws draws nsteps thin occus S Ht Hlen He Hp Hi Hlp Hu.
  unfold sample_run. destruct (thin =? 0) eqn:E0; [apply Nat.eqb_eq in E0; lia|].
  unfold setup_sample. rewrite (proj2 (Nat.eqb_eq _ _) Hlen). cbn [option_bind].
  set (xs := map _ _).
  assert (Es : setup_sample ws occus = Some xs).
  { unfold setup_sample. rewrite (proj2 (Nat.eqb_eq _ _) Hlen). reflexivity. }
  destruct (setup_sample_spec Es) as (L & Lo & N).
  pose (P := fun i y => exists w, nth_error ws i = Some w /\ consistent (wk_kernel w) y /\ S i (w_occu y)).
  assert (Inv0 : forall k u, nth_error xs k = Some u -> P k u).
  { intros k u Hk. destruct (N k u Hk) as (w & o & Hw & Ho & ->). exists w. split; [auto|]. split; [apply initial_consistent|]. simpl. eauto. }
  assert (InvS : forall t k w u z, nth_error ws k = Some w -> P k u -> walk_step w (draws t k) u = Some z -> P k z).
  { intros t k w u z Hw (w' & Hw' & C & HS) Hz. assert (w' = w) by congruence; subst w'.
    exists w. split; auto. eapply walk_step_consistent; eauto. }
  assert (Step : forall t ys, after ws draws xs t ys -> exists zs, step_all ws 0 (draws t) ys = Some zs).
  { intros t ys A. apply step_all_total; [pose proof (after_length A); congruence|].
    intros j w y Hw Hy.
    pose proof (@after_invariant ws draws xs P L Inv0 InvS t ys A j y Hy) as (w' & Hw' & (C1 & C2 & C3) & HS).
    assert (w' = w) by congruence; subst w'. simpl. unfold walk_step.
    specialize (Hp t j w (w_occu y) Hw HS). specialize (Hu t j (w_occu y)).
    destruct (draws t j (w_occu y)) as [st u]. simpl in *.
    specialize (Hlp j w _ _ Hw HS Hp). destruct (k_logp (wk_kernel w) (w_occu y) st) as [lf|] eqn:El; [|congruence].
    destruct (@C12_step_defined (wk_kernel w) (wk_rule w) (w_occu y) st u lf Hu El) as (tr & Etr & _).
    rewrite Etr. simpl. destruct (s_accepted tr); [|discriminate].
    assert (Eb : d_bias (s_delta tr) = match k_bias (wk_kernel w) with Some b => Some (b_change b (w_occu y) st) | None => None end).
    { unfold single_step in Etr. rewrite El in Etr. simpl in Etr.
      match type of Etr with context [accept_test ?e ?u] => destruct (accept_test e u) as [acc|] end; simpl in Etr; [|discriminate].
      injection Etr as <-. reflexivity. }
    rewrite Eb, C3. destruct (k_bias (wk_kernel w)); simpl; discriminate. }
  assert (Steps : forall k t ys, after ws draws xs t ys -> exists zs, steps_from ws draws k t ys = Some zs).
  { induction k as [|k IH]; intros t ys A; simpl; eauto.
    destruct (Step t ys A) as (us & E). rewrite E. simpl. apply IH.
    change (after ws draws xs (Datatypes.S t) us). replace (Datatypes.S t) with (t + 1) by lia.
    apply steps_from_after with ys; auto. simpl. rewrite E. reflexivity. }
  assert (All : forall m t ys, after ws draws xs t ys -> exists l, samples_from ws draws thin m t ys = Some l).
  { induction m as [|m IH]; intros t ys A; simpl; eauto.
    destruct (Steps thin t ys A) as (us & E). rewrite E. simpl.
    destruct (IH (t + thin) us) as (l & El); [eapply steps_from_after; eauto|]. rewrite El. simpl. eauto. }
  apply All. constructor.
Qed.

(** ** C22 *)

(** The occupancies a run starts from: those given, or those of the last stored sample. *)
Definition starts_from (xs : list (sample wtrace)) (given : option (list (list nat))) (o : list (list nat)) : Prop :=
  match given with
  | Some g => o = g
  | None => exists x rest, xs = rest ++ [x] /\ o = map w_occu x
  end.
(** [ys] are the states after [thin], [2 thin], ... steps from occupancies [o]. *)
Definition trajectory ws draws thin (o : list (list nat)) (ys : list (sample wtrace)) : Prop :=
  exists x0, setup_sample ws o = Some x0 /\
    forall j y, nth_error ys j = Some y -> after ws draws x0 ((j + 1) * thin) y.

Lemma sample_run_trajectory ws draws nsteps thin o ys : sample_run ws draws nsteps thin o = Some ys ->
  length ys = nsteps / thin /\ trajectory ws draws thin o ys.
Proof.
  unfold sample_run. destruct (thin =? 0); [discriminate|].
  destruct (setup_sample ws o) as [x0|] eqn:Es; simpl; [|discriminate]. intros H.
  destruct (setup_sample_spec Es) as (L & Lo & N).
  destruct (samples_from_after L (@after_0 ws draws x0) H) as (Hl & A).
  split; auto. exists x0. split; auto.
Qed.

Lemma initial_occus_spec c xs s given o : holds c xs s -> initial_occus c given = Some o -> starts_from xs given o.
Proof.
  intros Hc. unfold initial_occus. destruct given as [g|]; simpl.
  - congruence.
  - rewrite (last_holds Hc). destruct (rev xs) as [|x r] eqn:E; [discriminate|].
    intros H; injection H as <-. exists x, (rev r). split; auto.
    rewrite <- (rev_involutive xs), E. reflexivity.
Qed.

Theorem C22_run_stored : forall ws draws c xs s nsteps thin given c',
  holds c xs s -> run ws draws c nsteps thin given = Some c' ->
  exists o ys, starts_from xs given o /\ length ys = nsteps / thin /\ trajectory ws draws thin o ys /\
    holds c' (xs ++ ys) (s + thin * (nsteps / thin)).
Proof.
  intros ws draws c xs s nsteps thin given c' Hc. unfold run.
  destruct (thin =? 0) eqn:E0; [discriminate|].
  destruct (initial_occus c given) as [o|] eqn:Eo; simpl; [|discriminate].
  destruct (sample_run ws draws nsteps thin o) as [ys|] eqn:Ey; simpl; [|discriminate].
  destruct (sample_run_trajectory Ey) as (Hl & Ht). intros H.
  exists o, ys. split; [eapply initial_occus_spec; eauto|]. split; auto. split; auto.
  apply filled_holds in Hc. apply filled_allocate with (j := nsteps / thin) in Hc. simpl in Hc.
  replace (nsteps / thin) with (length ys + 0) in Hc at 2 by lia.
  destruct (save_all_spec thin Hc) as (c2 & E2 & H2).
  rewrite E2 in H. injection H as <-. apply filled_holds. rewrite <- Hl. exact H2.
Qed.

(** The states are uniquely determined by the starting occupancies and the random numbers. *)
Theorem C22_trajectory_unique : forall ws draws thin o ys zs,
  trajectory ws draws thin o ys -> trajectory ws draws thin o zs -> length ys = length zs -> ys = zs.
Proof.
  intros ws draws thin o ys zs (x0 & E0 & H) (x1 & E1 & H') Hl. assert (x1 = x0) by congruence; subst x1.
  destruct (setup_sample_spec E0) as (L & _).
  apply SamplerProofs.list_ext. intros j. destruct (nth_error ys j) as [y|] eqn:Ey.
  - destruct (nth_error zs j) as [z|] eqn:Ez.
    + f_equal. eapply after_fun; eauto.
    + apply nth_error_None in Ez. assert (j < length ys) by (apply nth_error_Some; congruence). lia.
  - apply nth_error_None in Ey. symmetry. apply nth_error_None. lia.
Qed.

(** Histories of runs: a list of (walkers, stream, nsteps, thin_by, initial occupancies). *)
Definition run_args := (list walker * stream * nat * nat * option (list (list nat)))%type.
Fixpoint run_all (c : container wtrace) (l : list run_args) : option (container wtrace) :=
  match l with
  | [] => Some c
  | (ws, d, n, t, g) :: l' => let? c' := run ws d c n t g in run_all c' l'
  end.
(** The samples of the runs of a history, each run following the samples before it. *)
Fixpoint follows (xs : list (sample wtrace)) (l : list run_args) (yss : list (list (sample wtrace))) : Prop :=
  match l, yss with
  | [], [] => True
  | (ws, d, n, t, g) :: l', ys :: yss' =>
      (exists o, starts_from xs g o /\ length ys = n / t /\ trajectory ws d t o ys) /\ follows (xs ++ ys) l' yss'
  | _, _ => False
  end.
Lemma runs_stored : forall l c xs s c', holds c xs s -> run_all c l = Some c' ->
  exists yss, follows xs l yss /\ holds c' (xs ++ concat yss)
    (s + list_sum (map (fun a : run_args => let '(_, _, n, t, _) := a in t * (n / t)) l)).
Proof.
  induction l as [|[[[[ws d] n] t] g] l IH]; intros c xs s c' Hc H; cbn [run_all] in H.
  - injection H as <-. exists []. simpl. rewrite app_nil_r, Nat.add_0_r. auto.
  - destruct (run ws d c n t g) as [c1|] eqn:E; [|discriminate]. cbn [option_bind] in H.
    destruct (C22_run_stored Hc E) as (o & ys & A & B & C & D).
    destruct (IH c1 _ _ c' D H) as (yss & F & G).
    exists (ys :: yss). split; [simpl; eauto|]. cbn [concat map list_sum fold_right].
    rewrite app_assoc. unfold list_sum in G. rewrite Nat.add_assoc. exact G.
Qed.
Theorem C22_history : forall l c', run_all (empty_container wtrace) l = Some c' ->
  exists yss, follows [] l yss /\ holds c' (concat yss)
    (list_sum (map (fun a : run_args => let '(_, _, n, t, _) := a in t * (n / t)) l)).
Proof.
  intros l c' H. destruct (@runs_stored l (empty_container wtrace) [] 0 c') as (yss & F & G); auto.
  - repeat split.
  - exists yss. auto.
Qed.
(** A run without initial occupancies on an empty container raises, and so does thin_by 0. *)
Theorem C22_raises : forall ws draws nsteps thin,
  run ws draws (empty_container wtrace) nsteps thin None = None /\
  forall c given, run ws draws c nsteps 0 given = None.
Proof. intros. unfold run. split; auto. destruct (thin =? 0); auto. Qed.

(** ** C15: annealing *)
Lemma anneal_rest_runs at_temp nsteps thin : forall temps c,
  anneal_rest at_temp temps c nsteps thin =
  run_all c (map (fun p => (at_temp (fst p), snd p, nsteps, thin, None)) temps).
Proof.
  induction temps as [|[T d] temps IH]; intros c; simpl; auto.
  destruct (run (at_temp T) d c nsteps thin None); simpl; auto.
Qed.
Theorem C15_annealing : forall at_temp T d temps nsteps thin given c xs s c',
  holds c xs s -> anneal at_temp ((T, d) :: temps) c nsteps thin given = Some c' ->
  (fst (last temps (T, d)) <= T)%Qc /\
  exists yss, follows xs ((at_temp T, d, nsteps, thin, given) ::
                          map (fun p => (at_temp (fst p), snd p, nsteps, thin, None)) temps) yss /\
    holds c' (xs ++ concat yss) (s + (length temps + 1) * (thin * (nsteps / thin))).
Proof.
  intros at_temp T d temps nsteps thin given c xs s c' Hc H. unfold anneal in H.
  set (lst := last ((T, d) :: temps) (T, d)) in H.
  assert (El : fst lst = fst (last temps (T, d))).
  { unfold lst. simpl. destruct temps as [|p temps]; auto. }
  rewrite El in H. clear lst El.
  destruct (Qcltb_spec T (fst (last temps (T, d)))) as [|Hle]; [discriminate|]. split; [apply Qcnot_lt_le; auto|].
  pose (l := (at_temp T, d, nsteps, thin, given) :: map (fun p => (at_temp (fst p), snd p, nsteps, thin, @None (list (list nat)))) temps).
  assert (Hr : run_all c l = Some c').
  { simpl. destruct (run (at_temp T) d c nsteps thin given); [|discriminate]. simpl in *. rewrite <- anneal_rest_runs. auto. }
  destruct (runs_stored Hc Hr) as (yss & F & G). exists yss. split; auto.
  replace ((length temps + 1) * (thin * (nsteps / thin))) with
    (list_sum (map (fun a : run_args => let '(_, _, n, t, _) := a in t * (n / t)) l)); auto.
  simpl. rewrite map_map. rewrite Nat.add_1_r. simpl. f_equal.
  clear. induction temps as [|p temps IH]; simpl; auto.
Qed.
(** A schedule that ends hotter than it starts is rejected, and so is an empty one. *)
Theorem C15_annealing_rejects : forall at_temp T d temps nsteps thin given c,
  anneal at_temp [] c nsteps thin given = None /\
  ((T < fst (last temps (T, d)))%Qc -> anneal at_temp ((T, d) :: temps) c nsteps thin given = None).
Proof.
  intros. split; auto. intros H. unfold anneal.
  assert (El : fst (last ((T, d) :: temps) (T, d)) = fst (last temps (T, d))) by (destruct temps; auto).
  rewrite El. destruct (Qcltb_spec T (fst (last temps (T, d)))); auto. contradiction.
Qed.

(** ** C23 *)
(** What a streamed run writes: complete chunks only. *)
Theorem C23_stream : forall ws draws file fs s nsteps thin chunk keep given c' b',
  match file with None => fs = [] /\ s = 0 | Some b => file_holds b fs s end ->
  run_stream ws draws (empty_container wtrace) file nsteps thin chunk keep (Some given) = Some (c', b') ->
  exists ys mem, run ws draws (empty_container wtrace) nsteps thin (Some given) = Some mem /\
    holds mem ys (thin * length ys) /\ length ys = nsteps / thin /\
    file_holds b' (fs ++ firstn (length ys / chunk * chunk) ys) (s + thin * (length ys / chunk * chunk)).
Proof.
  intros ws draws file fs s nsteps thin chunk keep given c' b' Hf. unfold run_stream, run.
  destruct (thin =? 0) eqn:E0; [discriminate|]. destruct (chunk =? 0) eqn:E1; [discriminate|].
  apply Nat.eqb_neq in E1. cbn [orb initial_occus option_bind].
  destruct (sample_run ws draws nsteps thin given) as [ys|] eqn:Ey; cbn [option_bind]; [|discriminate].
  destruct (sample_run_trajectory Ey) as (Hl & _).
  assert (Hm : filled (allocate (empty_container wtrace) (nsteps / thin)) [] (length ys + 0) 0).
  { rewrite Nat.add_0_r, Hl. apply (filled_allocate (nsteps / thin) (filled_empty wtrace)). }
  destruct (save_all_spec thin Hm) as (mem & Em & Hmem).
  destruct (get_backend_spec (nsteps / thin) Hf) as (k & Hb & Hk).
  assert (Hc : chunked thin chunk (allocate (empty_container wtrace) chunk) []).
  { unfold chunked; simpl. rewrite repeat_length. repeat split; lia. }
  assert (Hchunk : 0 < chunk) by lia.
  destruct (@stream_all_spec thin chunk Hchunk ys 0 (allocate (empty_container wtrace) chunk)
     (get_backend file (nsteps / thin)) [] fs k s Hc) as (c1 & b1 & out & rest & k' & Es & Eq & Er & Hc1 & Hb1); auto.
  { simpl. rewrite Nat.mod_0_l; lia. }
  { simpl. lia. }
  change (length (c_rows (empty_container wtrace)) =? 0) with true. cbn iota.
  rewrite Es. cbn [option_bind fst snd]. intros H. injection H as _ <-.
  exists ys, mem. split; auto. split; [|split; auto].
  - apply filled_holds in Hmem. simpl in Hmem. exact Hmem.
  - simpl in Eq, Er.
    assert (Hout : length out = length ys / chunk * chunk).
    { pose proof (Nat.div_mod_eq (length ys) chunk). pose proof (f_equal (@length _) Eq) as Hlen. rewrite app_length in Hlen. nia. }
    rewrite <- Hout, Eq. rewrite firstn_app, Nat.sub_diag, firstn_all. simpl. rewrite app_nil_r.
    eapply file_filled_holds; eauto.
Qed.

(** C23 when the chunk size divides the number of samples: file and memory agree. *)
Theorem C23_same_samples_partial : forall ws draws file fs s nsteps thin chunk keep given c' b',
  match file with None => fs = [] /\ s = 0 | Some b => file_holds b fs s end ->
  (nsteps / thin) mod chunk = 0 ->
  run_stream ws draws (empty_container wtrace) file nsteps thin chunk keep (Some given) = Some (c', b') ->
  exists ys mem, run ws draws (empty_container wtrace) nsteps thin (Some given) = Some mem /\
    holds mem ys (thin * length ys) /\ file_holds b' (fs ++ ys) (s + thin * length ys).
Proof.
  intros ws draws file fs s nsteps thin chunk keep given c' b' Hf Hmod H.
  assert (Hch : chunk <> 0).
  { intros ->. unfold run_stream in H. rewrite orb_true_r in H. discriminate. }
  destruct (C23_stream Hf H) as (ys & mem & A & B & C & D).
  exists ys, mem. split; auto. split; auto. rewrite <- C in Hmod.
  assert (E : length ys / chunk * chunk = length ys) by (pose proof (Nat.div_mod_eq (length ys) chunk); lia).
  rewrite E, firstn_all in D. auto.
Qed.
(** Otherwise the remaining samples are in neither place: the run keeps [nsteps//thin]
    samples in memory, but the file gets fewer. *)
Theorem C23_leftover_lost_refuted : forall ws draws nsteps thin chunk keep given c' b',
  (nsteps / thin) mod chunk <> 0 ->
  run_stream ws draws (empty_container wtrace) None nsteps thin chunk keep (Some given) = Some (c', b') ->
  exists mem, run ws draws (empty_container wtrace) nsteps thin (Some given) = Some mem /\
    b_n b' < c_n mem.
Proof.
  intros ws draws nsteps thin chunk keep given c' b' Hmod H.
  destruct (@C23_stream ws draws None [] 0 nsteps thin chunk keep given c' b') as (ys & mem & A & (B1 & B2 & B3) & C & (D1 & D2 & D3)); auto.
  exists mem. split; auto. rewrite B2, D2. simpl. rewrite firstn_length. rewrite <- C in Hmod.
  assert (Hch : chunk <> 0).
  { intros ->. unfold run_stream in H. rewrite orb_true_r in H. discriminate. }
  pose proof (Nat.div_mod_eq (length ys) chunk). lia.
Qed.
(** Streaming into a sampler whose container already holds samples raises at the first sample. *)
Theorem C23_after_memory_run_refuted : forall ws draws c x xs s file nsteps thin chunk keep given,
  holds c (x :: xs) s -> 0 < nsteps / thin ->
  run_stream ws draws c file nsteps thin chunk keep given = None.
Proof.
  intros ws draws c x xs s file nsteps thin chunk keep given (A & B & C) Hm. unfold run_stream.
  destruct (thin =? 0); auto. destruct (chunk =? 0); auto. cbn [orb].
  destruct (initial_occus c given) as [o|]; auto. cbn [option_bind].
  rewrite A. cbn [map length Nat.eqb].
  destruct (sample_run ws draws nsteps thin o) as [ys|] eqn:Ey; auto. cbn [option_bind].
  destruct (sample_run_trajectory Ey) as (Hl & _). destruct ys as [|y ys]; [simpl in Hl; lia|].
  cbn [stream_all]. unfold save_sample at 1. rewrite A, B. simpl length. rewrite map_length, Nat.ltb_irrefl. auto.
Qed.
(** With leftovers a following run without initial occupancies (as annealing does) starts
    from an older state than the last one, or from unwritten memory. *)
Definition ex_w (n : nat) : sample wtrace := [mkW [n] [] 0%Qc None true].
Theorem C23_stale_start_refuted :
  (exists c b, stream_all (allocate (empty_container wtrace) 2) (get_backend None 3) 1 2 0 [ex_w 1; ex_w 2; ex_w 3] = Some (c, b) /\
     initial_occus c None = Some [[2]]) /\
  (exists c b, stream_all (allocate (empty_container wtrace) 2) (get_backend None 1) 1 2 0 [ex_w 1] = Some (c, b) /\
     initial_occus c None = None).
Proof. split; eexists; eexists; split; reflexivity. Qed.

(** ** Examples: a walker on the example kernel, always proposing its first proposal. *)
Definition first_draw (K : mckernel) : stream :=
  fun _ _ o => (match k_propose K o with (_, Some st) :: _ => st | _ => [] end, (/ 2)%R).
Definition ex_walkers := [mkWalker ex_kernel (metropolis_rule 1); mkWalker ex_kernel (metropolis_rule 2)].
Lemma first_draw_proposes : proposes ex_walkers (fun _ => valid_occu ex_layout 5) (first_draw ex_kernel).
Proof.
  intros t i w o Hw V.
  assert (Ew : wk_kernel w = ex_kernel).
  { destruct i as [|[|i]]; simpl in Hw; [injection Hw as <-; auto|injection Hw as <-; auto|rewrite nth_nil in Hw; discriminate]. }
  rewrite Ew. unfold first_draw. change (k_propose ex_kernel o) with (flip_propose ex_usher o).
  destruct (@C05_flip_total ex_layout 5 None ex_usher o ex_layout_ok eq_refl) as (Hn & Hm); auto.
  { discriminate. }
  { intros sl [<-|[<-|[]]] _; simpl; lia. }
  destruct (flip_propose ex_usher o) as [|[w0 [st|]] r] eqn:E.
  - discriminate.
  - exists w0. simpl. auto.
  - exfalso. apply (Hn w0). simpl. auto.
Qed.
Lemma ex_exact_on : exact_on ex_kernel (valid_occu ex_layout 5).
Proof.
  intros o st V H. split; [|apply ex_kernel_exact].
  destruct (@C05_flip_legal ex_layout 5 None ex_usher o st ex_layout_ok eq_refl) as (? & ? & _ & _ & V'); auto. discriminate.
Qed.
Example C13_example : forall n t, 0 < t ->
  exists l, sample_run ex_walkers (first_draw ex_kernel) n t [ex_occu; ex_occu] = Some l /\ length l = n / t.
Proof.
  intros n t Ht.
  destruct (@C13_run_defined ex_walkers (first_draw ex_kernel) n t [ex_occu; ex_occu] (fun _ => valid_occu ex_layout 5))
    as (l & Hl); auto.
  - intros [|[|i]] w Hw; simpl in Hw; [injection Hw as <-|injection Hw as <-|rewrite nth_nil in Hw; discriminate]; apply ex_exact_on.
  - apply first_draw_proposes.
  - intros [|[|i]] o Ho; simpl in Ho; [injection Ho as <-|injection Ho as <-|rewrite nth_nil in Ho; discriminate]; apply ex_occu_ok.
  - intros [|[|i]] w o st Hw; simpl in Hw; [injection Hw as <-|injection Hw as <-|rewrite nth_nil in Hw; discriminate]; discriminate.
  - intros; simpl; lra.
  - exists l. split; auto. apply sample_run_trajectory in Hl. tauto.
Qed.
Example C22_example : exists c, run_all (empty_container wtrace)
   [(ex_walkers, first_draw ex_kernel, 7, 2, Some [ex_occu; ex_occu]); (ex_walkers, first_draw ex_kernel, 4, 1, Some [ex_occu; ex_occu])] = Some c.
Proof.
  assert (G : forall c n t, 0 < t -> (exists xs s, holds c xs s) -> exists c',
     run ex_walkers (first_draw ex_kernel) c n t (Some [ex_occu; ex_occu]) = Some c').
  { intros c n t Ht (xs & s & Hc). destruct (@C13_example n t Ht) as (l & El & Hl).
    unfold run. destruct (t =? 0) eqn:E; [apply Nat.eqb_eq in E; lia|]. cbn [initial_occus option_bind]. rewrite El. cbn [option_bind].
    apply filled_holds in Hc. apply filled_allocate with (j := n / t) in Hc. simpl in Hc.
    rewrite <- Hl in Hc at 2. replace (length l) with (length l + 0) in Hc at 1 by lia.
    destruct (save_all_spec t Hc) as (c2 & E2 & _). eauto. }
  cbn [run_all].
  destruct (G (empty_container wtrace) 7 2) as (c1 & E1); [lia|exists [], 0; repeat split|]. rewrite E1. cbn [option_bind].
  destruct (@C22_run_stored _ _ (empty_container wtrace) [] 0 _ _ _ _ ltac:(repeat split) E1) as (o & ys & _ & _ & _ & H1).
  destruct (G c1 4 1) as (c2 & E2); [lia|eauto|]. rewrite E2. simpl. eauto.
Qed.
Example C23_example : exists c b,
  run_stream ex_walkers (first_draw ex_kernel) (empty_container wtrace) None 7 1 3 false (Some [ex_occu; ex_occu]) = Some (c, b).
Proof.
  unfold run_stream. cbn [Nat.eqb orb initial_occus option_bind length c_rows empty_container].
  destruct (@C13_example 7 1) as (l & El & Hl); [lia|]. rewrite El. cbn [option_bind].
  destruct (@stream_all_spec 1 3 ltac:(lia) l 0 (allocate (empty_container wtrace) 3) (get_backend None (7 / 1)) [] [] (repeat None 7) 0)
    as (c & b & _ & _ & _ & Es & _).
  - repeat split.
  - reflexivity.
  - repeat split.
  - rewrite Hl. simpl. lia.
  - assert (Es' : stream_all (allocate (empty_container wtrace) 3) (get_backend None (7 / 1)) 1 3 0 l = Some (c, b)) by exact Es.
    eexists; eexists. apply (@eq_trans _ _ (let? cb := stream_all (allocate (empty_container wtrace) 3) (get_backend None (7 / 1)) 1 3 0 l in Some (clear (fst cb), snd cb))); [reflexivity|]. rewrite Es'. reflexivity.
Qed.
Example C15_annealing_example : exists c,
  anneal (fun T => [mkWalker ex_kernel (metropolis_rule (Qc2R T)); mkWalker ex_kernel (metropolis_rule (Qc2R T))])
    [(Qc_frac 2 1, first_draw ex_kernel)] (empty_container wtrace) 0 1 (Some [ex_occu; ex_occu]) = Some c.
Proof. eexists. reflexivity. Qed.

Print Assumptions C13_recorded_values.
Print Assumptions C13_run_defined.
Print Assumptions C15_annealing.
Print Assumptions C22_history.
Print Assumptions C22_trajectory_unique.
Print Assumptions C23_stream.
Print Assumptions C23_same_samples_partial.
Print Assumptions C23_leftover_lost_refuted.
