(** C120: which matrices, targets and weights a generator of special structures accepts. *)
From Verif Require Import LibProofs MatchingProps DistanceProps SqsScoreProps.
From Coq Require Import Permutation Lia.
Set Implicit Arguments.
Unset Strict Implicit.
Open Scope nat_scope.

(** A three by three matrix of the given determinant, as the sum over permutations. *)
Definition matrix_of_size (m : scm) (size : nat) : Prop :=
  exists a b c d e f g h i, m = [[a; b; c]; [d; e; f]; [g; h; i]] /\
    (a * e * i + b * f * g + c * d * h - c * e * g - b * d * i - a * f * h)%Z = Z.of_nat size.
(** The length of feature vectors. *)
Definition features_of (S : sqs_space) (ft : feature) (n : nat) : Prop :=
  (ft = Correlation /\ n = ss_ncorr S) \/ (ft = Interaction /\ n = ss_norb S).

Lemma shape_det m size : (shape33 m && (det3 m =? Z.of_nat size)%Z = true <-> matrix_of_size m size).
Proof.
  unfold matrix_of_size. rewrite andb_true_iff, Z.eqb_eq. split.
  - intros (Sh & D). unfold shape33 in Sh. apply andb_true_iff in Sh as (L & R). apply Nat.eqb_eq in L. destruct m as [|r1 [|r2 [|r3 [|? ?]]]]; try discriminate. cbn [forallb] in R. rewrite !andb_true_iff, !Nat.eqb_eq in R. destruct R as (R1 & R2 & R3 & _).
    destruct r1 as [|a [|b [|c [|? ?]]]]; try discriminate. destruct r2 as [|d [|e [|f [|? ?]]]]; try discriminate. destruct r3 as [|g [|h [|i [|? ?]]]]; try discriminate.
    exists a, b, c, d, e, f, g, h, i. split; auto. cbn [det3] in D. rewrite <- D. ring.
  - intros (a & b & c & d & e & f & g & h & i & -> & D). split; [reflexivity|]. cbn [det3]. rewrite <- D. ring.
Qed.
(** A generator that was given matrices, a target and weights: the matrices are of its size, and the vectors have one number per
    feature and one per feature but the first. *)
Theorem C120_accepted S size ft target weights mw tol matrices procs same g : new_sqs S size ft target weights mw tol matrices procs same = Some g ->
  (matrices = None \/ procs = None) /\
  (forall ms m, matrices = Some ms -> In m ms -> matrix_of_size m size) /\
  exists n, features_of S ft n /\ (forall t, target = Some t -> length t = n) /\ (forall w, weights = Some w -> length w = n - 1).
Proof.
  unfold new_sqs. destruct (match procs with None => _ | Some _ => _ end) as [u|]; [|discriminate]. cbn [option_bind]. destruct (num_features S ft) as [n|] eqn:En; [|discriminate]. cbn [option_bind].
  destruct (given_or (n - 1) 1%Qc weights) as [w|] eqn:Ew; [|discriminate]. cbn [option_bind]. destruct (given_or n 0%Qc target) as [t|] eqn:Et; [|discriminate]. cbn [option_bind]. intros H.
  split; [destruct matrices, procs; auto; discriminate|]. split.
  - intros ms m -> I. destruct procs; [discriminate|]. destruct (forallb (fun m => shape33 m && (det3 m =? Z.of_nat size)%Z) ms) eqn:F; [|discriminate]. rewrite forallb_forall in F. apply shape_det; auto.
  - exists n. split; [unfold features_of; destruct ft; cbn [num_features] in En; try discriminate; injection En as <-; auto|]. split.
    + intros t' ->. cbn [given_or] in Et. destruct (Nat.eqb_spec (length t') n); auto; discriminate.
    + intros w' ->. cbn [given_or] in Ew. destruct (Nat.eqb_spec (length w') (n - 1)); auto; discriminate.
Qed.
Lemma later_get k : forall ps d, (forall p, In p ps -> rows_key (gp_scm p) <> k) -> get_proc (fold_left (fun d p => put_proc d (rows_key (gp_scm p)) p) ps d) k = get_proc d k.
Proof.
  induction ps as [|p ps IH]; intros d N; cbn [fold_left]; auto. rewrite IH by (intros q Q; apply N; right; auto). rewrite put_get. destruct (scm_eq_dec (rows_key (gp_scm p)) k) as [E|]; auto. exfalso. apply (N p); auto. left. auto.
Qed.
(** Of several matrices with the same rows the last one is used. *)
Theorem C120_last S size ft target weights mw tol before m after same g : new_sqs S size ft target weights mw tol (Some (before ++ m :: after)) None same = Some g ->
  (forall m', In m' after -> ~ Permutation m' m) -> exists p, structure_processor g m = Some p /\ gp_scm p = m.
Proof.
  intros H N. pose proof (C120_accepted H) as (_ & A & _). specialize (A _ m eq_refl ltac:(apply in_or_app; right; left; auto)). apply (shape_det m size) in A. apply andb_true_iff in A as (_ & A).
  unfold new_sqs in H. cbn [option_bind] in H. destruct (num_features S ft) as [n|]; [|discriminate]. cbn [option_bind] in H. destruct (given_or (n - 1) 1%Qc weights) as [w|]; [|discriminate]. cbn [option_bind] in H. destruct (given_or n 0%Qc target) as [t|]; [|discriminate]. cbn [option_bind] in H.
  destruct (forallb _ (before ++ m :: after)); [|discriminate]. cbn [option_bind] in H. set (mk := fun m => let? D := new_dproc (feature_inter ft) (ss_proc S (feature_inter ft) m) t mw w tol (ss_diams S) in Some (mkGP m (ss_allowed S m) D)) in *.
  assert (MK : forall x y, mk x = Some y -> gp_scm y = x) by (intros x y; unfold mk; destruct (new_dproc _ _ _ _ _ _ _); cbn [option_bind]; [intros [= <-]; auto|discriminate]).
  destruct (opt_map mk (before ++ m :: after)) as [ps|] eqn:E; [|discriminate]. cbn [option_bind] in H. injection H as <-. unfold structure_processor. cbn [sg_size sg_procs]. rewrite A.
  assert (SP : exists ps1 p ps2, ps = ps1 ++ p :: ps2 /\ gp_scm p = m /\ forall q, In q ps2 -> In (gp_scm q) after).
  { clear - E MK. revert ps E. induction before as [|x l IH]; intros ps E; cbn [app opt_map] in E.
    - destruct (mk m) as [p|] eqn:M; [|discriminate]. cbn [option_bind] in E. destruct (opt_map mk after) as [ps2|] eqn:E2; [|discriminate]. injection E as <-. exists [], p, ps2. split; auto. split; auto. clear - E2 MK. revert ps2 E2. induction after as [|y l IH]; intros ps2 E2; cbn [opt_map] in E2; [injection E2 as <-; intros q []|].
      destruct (mk y) as [z|] eqn:Z; [|discriminate]. cbn [option_bind] in E2. destruct (opt_map mk l) as [zs|]; [|discriminate]. injection E2 as <-. intros q [<-|Q]; [left; symmetry; auto|right; apply (IH zs); auto].
    - destruct (mk x) as [p|]; [|discriminate]. cbn [option_bind] in E. destruct (opt_map mk (l ++ m :: after)) as [ps'|]; [|discriminate]. injection E as <-. destruct (IH _ eq_refl) as (ps1 & q & ps2 & -> & R). exists (p :: ps1), q, ps2. auto. }
  destruct SP as (ps1 & p & ps2 & -> & PM & AF). exists p. split; auto. unfold by_scm. rewrite fold_left_app. cbn [fold_left]. rewrite later_get.
  - rewrite put_get, PM. destruct (scm_eq_dec (rows_key m) (rows_key m)); congruence.
  - intros q Q EQ. apply (N (gp_scm q)); [auto|]. apply rows_key_iff. auto.
Qed.

Example C120_matrices_case : exists g, new_sqs sx_space 2 Correlation (Some sx_target) (Some (repeat 1%Qc 5)) 1%Qc default_tol (Some [sx_m; [[0; 0; 2]; [1; 0; 0]; [0; 1; 0]]%Z]) None true = Some g /\
  map gp_scm (sg_list g) = [[[0; 0; 2]; [1; 0; 0]; [0; 1; 0]]%Z] /\ matrix_of_size sx_m 2 /\ features_of sx_space Correlation 6 /\
  new_sqs sx_space 2 Correlation None None 1%Qc default_tol (Some [[[0; 1; 0]; [1; 0; 0]; [0; 0; 2]]%Z]) None true = None.
Proof.
  eexists. split; [vm_compute; reflexivity|]. split; [vm_compute; reflexivity|]. split; [apply shape_det; vm_compute; reflexivity|]. split; [left; auto|vm_compute; reflexivity].
Qed.

Print Assumptions C120_accepted.
Print Assumptions C120_last.
