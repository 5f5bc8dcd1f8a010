(** C150: the composition closest to the centroid. *)
From Verif Require Import LibProofs QcLib ClusterProps RationalizeProps SnfProofs SnfProps CompSpaceProofs CompSpaceProps NatSolProps CompGridProps.
From Verif Require Export Centroid.
Set Implicit Arguments.
Unset Strict Implicit.
Open Scope Z_scope.

(** Inequalities per primitive cell. *)
Definition strictly_within (sp : cspace) (size : Z) (n : list Z) : Prop :=
  forall a b, In (a, b) (cs_leq sp) -> (qdot a (map Qc_of_Z n) <= b * Qc_of_Z size)%Qc.
(** The squared distance of coordinates to the mean of the vertices. *)
Definition from_mean (points : list (list Qc)) (x : list Z) : Qc :=
  qsum (map (fun k => let d := (Qc_of_Z (nth k x 0%Z) - qsum (map (fun p => nth k p 0) points) / Qc_of_nat (length points))%Qc in (d * d)%Qc) (seq 0 (length x))).
(** The solver returns numbers next to a minimum, and nothing only if no point is allowed. *)
Definition minimises (solver : nat -> (list Z -> Qc) -> (list Z -> bool) -> option (list Qc)) (n : nat) (cost : list Z -> Qc) (ok : list Z -> bool) : Prop :=
  match solver n cost ok with
  | Some r => exists x, Forall2 (fun q z => within (Qc_frac 1 2) q (Qc_of_Z z)) r x /\ length x = n /\ ok x = true /\
      forall y, length y = n -> ok y = true -> (cost x <= cost y)%Qc
  | None => forall y, length y = n -> ok y = false
  end.

Lemma sum_squares_seq c : forall (x : list Z) s, sum_squares x (map c (seq s (length x))) = qsum (map (fun k => let d := (Qc_of_Z (nth (k - s)%nat x 0%Z) - c k)%Qc in (d * d)%Qc) (seq s (length x))).
Proof.
  induction x as [|a x IH]; intros s; auto. cbn [length seq map sum_squares qsum]. rewrite Nat.sub_diag. cbn [nth]. f_equal. rewrite IH. f_equal. apply map_ext_in. intros k K. apply in_seq in K. replace (k - s)%nat with (S (k - S s))%nat by lia. reflexivity.
Qed.
Lemma cost_mean points x n : length x = n -> sum_squares x (average_point n points) = from_mean points x.
Proof.
  intros <-. unfold average_point, from_mean. rewrite sum_squares_seq. f_equal. apply map_ext. intros k. rewrite Nat.sub_0_r. reflexivity.
Qed.
Lemma constraints_iff sp n0 vs size x : length x = length vs -> (centroid_constraints n0 vs size (cs_leq sp) x = true <-> feasible n0 vs x /\ strictly_within sp size (lattice_point n0 vs x)).
Proof.
  intros L. unfold centroid_constraints, feasible, strictly_within. rewrite andb_true_iff, !forallb_forall. split.
  - intros (H & K). split; [split; auto|].
    + intros i Hi. specialize (H i ltac:(apply in_seq; lia)). rewrite zcomb_lc. apply Z.leb_le. exact H.
    + intros a b I. specialize (K _ I). cbn [fst snd] in K. destruct (Qcleb_spec (qdot a (map Qc_of_Z (lattice_point n0 vs x))) (b * Qc_of_Z size)%Qc); auto; discriminate.
  - intros ((_ & H) & K). split.
    + intros i Hi. apply in_seq in Hi. apply Z.leb_le. specialize (H i ltac:(lia)). rewrite zcomb_lc in H. exact H.
    + intros (a & b) I. specialize (K a b I). cbn [fst snd]. destruct (Qcleb_spec (qdot a (map Qc_of_Z (lattice_point n0 vs x))) (b * Qc_of_Z size)%Qc); auto.
Qed.
Lemma round_near r x : Forall2 (fun q z => within (Qc_frac 1 2) q (Qc_of_Z z)) r x -> map qround r = x.
Proof. induction 1; cbn [map]; auto. f_equal; auto. apply qround_unique. auto. Qed.

Section Centroids.
Variables (extreme : list Z -> list (list Z) -> list (list Qc)) (solver : nat -> (list Z -> Qc) -> (list Z -> bool) -> option (list Qc)).
Variables (oxi : species -> Z) (rank : list (list Z) -> nat) (bits : list (list species)) (sizes : list Z) (neutral : bool) (other : option (list entry)) (sp : cspace) (eqs : list (list Qc * Qc)) (vs : list (list Z)).
Hypotheses (B : built oxi rank bits sizes neutral other sp eqs) (EX : exact_eqs eqs) (ER : exact_rhs sp) (RG : regular sp) (GB : good_basis sp vs).
Variables (min_size size : Z) (n0 : list Z) (asked_size : option Z).
Hypotheses (AS : asked_size = Some size \/ asked_size = None /\ min_size = size) (HS : 0 < size) (HB : base_solution sp size = Some n0).
Hypothesis SV : forall c, minimises solver (length vs) (fun x => sum_squares x c) (centroid_constraints n0 vs size (cs_leq sp)).
Local Notation allowed n := (composition_ok oxi bits sizes neutral eqs size (map Qc_of_Z n) /\ strictly_within sp size n).

Lemma centroid_unfold : centroid_composition extreme solver sp vs min_size asked_size = natural_centroid extreme solver n0 vs size (cs_leq sp).
Proof. unfold centroid_composition. destruct AS as [-> | (-> & ->)]; rewrite HB; reflexivity. Qed.
Lemma allowed_iff x : length x = length vs -> (centroid_constraints n0 vs size (cs_leq sp) x = true <-> allowed (lattice_point n0 vs x)).
Proof. intros L. rewrite constraints_iff by auto. rewrite (point_ok B EX ER RG GB HS HB L). tauto. Qed.

(** The result is the coordinates of an allowed composition, and no allowed composition is closer to the mean of the vertices. *)
Theorem C150_closest x : centroid_composition extreme solver sp vs min_size asked_size = Some x ->
  length x = length vs /\ allowed (lattice_point n0 vs x) /\
  forall n, allowed n -> exists y, length y = length vs /\ n = lattice_point n0 vs y /\
    (from_mean (extreme n0 vs) x <= from_mean (extreme n0 vs) y)%Qc.
Proof.
  rewrite centroid_unfold. unfold natural_centroid. destruct (extreme n0 vs) as [|p ps] eqn:E; [discriminate|]. set (points := p :: ps).
  specialize (SV (average_point (length vs) points)). unfold minimises in SV. destruct (solver _ _ _) as [r|]; [|discriminate]. cbn [option_bind]. intros [= <-].
  destruct SV as (x & R & L & OK & MIN). rewrite (round_near R). split; auto. split; [apply allowed_iff; auto|]. intros n A. destruct (point_of B EX ER RG GB HS HB (proj1 A)) as (y & LY & ->). exists y. split; auto. split; auto.
  rewrite <- (cost_mean points L), <- (cost_mean points LY). apply MIN; auto. apply allowed_iff; auto.
Qed.
(** It is found whenever there is an allowed composition. *)
Theorem C150_found : extreme n0 vs <> [] ->
  (centroid_composition extreme solver sp vs min_size asked_size = None <-> ~ exists n, allowed n).
Proof.
  intros NE. split.
  - rewrite centroid_unfold. unfold natural_centroid. destruct (extreme n0 vs) as [|p ps] eqn:E; [congruence|]. specialize (SV (average_point (length vs) (p :: ps))). unfold minimises in SV. destruct (solver _ _ _) as [r|]; [discriminate|].
    intros _ (n & A). destruct (point_of B EX ER RG GB HS HB (proj1 A)) as (y & LY & ->). specialize (SV y LY). apply allowed_iff in A; auto. congruence.
  - intros N. destruct (centroid_composition _ _ _ _ _ _) as [x|] eqn:E; auto. exfalso. apply N. exists (lattice_point n0 vs x). apply (C150_closest E).
Qed.
(** It is on the grid of compositions. *)
Theorem C150_on_grid lp tol before grid c x : Forall (tol_ok tol) vs -> Forall (fun r => 0 < fst r /\ 0 < snd r) before -> lp_ok lp tol -> (tol < 1 # 2)%Q ->
  centroid_composition extreme solver sp vs min_size asked_size = Some x ->
  get_composition_grid lp tol sp vs size 1 (asked lp tol sp vs before []) = Some (grid, c) -> In (lattice_point n0 vs x) (map (lattice_point n0 vs) grid).
Proof.
  intros TV HF LP TL H G. destruct (C95_all_partial B EX ER RG GB TV HF LP TL HS G) as (n1 & HB' & _ & I). assert (n1 = n0) as -> by congruence. apply I. destruct (C150_closest H) as (_ & (OK & W) & _). split; auto.
  intros a b J. eapply Qcle_trans; [apply (W a b J)|]. apply Qcmult_le_compat_r; [|apply Qclt_le_weak, Qc_of_Z_pos; auto]. rewrite <- (Qcplus_0_r b) at 1. apply Qcplus_le_compat; [apply Qcle_refl|discriminate].
Qed.
End Centroids.

(** The space of C45: three compositions of two cells are natural numbers, two satisfy the inequality. *)
Definition c150_vertices (n0 : list Z) (vs : list (list Z)) : list (list Qc) :=
  [[Qc_frac (-1) 1; Qc_frac 0 1]; [Qc_frac (-2) 3; Qc_frac 0 1]; [Qc_frac 2 3; Qc_frac 2 1]; [Qc_frac 0 1; Qc_frac 2 1]].
Definition c150_solver (n : nat) (cost : list Z -> Qc) (ok : list Z -> bool) : option (list Qc) :=
  match filter ok [[-1; 0]; [0; 1]; [0; 2]] with
  | [] => None
  | x :: xs => Some (map (fun z => (Qc_of_Z z + Qc_frac 1 1000)%Qc) (fold_left (fun b y => if Qcleb (cost b) (cost y) then b else y) xs x))
  end.
Lemma c150_points x : length x = 2%nat -> centroid_constraints [-2; 2; 2; 2; 0] c45_vs 2 (cs_leq c45_sp) x = true -> x = [-1; 0] \/ x = [0; 1].
Proof.
  intros L H. destruct x as [|a [|b [|? ?]]]; try discriminate.
  assert (D : a = -1 /\ b = 0 \/ a = 0 /\ b = 1 \/ a = 0 /\ b = 2).
  { unfold centroid_constraints in H. apply andb_true_iff in H as (H & _). rewrite forallb_forall in H. pose proof (H 0%nat ltac:(simpl; auto)) as F0. pose proof (H 1%nat ltac:(simpl; auto)) as F1. pose proof (H 2%nat ltac:(simpl; auto)) as F2. pose proof (H 3%nat ltac:(simpl; auto)) as F3. pose proof (H 4%nat ltac:(simpl; tauto)) as F4.
    apply Z.leb_le in F0, F1, F2, F3, F4. unfold column_product, c45_vs in *. cbn [combine map fst snd nth zsum] in *. lia. }
  destruct D as [(-> & ->) | [(-> & ->) | (-> & ->)]]; auto. exfalso. vm_compute in H. discriminate.
Qed.
Lemma near x : Forall2 (fun q z => within (Qc_frac 1 2) q (Qc_of_Z z)) (map (fun z => (Qc_of_Z z + Qc_frac 1 1000)%Qc) x) x.
Proof.
  induction x as [|z x IH]; cbn [map]; constructor; auto. unfold within. replace (Qc_of_Z z + Qc_frac 1 1000 - Qc_of_Z z)%Qc with (Qc_frac 1 1000) by ring. split; vm_compute; reflexivity.
Qed.
Example C150_case : built c45_oxi (fun _ => 3%nat) c45_bits [1; 1] true c45_other c45_sp [] /\ exact_eqs [] /\ exact_rhs c45_sp /\ regular c45_sp /\ good_basis c45_sp c45_vs /\
  base_solution c45_sp 2 = Some [-2; 2; 2; 2; 0] /\
  (forall c, minimises c150_solver (length c45_vs) (fun x => sum_squares x c) (centroid_constraints [-2; 2; 2; 2; 0] c45_vs 2 (cs_leq c45_sp))) /\
  c150_vertices [-2; 2; 2; 2; 0] c45_vs <> [] /\
  centroid_composition c150_vertices c150_solver c45_sp c45_vs 1 (Some 2) = Some [0; 1] /\ centroid_composition c150_vertices c150_solver c45_sp c45_vs 2 None = Some [0; 1].
Proof.
  destruct C95_case as (H1 & H2 & H3 & H4 & H5 & _). repeat (split; [assumption|]). split; [vm_compute; reflexivity|]. split; [|split; [discriminate|split; vm_compute; reflexivity]].
  intros c. unfold minimises, c150_solver. assert (FE : filter (centroid_constraints [-2; 2; 2; 2; 0] c45_vs 2 (cs_leq c45_sp)) [[-1; 0]; [0; 1]; [0; 2]] = [[-1; 0]; [0; 1]]) by (vm_compute; reflexivity). rewrite FE. cbn [fold_left].
  assert (O1 : centroid_constraints [-2; 2; 2; 2; 0] c45_vs 2 (cs_leq c45_sp) [-1; 0] = true) by (vm_compute; reflexivity). assert (O2 : centroid_constraints [-2; 2; 2; 2; 0] c45_vs 2 (cs_leq c45_sp) [0; 1] = true) by (vm_compute; reflexivity).
  destruct (Qcleb_spec (sum_squares [-1; 0] c) (sum_squares [0; 1] c)) as [Q|Q].
  - exists [-1; 0]. split; [apply near|]. split; auto. split; auto. intros y LY OY. destruct (c150_points LY OY) as [-> | ->]; auto. apply Qcle_refl.
  - exists [0; 1]. split; [apply near|]. split; auto. split; auto. intros y LY OY. destruct (c150_points LY OY) as [-> | ->]; [apply Qclt_le_weak, Qcnot_le_lt; auto|apply Qcle_refl].
Qed.

Print Assumptions C150_closest.
Print Assumptions C150_found.
Print Assumptions C150_on_grid.
