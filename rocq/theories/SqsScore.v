(** Model of the generators of special structures: their processors and the scores of structures, smol/capp/generate/special/sqs.py:34-343 and 345-424. *)
From Verif Require Export Domain Ewald Matching Distance.
From Coq Require Export ZArith.
Set Implicit Arguments.
Open Scope nat_scope.

(** Supercell matrices as lists of rows. *)
Definition scm := list (list Z).
Fixpoint row_leb (a b : list Z) : bool :=
  match a, b with
  | [], _ => true
  | _ :: _, [] => false
  | x :: a', y :: b' => (x <? y)%Z || ((x =? y)%Z && row_leb a' b')
  end.
(** [tuple(sorted(tuple(s.tolist()) for s in scm))], lines 128, 144 and 342: the key of a matrix. *)
Definition rows_key (m : scm) : scm := sort_by row_leb m.
Definition scm_eq_dec : forall a b : scm, {a = b} + {a <> b} := list_eq_dec (list_eq_dec Z.eq_dec).
(** [np.linalg.det] of a matrix of shape (3, 3), exactly.  [np.isclose] is taken as equality: the determinant of an integer matrix is an integer. *)
Definition det3 (m : scm) : Z :=
  match m with
  | [[a; b; c]; [d; e; f]; [g; h; i]] => (a * (e * i - f * h) - b * (d * i - f * g) + c * (d * h - e * g))%Z
  | _ => 0%Z
  end.
(** [scm.shape != (3, 3)], line 112. *)
Definition shape33 (m : scm) : bool := (length m =? 3) && forallb (fun r => length r =? 3) m.

(** A processor of a supercell: its matrix, the species allowed at its sites, and the distance processor. *)
Record gproc := mkGP { gp_scm : scm; gp_allowed : list (list specie); gp_dist : dproc }.
(** What a subspace gives for every supercell: the allowed species and the cluster processors for both types of features; and of itself: the numbers of functions and
    orbits, the diameters of its orbits, and all inequivalent matrices of a size (C39). *)
Record sqs_space := mkSpace { ss_allowed : scm -> list (list specie); ss_proc : bool -> scm -> proc; ss_ncorr : nat; ss_norb : nat; ss_diams : list Qc; ss_enum : nat -> list scm }.
(** The argument [feature_type]: "correlation", "cluster-interaction", or any other string. *)
Inductive feature := Correlation | Interaction | Other_feature.
Definition feature_inter (ft : feature) : bool := match ft with Interaction => true | _ => false end.
(** [num_features], lines 87-95. *)
Definition num_features (S : sqs_space) (ft : feature) : option nat :=
  match ft with Correlation => Some (ss_ncorr S) | Interaction => Some (ss_norb S) | Other_feature => None end.
(** Insertion in a dictionary: a key keeps its place and gets the new value. *)
Fixpoint put_proc (d : list (scm * gproc)) (k : scm) (p : gproc) : list (scm * gproc) :=
  match d with
  | [] => [(k, p)]
  | (k', p') :: d' => if scm_eq_dec k' k then (k', p) :: d' else (k', p') :: put_proc d' k p
  end.
Definition by_scm (ps : list gproc) : list (scm * gproc) := fold_left (fun d p => put_proc d (rows_key (gp_scm p)) p) ps [].
Fixpoint get_proc (d : list (scm * gproc)) (k : scm) : option gproc :=
  match d with [] => None | (k', p) :: d' => if scm_eq_dec k' k then Some p else get_proc d' k end.
(** [target_weights] and [target_vector], lines 97-109: defaults, or of the right lengths. *)
Definition given_or (n : nat) (x : Qc) (v : option (list Qc)) : option (list Qc) :=
  match v with None => Some (repeat x n) | Some v => if length v =? n then Some v else None end.

(** A generator: the size of its supercells and [_processors_by_scm]; [_processors] are the values of it. *)
Record sqs_gen := mkGen { sg_size : nat; sg_procs : list (scm * gproc) }.
Definition sg_list (g : sqs_gen) : list gproc := map snd (sg_procs g).
(** The constructor, lines 73-155, for a subspace without external terms (with them the processors raise).  [same]: the subspace of the first processor given equals that of the generator (an empty list of processors is an IndexError). *)
Definition new_sqs (S : sqs_space) (size : nat) (ft : feature) (target weights : option (list Qc)) (match_weight tol : Qc) (matrices : option (list scm))
    (procs : option (list gproc)) (same : bool) : option sqs_gen :=
  let? _ := match procs with
            | None => Some tt
            | Some [] => None
            | Some ps => if same && forallb (fun p => p_size (d_proc (gp_dist p)) =? size) ps then Some tt else None
            end in
  let? n := num_features S ft in
  let? w := given_or (n - 1) 1%Qc weights in
  let? t := given_or n 0%Qc target in
  let? ms := match matrices, procs with
             | Some _, Some _ => None
             | Some ms, None => if forallb (fun m => shape33 m && (det3 m =? Z.of_nat size)%Z) ms then Some ms else None
             | None, None => Some (rev (ss_enum S size))
             | None, Some _ => Some []
             end in
  let? ps := match procs with
             | Some ps => Some ps
             | None => opt_map (fun m => let? D := new_dproc (feature_inter ft) (ss_proc S (feature_inter ft) m) t match_weight w tol (ss_diams S) in Some (mkGP m (ss_allowed S m) D)) ms
             end in
  Some (mkGen size (by_scm ps)).
(** [from_processors], lines 236-282, for processors of the subspace of the first one. *)
Definition sqs_from_processors (S : sqs_space) (ps : list gproc) (target weights : option (list Qc)) (match_weight tol : Qc) : option sqs_gen :=
  match ps with
  | [] => None
  | p :: _ => new_sqs S (p_size (d_proc (gp_dist p))) (if d_inter (gp_dist p) then Interaction else Correlation) target weights match_weight tol None (Some ps) true
  end.

(** [_get_structure_processor], lines 333-343, for a matrix given or found by the matcher. *)
Definition structure_processor (g : sqs_gen) (m : scm) : option gproc :=
  if (det3 m =? Z.of_nat (sg_size g))%Z then get_proc (sg_procs g) (rows_key m) else None.
(** [compute_property] of a distance processor, processor/base.py:155-164. *)
Definition dist_property (D : dproc) (occu : list nat) : option Qc := let? f := dist_features D occu in np_dot (d_coefs D) f.
(** [compute_score], lines 299-314; the structure is given by its species and the sites of the supercell of the processor that the matcher maps them to. *)
Definition compute_score (g : sqs_gen) (m : scm) (str : list specie) (mapping : list nat) : option Qc :=
  let? p := structure_processor g m in
  let? occu := processor_occupancy (gp_allowed p) str mapping in
  dist_property (gp_dist p) occu.
(** [compute_feature_distance], lines 316-331. *)
Definition compute_feature_distance (g : sqs_gen) (m : scm) (str : list specie) (mapping : list nat) : option (list Qc) :=
  let? p := structure_processor g m in
  let? occu := processor_occupancy (gp_allowed p) str mapping in
  dist_features (gp_dist p) occu.

(** A recorded trace: index of the kernel, occupancy, score and features. *)
Record sqs_trace := mkTr { t_kernel : nat; t_occu : list nat; t_score : Qc; t_feat : list Qc }.
(** The [SQS] made of a trace, lines 376-386 (before the reduction of the cell): structure, score, features, matrix. *)
Definition sqs_of (g : sqs_gen) (t : sqs_trace) : option (list (nat * specie) * Qc * list Qc * scm) :=
  let? p := nth_error (sg_list g) (t_kernel t) in
  let? s := structure_from_occupancy (gp_allowed p) (t_occu t) in
  Some (s, t_score t, t_feat t, gp_scm p).
