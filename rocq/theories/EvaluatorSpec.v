(** Specification for C26, C27, C29, C32 and C34. *)
From Verif Require Export Evaluator OccuUtils.
Set Implicit Arguments.
Open Scope nat_scope.

Definition nprod (l : list nat) : nat := fold_right Nat.mul 1 l.
(** Products of the trailing dimensions. *)
Fixpoint strides_of (dims : list nat) : list nat :=
  match dims with [] => [] | _ :: ds => nprod ds :: strides_of ds end.

(** An orbit whose clusters have the given numbers of species on their sites; the
    interaction tensor has the same shape. *)
Definition orbit_ok (sd : nat -> nat) (N : nat) (o : orbit) (inter : list Qc) (rows : ctable) : Prop :=
  exists dims, o_strides o = strides_of dims /\
    (forall t, In t (o_tensors o) -> length t = nprod dims) /\ length inter = nprod dims /\
    rows <> [] /\
    (forall row, In row rows -> map sd row = dims /\ forall s, In s row -> s < N).
(** A processor on [N] sites, with [sd s] species allowed on site [s].  The slots of the
    output vectors are distinct and leave the first one free. *)
Record proc_ok (sd : nat -> nat) (N : nat) (P : proc) : Prop := {
  ok_orbits : forall n o i rows, nth_error (e_orbits (p_eval P)) n = Some o -> nth_error (e_inter (p_eval P)) n = Some i ->
     nth_error (p_tables P) n = Some rows -> orbit_ok sd N o i rows;
  ok_inter : length (e_inter (p_eval P)) = length (e_orbits (p_eval P));
  ok_tables : length (p_tables P) = length (e_orbits (p_eval P));
  ok_bits : NoDup (flat_map (fun o => seq (o_bit o) (o_rows o)) (e_orbits (p_eval P)));
  ok_bits_in : forall o k, In o (e_orbits (p_eval P)) -> k < o_rows o -> 0 < o_bit o + k < e_num_corr (p_eval P);
  ok_ids : NoDup (map o_id (e_orbits (p_eval P)));
  ok_ids_in : forall o, In o (e_orbits (p_eval P)) -> 0 < o_id o < e_num_orbits (p_eval P);
  ok_num : 0 < e_num_corr (p_eval P) /\ 0 < e_num_orbits (p_eval P)
}.
Definition codes_ok (sd : nat -> nat) (N : nat) (occu : list nat) : Prop :=
  length occu = N /\ forall s c, nth_error occu s = Some c -> c < sd s.
(** Flips of sites that belong to a cluster, to an allowed species. *)
Definition in_cluster (P : proc) (s : nat) : Prop := exists rows row, In rows (p_tables P) /\ In row rows /\ In s row.
Definition flips_ok (sd : nat -> nat) (N : nat) (P : proc) (flips : step) : Prop :=
  forall s c, In (s, c) flips -> s < N /\ c < sd s /\ in_cluster P s.

(** Executions of parallel work: any order that keeps the order within each item. *)
Inductive interleaved {A} : list (list A) -> list A -> Prop :=
| inter_done ls : (forall l, In l ls -> l = []) -> interleaved ls []
| inter_step ls1 x l ls2 ws : interleaved (ls1 ++ l :: ls2) ws -> interleaved (ls1 ++ (x :: l) :: ls2) (x :: ws).
Definition parallel_result (out : option (list Qc)) (work : option (list (list (nat * Qc)))) (r : list Qc) : Prop :=
  exists o w ws, out = Some o /\ work = Some w /\ interleaved w ws /\ write_all o ws = Some r.

(** ** Tensors in C order *)
(** The entry of a flattened tensor: along the first axis it consists of equal blocks, and the first
    code selects one of them. *)
Fixpoint entry (dims : list nat) (t : list Qc) (codes : list nat) : option Qc :=
  match dims, codes with
  | [], [] => match t with [x] => Some x | _ => None end
  | d :: ds, c :: cs =>
      if (c <? d) && (length t =? d * nprod ds) then entry ds (firstn (nprod ds) (skipn (c * nprod ds) t)) cs else None
  | _, _ => None
  end.
