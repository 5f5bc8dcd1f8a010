(** Attributes that are set on many objects and numbers of threads: [smol/utils/setmany.py],
    [smol/utils/cluster/numthreads.py], [smol/utils/_openmp_helpers.pyx] and their use in
    [smol/moca/processor/expansion.py].

    Objects are positions in a heap that holds the value of one attribute of each object, so that several containers, or one
    container twice, may refer to the same object. *)
From Verif Require Export Lib.
Set Implicit Arguments.
Open Scope nat_scope.

(** ** [SetMany] *)
(** The container attribute, setmany.py:48-58: a sequence, an object with [values] (both as the objects they yield), or anything
    else. *)
Inductive holder := Sequence (objs : list nat) | Mapping (items : list (nat * nat)) | OtherHolder.
(** [_container_objs], setmany.py:46-60; [None] is the TypeError. *)
Definition container_objs (h : holder) : option (list nat) :=
  match h with Sequence l => Some l | Mapping d => Some (map snd d) | OtherHolder => None end.
Section Many.
(** [V]: the values of the attribute; [W]: what may be assigned; [accept]: what [setattr] on one object stores, [None] if it raises. *)
Variables (V W : Type) (accept : W -> option V).
(** [__get__], setmany.py:31-39: all attributes are read, the first is returned; [None] is an error (IndexError if there is no
    object). *)
Definition get_many (heap : list V) (h : holder) : option V :=
  let? objs := container_objs h in
  let? values := opt_map (nth_error heap) objs in
  nth_error values 0.
(** One [setattr]. *)
Definition set_one (heap : list V) (x : nat) (w : W) : option (list V) :=
  let? v := accept w in if x <? length heap then Some (upd heap x v) else None.
(** [__set__], setmany.py:41-44.  The result is the heap and whether the assignment returned; if it raised, the heap is the one
    at that moment. *)
Fixpoint set_objs (heap : list V) (objs : list nat) (w : W) : list V * bool :=
  match objs with
  | [] => (heap, true)
  | x :: objs' => match set_one heap x w with Some heap' => set_objs heap' objs' w | None => (heap, false) end
  end.
Definition set_many (heap : list V) (h : holder) (w : W) : list V * bool :=
  match container_objs h with Some objs => set_objs heap objs w | None => (heap, false) end.
End Many.

(** ** Numbers of threads *)
(** The machine: whether OpenMP is enabled, [omp_get_max_threads()], [os.cpu_count()], and whether [OMP_NUM_THREADS] is set in the
    environment (and to a nonempty string).  [os.cpu_count()]
    is taken to be known. *)
Record machine := mkM { m_openmp : bool; m_omp_max : Z; m_cpus : Z; m_env : bool }.
(** [_openmp_effective_numthreads], _openmp_helpers.pyx:38-77; the result [None] is the ValueError. *)
Definition effective (m : machine) (n_threads : option Z) : option Z :=
  if match n_threads with Some z => Z.eqb z 0 | None => false end then None
  else if negb (m_openmp m) then Some 1%Z
  else
    let max_n := if m_env m then m_omp_max m else Z.min (m_omp_max m) (m_cpus m) in
    Some (match n_threads with
          | None => max_n
          | Some z => if Z.ltb z 0 then Z.max 1 (max_n + z + 1) else z
          end).
(** [DEFAULT_NUM_THREADS], numthreads.py:8-11, with the environment at the time of the import. *)
Definition default_threads (m : machine) : option Z := if m_env m then effective m None else effective m (Some 2%Z).
(** What can be assigned: [None], an integer, or something else. *)
Inductive pyval := PNone | PInt (z : Z) | POther.
(** [SetNumThreads.__set__], numthreads.py:34-54: the number that is stored. *)
Definition accept_threads (m : machine) (w : pyval) : option Z :=
  let? value := match w with PNone => default_threads m | PInt z => Some z | POther => None end in
  let? max_threads := effective m None in
  effective m (Some (if Z.ltb max_threads value then max_threads else value)).

(** [num_threads_full if num_threads_full else cluster_subspace.num_threads], expansion.py:156-158. *)
Definition full_request (subspace_threads : Z) (w : pyval) : pyval :=
  match w with PNone => PInt subspace_threads | PInt z => PInt (if Z.eqb z 0 then subspace_threads else z) | POther => POther end.
(** The threads of a [ClusterExpansionProcessor], expansion.py:103-160 (and 364-368 for the decomposition): the evaluator of full
    vectors is object 0, the evaluators of the [sites] follow; each starts with one thread.  [POther] for
    [num_threads_full] stands for objects that count as true.  [None]: an assignment raised. *)
Definition make_processor (m : machine) (subspace_threads : Z) (sites : nat) (num_threads num_threads_full : pyval) : option (list Z * holder) :=
  let h := Mapping (map (fun i => (i, S i)) (seq 0 sites)) in
  let heap := repeat 1%Z (S sites) in
  let? heap1 := set_one (accept_threads m) heap 0 (full_request subspace_threads num_threads_full) in
  let (heap2, ok) := set_many (accept_threads m) heap1 h num_threads in
  if ok then Some (heap2, h) else None.
