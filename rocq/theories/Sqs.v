(** The search for special quasi-random structures (smol/capp/generate/special/sqs.py).

    Simplifications: the Markov chain is a parameter, namely the values of the trace after each step; a trace is a value
    of type [T] with a score.  There is one walker, because the constructor passes one kernel to the sampler (sqs.py:533).
    Scores are exact rationals; [None] for the best score is [np.inf].  Python objects are modelled where they matter: the
    sampling loop overwrites one trace object in place, so traces live in a store. *)
From Verif Require Export Domain Container.
Set Implicit Arguments.
Open Scope nat_scope.

Section Sqs.
Variables (T : Type) (score : T -> Qc).

(** [deque.append] with [maxlen], sqs.py:608. *)
Definition push (maxlen : nat) (d : list nat) (x : nat) : list nat := let d' := d ++ [x] in skipn (length d' - maxlen) d'.
(** [np.any(trace.enthalpy < best_score)], sqs.py:606. *)
Definition improves (x : Qc) (best : option Qc) : bool := match best with None => true | Some b => Qcltb x b end.
Record search := mkS { s_store : list T; s_best : option Qc; s_deque : list nat }.
(** One turn of the loop, sqs.py:603-608 and 615-620, with the update of the trace in sqs.py:647-665: the step overwrites the
    object at [live], and an improvement is saved as a deep copy, a new object. *)
Definition turn (maxlen live : nat) (st : search) (v : T) : option search :=
  let store := upd (s_store st) live v in
  let? seen := nth_error store live in
  if improves (score seen) (s_best st)
  then Some (mkS (store ++ [seen]) (Some (score seen)) (push maxlen (s_deque st) (length store)))
  else Some (mkS store (s_best st) (s_deque st)).
Fixpoint turns (maxlen live : nat) (vs : list T) (st : search) : option search :=
  match vs with [] => Some st | v :: vs' => let? st' := turn maxlen live st v in turns maxlen live vs' st' end.
(** [_sample_sqs], sqs.py:627-665: [setup_sample] makes a new trace object. *)
Definition one_temperature (maxlen : nat) (run : T * list T) (st : search) : option search :=
  turns maxlen (length (s_store st)) (snd run) (mkS (s_store st ++ [fst run]) (s_best st) (s_deque st)).
Fixpoint temperatures_loop (maxlen : nat) (runs : list (T * list T)) (st : search) : option search :=
  match runs with [] => Some st | r :: runs' => let? st' := one_temperature maxlen r st in temperatures_loop maxlen runs' st' end.

(** The generator between calls: the store, [_sqs_deque] and the samples of the sampler. *)
Record generator := mkG { g_store : list T; g_deque : option (list nat); g_samples : container T }.
(** [max_save_num or max(int(0.01 * mcmc_steps), 1)], sqs.py:586, with an exact 0.01. *)
Definition save_num (max_save_num : option nat) (mcmc_steps : nat) : nat :=
  match max_save_num with Some (S k) => S k | _ => Nat.max (mcmc_steps / 100) 1 end.
(** sqs.py:623-624. *)
Fixpoint save_deque (c : container T) (store : list T) (d : list nat) : option (container T) :=
  match d with
  | [] => Some c
  | x :: d' => let? t := nth_error store x in let? c' := save_sample c [t] 1 in save_deque c' store d'
  end.
(** [StochasticSQSGenerator.generate], sqs.py:540-625.  [runs] lists, for each temperature, the trace at the start and its values
    after each step.  [None]: no temperatures (IndexError), several temperatures and no steps (UnboundLocalError),
    [clear_previous=False] in a first call (TypeError), or more saved traces than rows (IndexError). *)
Definition generate (g : generator) (mcmc_steps : nat) (runs : list (T * list T)) (clear_previous : bool) (max_save_num : option nat) : option generator :=
  let k := save_num max_save_num mcmc_steps in
  let? (d, maxlen) := if clear_previous then Some ([], k) else let? d := g_deque g in Some (d, length d + k) in
  let c := if clear_previous then clear (g_samples g) else g_samples g in
  match runs with
  | [] => None
  | r :: runs' =>
      if match snd r, runs' with [], _ :: _ => true | _, _ => false end then None
      else
        let? st := temperatures_loop maxlen runs (mkS (g_store g) None d) in
        let? c' := save_deque (allocate c k) (s_store st) (s_deque st) in
        Some (mkG (s_store st) (Some (s_deque st)) (vacuum c'))
  end.
(** The saved candidates. *)
Definition saved (g : generator) : option (list T) := let? d := g_deque g in opt_map (nth_error (g_store g)) d.

(** ** The best structures *)
Variables (ST : Type) (structure_of : T -> ST).
(** pymatgen's [StructureMatcher.group_structures]: the first structure of each group, found greedily with [fit] in the order
    of the list. *)
Fixpoint heads (fit : ST -> ST -> bool) (acc l : list ST) : list ST :=
  match l with
  | [] => acc
  | x :: l' => if existsb (fun h => fit h x) acc then heads fit acc l' else heads fit (acc ++ [x]) l'
  end.
(** [get_best_sqs], sqs.py:345-424; [eqb] is the equality of structures, [None] is the TypeError of sorting [None]. *)
Definition get_best (fit eqb : ST -> ST -> bool) (reduce : option (ST -> ST)) (g : generator) (num : nat) (remove_duplicates : bool) : option (list (ST * Qc)) :=
  let? cands := saved g in
  let sorted := sort_by (fun a b => Qcleb (score a) (score b)) cands in
  let best := map (fun t => (structure_of t, score t)) (if num =? 1 then firstn 1 sorted else sorted) in
  let best := if remove_duplicates
              then let unique := heads fit [] (map fst best) in filter (fun s => existsb (eqb (fst s)) unique) best
              else best in
  let best := if length best <? num then best else firstn num best in
  Some (match reduce with Some f => map (fun s => (f (fst s), snd s)) best | None => best end).
End Sqs.
