(** Model of [smol/moca/sampler/sampler.py]: the sampling loop, runs, streaming, annealing.

    The random stream is a function: [draws t i o] is the step proposed and the uniform
    number drawn by walker [i] at MC step [t] when its occupancy is [o].  The rows of the
    occupancy array (changed in place) and the occupancies of the trace are always equal
    after a step (sampler.py:196-201) and are modelled once. *)
From Verif Require Export Kernel Container.
Set Implicit Arguments.
Open Scope nat_scope.

(** The kernel of a walker with its acceptance rule. *)
Record walker := mkWalker { wk_kernel : mckernel; wk_rule : Qc -> R -> option R -> R }.
Definition stream := nat -> nat -> list nat -> step * R.

(** One step of one walker, sampler.py:198-206. *)
Definition walk_step (w : walker) (d : list nat -> step * R) (x : wtrace) : option wtrace :=
  let (st, u) := d (w_occu x) in
  let? tr := single_step (wk_kernel w) (wk_rule w) (w_occu x) st u in
  if s_accepted tr then
    let? b := match w_bias x, d_bias (s_delta tr) with
              | Some b, Some db => Some (Some (b + db)%R)
              | b, None => Some b
              | None, Some _ => None
              end in
    Some (mkW (s_occu tr) (qvadd (w_feat x) (d_feat (s_delta tr)))
              (w_enth x + d_enth (s_delta tr))%Qc b true)
  else Some (mkW (s_occu tr) (w_feat x) (w_enth x) (w_bias x) false).

(** All walkers, sampler.py:197-206 and 432-435 (zip). *)
Fixpoint step_all (ws : list walker) (i : nat) (draws : nat -> list nat -> step * R)
  (xs : sample wtrace) : option (sample wtrace) :=
  match ws, xs with
  | w :: ws', x :: xs' =>
      let? x' := walk_step w (draws i) x in
      let? r := step_all ws' (S i) draws xs' in
      Some (x' :: r)
  | _, _ => Some []
  end.

(** [thin_by] steps from time [t], sampler.py:195. *)
Fixpoint steps_from (ws : list walker) (draws : stream) (k t : nat) (xs : sample wtrace)
  : option (sample wtrace) :=
  match k with
  | 0 => Some xs
  | S k' => let? xs' := step_all ws 0 (draws t) xs in steps_from ws draws k' (S t) xs'
  end.
(** The outer loop, sampler.py:194-209. *)
Fixpoint samples_from (ws : list walker) (draws : stream) (thin_by m t : nat) (xs : sample wtrace)
  : option (list (sample wtrace)) :=
  match m with
  | 0 => Some []
  | S m' => let? xs' := steps_from ws draws thin_by t xs in
            let? r := samples_from ws draws thin_by m' (t + thin_by) xs' in
            Some (xs' :: r)
  end.
(** [setup_sample] for plain kernels, sampler.py:385-430: one occupancy per walker. *)
Definition setup_sample (ws : list walker) (occus : list (list nat)) : option (sample wtrace) :=
  if length occus =? length ws
  then Some (map (fun p => initial_trace (wk_kernel (fst p)) (snd p)) (combine ws occus))
  else None.
(** [Sampler.sample], sampler.py:163-209; [nsteps % 0] raises. *)
Definition sample_run (ws : list walker) (draws : stream) (nsteps thin_by : nat) (occus : list (list nat))
  : option (list (sample wtrace)) :=
  if thin_by =? 0 then None
  else let? xs := setup_sample ws occus in
       samples_from ws draws thin_by (nsteps / thin_by) 0 xs.

(** The initial occupancies of [run], sampler.py:252-268: given, or those of the last row
    of the arrays. *)
Definition initial_occus (c : container wtrace) (given : option (list (list nat))) : option (list (list nat)) :=
  match given with
  | Some o => Some o
  | None => match last (c_rows c) None with
            | Some x => Some (map w_occu x)
            | None => None
            end
  end.

(** Saving in memory, sampler.py:280-286. *)
Fixpoint save_all (c : container wtrace) (thin_by : nat) (ys : list (sample wtrace)) : option (container wtrace) :=
  match ys with
  | [] => Some c
  | y :: ys' => let? c' := save_sample c y thin_by in save_all c' thin_by ys'
  end.
(** [Sampler.run] without streaming, sampler.py:211-296. *)
Definition run (ws : list walker) (draws : stream) (c : container wtrace) (nsteps thin_by : nat)
  (given : option (list (list nat))) : option (container wtrace) :=
  if thin_by =? 0 then None
  else
    let? occus := initial_occus c given in
    let? ys := sample_run ws draws nsteps thin_by occus in
    save_all (allocate c (nsteps / thin_by)) thin_by ys.

(** Streaming, sampler.py:270-291: save, and flush after every [chunk] samples. *)
Fixpoint stream_all (c : container wtrace) (b : backend wtrace) (thin_by chunk i : nat)
  (ys : list (sample wtrace)) : option (container wtrace * backend wtrace) :=
  match ys with
  | [] => Some (c, b)
  | y :: ys' =>
      let? c1 := save_sample c y thin_by in
      let? cb := (if (i + 1) mod chunk =? 0 then flush c1 b else Some (c1, b)) in
      stream_all (fst cb) (snd cb) thin_by chunk (S i) ys'
  end.
Definition run_stream (ws : list walker) (draws : stream) (c : container wtrace) (file : option (backend wtrace))
  (nsteps thin_by chunk : nat) (keep_last_chunk : bool) (given : option (list (list nat)))
  : option (container wtrace * backend wtrace) :=
  if (thin_by =? 0) || (chunk =? 0) then None
  else
    let? occus := initial_occus c given in
    let b := get_backend file (nsteps / thin_by) in
    let c0 := if length (c_rows c) =? 0 then allocate c chunk else c in
    let? ys := sample_run ws draws nsteps thin_by occus in
    let? cb := stream_all c0 b thin_by chunk 0 ys in
    Some (if keep_last_chunk then fst cb else clear (fst cb), snd cb).

(** [Sampler.anneal] without streaming, sampler.py:302-383: [at_temp T] are the walkers after
    assigning temperature [T] to every kernel; one random stream per temperature. *)
Fixpoint anneal_rest (at_temp : Qc -> list walker) (temps : list (Qc * stream)) (c : container wtrace)
  (nsteps thin_by : nat) : option (container wtrace) :=
  match temps with
  | [] => Some c
  | (T, d) :: temps' => let? c' := run (at_temp T) d c nsteps thin_by None in
                        anneal_rest at_temp temps' c' nsteps thin_by
  end.
Definition anneal (at_temp : Qc -> list walker) (temps : list (Qc * stream)) (c : container wtrace)
  (nsteps thin_by : nat) (given : option (list (list nat))) : option (container wtrace) :=
  match temps with
  | [] => None
  | (T, d) :: temps' =>
      if Qcltb T (fst (last temps (T, d))) then None
      else let? c' := run (at_temp T) d c nsteps thin_by given in
           anneal_rest at_temp temps' c' nsteps thin_by
  end.
