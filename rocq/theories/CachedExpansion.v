(** Model of what a [ClusterExpansion] remembers: [smol/cofe/expansion.py].

    Effective interactions and interaction tensors are cached properties, and a second copy of the tensors is held by the
    evaluator of the subspace.  Coefficients are a public attribute.  The subspace belongs to the expansion (a copy is made
    at construction); changes of it other than by pruning are not modelled, nor is the stored feature matrix. *)
From Verif Require Export Prune ClusterWeights.
Set Implicit Arguments.
Local Open Scope nat_scope.

Notation tens := (Qc * list (list Qc))%type.
(** The attributes of an expansion, cofe/expansion.py:159-170: subspace, coefficients, number of external terms, the two cached
    properties (lines 171-200; [None]: not computed yet) and the tensors held by the evaluator (lines 382-398). *)
Record cexp := mkCE { ce_sub : subspace; ce_coefs : list Qc; ce_next : nat; ce_eci : option (list Qc); ce_tens : option tens; ce_eval : option tens }.

(** Reading [eci], expansion.py:171-183: computed once, from the coefficients of that moment. *)
Definition read_eci (x : cexp) : option (list Qc * cexp) :=
  match ce_eci x with
  | Some e => Some (e, x)
  | None => let? e := eci (sub_orbits (ce_sub x)) (ce_coefs x) (ce_next x) in
            Some (e, mkCE (ce_sub x) (ce_coefs x) (ce_next x) (Some e) (ce_tens x) (ce_eval x))
  end.
(** Reading [cluster_interaction_tensors], expansion.py:185-200: computed once, from the first coefficient and from [eci] as it is read. *)
Definition read_tens (x : cexp) : option (tens * cexp) :=
  match ce_tens x with
  | Some t => Some (t, x)
  | None => let? c0 := nth_error (ce_coefs x) 0 in
            let? r := read_eci x in
            let? ts := opt_map (interaction_tensor (fst r)) (sub_orbits (ce_sub x)) in
            let y := snd r in
            Some ((c0, ts), mkCE (ce_sub y) (ce_coefs y) (ce_next y) (ce_eci y) (Some (c0, ts)) (ce_eval y))
  end.
(** [_set_evaluator_data], expansion.py:381-398: the tensors as they are read. *)
Definition set_eval (x : cexp) : option cexp :=
  let? r := read_tens x in
  let y := snd r in Some (mkCE (ce_sub y) (ce_coefs y) (ce_next y) (ce_eci y) (ce_tens y) (Some (fst r))).
(** The constructor, expansion.py:147-163, for a subspace of [sub_ncorr] functions and [next] external terms. *)
Definition new_cexp (st : subspace) (coefs : list Qc) (next : nat) : option cexp :=
  if length coefs =? sub_ncorr st + next then set_eval (mkCE st coefs next None None None) else None.
(** Assigning [coefs], a plain attribute, expansion.py:159. *)
Definition assign_coefs (cs : list Qc) (x : cexp) : cexp := mkCE (ce_sub x) cs (ce_next x) (ce_eci x) (ce_tens x) (ce_eval x).
(** [effective_cluster_weights], expansion.py:229-247, with [eci] as it is read; [effective_weights] is the same from the coefficients. *)
Definition weights_of (os : list sorbit) (e : list Qc) : option (list Qc) :=
  opt_map (fun i =>
    let? ms := of_orbit (function_orbit_ids os) i (ordering_multiplicities os) in
    let? es := of_orbit (function_orbit_ids os) i e in
    Some (qsum (qmap2 (fun m x => m * (x * x))%Qc (map Qc_of_nat ms) es))) (seq 0 (length os + 1)).
Definition read_weights (x : cexp) : option (list Qc * cexp) :=
  let? r := read_eci x in let? w := weights_of (sub_orbits (ce_sub x)) (fst r) in Some (w, snd r).
(** [hasattr] and [del] for the two cached properties, expansion.py:368-372: [hasattr] computes them when they are absent, and
    lets other errors than AttributeError pass. *)
Definition drop_eci (x : cexp) : option cexp :=
  let? r := read_eci x in let y := snd r in Some (mkCE (ce_sub y) (ce_coefs y) (ce_next y) None (ce_tens y) (ce_eval y)).
Definition drop_tens (x : cexp) : option cexp :=
  let? r := read_tens x in let y := snd r in Some (mkCE (ce_sub y) (ce_coefs y) (ce_next y) (ce_eci y) None (ce_eval y)).
(** [prune], expansion.py:355-375. *)
Definition prune_cexp (thr : Qc) (with_mult : bool) (x : cexp) : option cexp :=
  let? r := if with_mult then read_eci x else Some (ce_coefs x, x) in
  let ids := small_ids thr (fst r) in
  let y := snd r in
  let? st := remove_corr ids (ce_sub y) in
  let? z := drop_eci (mkCE st (drop_at ids 0 (ce_coefs y)) (ce_next y) (ce_eci y) (ce_tens y) (ce_eval y)) in
  let? w := drop_tens z in
  set_eval w.

(** What a user can do with an expansion. *)
Inductive xop := XEci | XTens | XWeights | XPrune (thr : Qc) (with_mult : bool) | XCoefs (cs : list Qc).
Definition xop_run (o : xop) (x : cexp) : option cexp :=
  match o with
  | XEci => option_map snd (read_eci x)
  | XTens => option_map snd (read_tens x)
  | XWeights => option_map snd (read_weights x)
  | XPrune thr wm => prune_cexp thr wm x
  | XCoefs cs => Some (assign_coefs cs x)
  end.
Fixpoint xrun (os : list xop) (x : cexp) : option cexp :=
  match os with [] => Some x | o :: os' => let? y := xop_run o x in xrun os' y end.

(** The evaluator of the subspace with the tensors that were given to it, expansion.py:381-398. *)
Definition cexp_eval (x : cexp) : option evaluator :=
  let? t := ce_eval x in
  let? ds := opt_map orbit_data (sub_orbits (ce_sub x)) in
  Some (mkEval ds (sub_norb (ce_sub x)) (sub_ncorr (ce_sub x)) (fst t) (snd t)).
(** [cluster_interactions_from_structure], expansion.py:290-333, per primitive cell and for given tables of clusters. *)
Definition cexp_interactions (x : cexp) (tables : list ctable) (occu : list nat) : option (list Qc) :=
  let? ev := cexp_eval x in interactions ev occu tables.
(** [predict], expansion.py:257-288, per primitive cell, for given tables of clusters and values of the external terms. *)
Definition cexp_predict (x : cexp) (tables : list ctable) (occu : list nat) (ext : list Qc) : option Qc :=
  let? ev := cexp_eval x in let? v := correlations ev occu tables in predict (ce_coefs x) (v ++ ext).
