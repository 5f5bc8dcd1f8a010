(** Model of [ClusterExpansion.prune] and [predict], [smol/cofe/expansion.py].

    The stored feature matrix is not modelled: its columns are selected with the same list as the
    coefficients. *)
From Verif Require Export Subspace.
Set Implicit Arguments.
Open Scope nat_scope.

(** [bit_ids], expansion.py:356-357: positions of the values of magnitude below the threshold. *)
Definition small_ids (thr : Qc) (cs : list Qc) : list nat :=
  map fst (filter (fun p => Qcltb (qabs (snd p)) thr) (combine (seq 0 (length cs)) cs)).
(** [prune], expansion.py:335-375, for coefficients followed by [next] external terms.  [None]: the selection or
    the subspace raises, or the interaction tensors cannot be computed again; the objects are left half changed then. *)
Definition prune (thr : Qc) (with_mult : bool) (coefs : list Qc) (next : nat) (st : subspace) : option (list Qc * subspace) :=
  let? sel := if with_mult then eci (sub_orbits st) coefs next else Some coefs in
  let ids := small_ids thr sel in
  let? st' := remove_corr ids st in
  let coefs' := drop_at ids 0 coefs in
  let? its := interaction_tensors (sub_orbits st') coefs' next in
  Some (coefs', st').
(** [predict], expansion.py:259-288: [np.dot] of the coefficients and the correlation vector, external terms included. *)
Definition predict (coefs corrs : list Qc) : option Qc :=
  if length coefs =? length corrs then Some (qdot coefs corrs) else None.
