(** Model of [effective_cluster_weights], smol/cofe/expansion.py. *)
From Verif Require Export Subspace.
Set Implicit Arguments.
Open Scope nat_scope.

(** [a[ids == i]]: a mask of the wrong length raises. *)
Definition of_orbit {A} (ids : list nat) (i : nat) (a : list A) : option (list A) :=
  if length ids =? length a then Some (map snd (filter (fun p => fst p =? i) (combine ids a))) else None.
(** [effective_cluster_weights], expansion.py:232-249. *)
Definition effective_weights (os : list sorbit) (coefs : list Qc) (next : nat) : option (list Qc) :=
  let? e := eci os coefs next in
  opt_map (fun i =>
    let? ms := of_orbit (function_orbit_ids os) i (ordering_multiplicities os) in
    let? es := of_orbit (function_orbit_ids os) i e in
    Some (qsum (qmap2 (fun m x => m * (x * x))%Qc (map Qc_of_nat ms) es))) (seq 0 (length os + 1)).
