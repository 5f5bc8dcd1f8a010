(** Model of the ways to look at the orbits and functions of a cluster subspace, by size and by diameter, and of the comparison of subspaces:
    smol/cofe/space/clusterspace.py:345-381, 413-419, 481-497, 565-626 and 1479-1497. *)
From Verif Require Export Subspace Distance.
Set Implicit Arguments.
Open Scope nat_scope.

Section Views.
(** The diameter of a base cluster, an exact number here. *)
Variable diameter : nat -> Qc.
Definition diam (o : sorbit) : Qc := diameter (s_key o).

Definition larger (x y : Qc) : Qc := if Qcleb x y then y else x.
(** [cutoffs], clusterspace.py:345-355; [None]: the maximum of no diameters raises. *)
Definition size_cutoff (kv : nat * list sorbit) : option (nat * Qc) :=
  match map diam (snd kv) with [] => None | x :: l => Some (fst kv, fold_left larger l x) end.
Definition cutoffs (st : subspace) : option (list (nat * Qc)) := opt_map size_cutoff (filter (fun kv => negb (fst kv =? 1)) (sub_items st)).
(** [function_inds_by_size], clusterspace.py:413-419: from the first function of the first orbit to the last of the last; [None] is the IndexError for a size without orbits. *)
Definition size_functions (kv : nat * list sorbit) : option (nat * list nat) :=
  match snd kv with
  | [] => None
  | o :: _ => let l := last (snd kv) o in Some (fst kv, seq (s_bit o) (s_bit l + s_len l - s_bit o))
  end.
Definition function_inds_by_size (st : subspace) : option (list (nat * list nat)) := opt_map size_functions (sub_items st).
(** [orbits_by_diameter], clusterspace.py:367-381, for rounded diameters.  It is cached; the removal of orbits clears the cache (lines 1025-1028). *)
Definition orbits_by_diameter (st : subspace) : list (Qc * list sorbit) := group_key (sort_key (map (fun o => (diam o, o)) (sub_orbits st))).
(** [orbits_by_cutoffs], clusterspace.py:481-497. *)
Definition within (lower upper : Qc) (o : sorbit) : bool := Qcleb lower (diam o) && Qcleb (diam o) upper.
Definition orbits_by_cutoffs (st : subspace) (upper lower : Qc) : list sorbit := filter (within lower upper) (sub_orbits st).
(** [orbits_from_cutoffs], clusterspace.py:565-601: bounds are numbers or dictionaries by size; [None] is a KeyError. *)
Inductive bounds := Number (x : Qc) | By_size (d : list (nat * Qc)).
Definition bounds_dict (b : bounds) (st : subspace) : list (nat * Qc) :=
  match b with Number x => map (fun kv => (fst kv, x)) (sub_items st) | By_size d => d end.
Definition lookup {A} (k : nat) (d : list (nat * A)) : option A := option_map snd (find (fun e => fst e =? k) d).
Definition orbits_from_cutoffs (st : subspace) (upper lower : bounds) : option (list sorbit) :=
  let l := bounds_dict lower st in
  let? parts := opt_map (fun e : nat * Qc =>
    let? os := lookup (fst e) (sub_items st) in
    match os with [] => Some [] | _ => let? lo := lookup (fst e) l in Some (filter (within lo (snd e)) os) end) (bounds_dict upper st) in
  Some (concat parts).
(** [function_inds_from_cutoffs], clusterspace.py:602-626. *)
Definition function_inds_from_cutoffs (st : subspace) (upper lower : bounds) : option (list nat) :=
  let? os := orbits_from_cutoffs st upper lower in Some (flat_map (fun o => seq (s_bit o) (s_len o)) os).
End Views.

(** [__eq__], clusterspace.py:1479-1493, between subspaces with external terms of the given classes: orbits are compared pairwise, and [zip] stops
    with the shorter list.  Equal keys stand for equal orbits (orbit.py:497-501: the base cluster is one of the other's clusters). *)
Definition same_orbit (a b : sorbit) : bool := s_key a =? s_key b.
Definition sub_eqb (st st' : subspace) (ext ext' : list nat) : bool :=
  if negb (sub_ncorr st' =? sub_ncorr st) then false
  else if negb (length ext =? length ext') then false
  else if negb (forallb (fun p => fst p =? snd p) (combine ext' ext)) then false
  else forallb (fun p => same_orbit (fst p) (snd p)) (combine (sub_orbits st') (sub_orbits st)).
(** [__contains__], clusterspace.py:1495-1497. *)
Definition sub_contains (st : subspace) (o : sorbit) : bool := existsb (same_orbit o) (sub_orbits st).
