(** Model of Potts subspaces: smol/cofe/space/clusterspace.py:1786-1966. *)
From Verif Require Export Subspace.
Set Implicit Arguments.
Open Scope nat_scope.

(** What the orbit generation (OrbitGen.v) finds of an orbit: its key and number of clusters, and for its base cluster the numbers of species of the sites and the site permutations. *)
Record pgeo := mkGeo { g_key : nat; g_mult : nat; g_dims : list nat; g_perms : list (list nat) }.
Definition potts_of (g : pgeo) : option sorbit := potts_orbit (g_key g) (g_mult g) (g_dims g) (g_perms g).
(** [_gen_orbits_from_cutoffs], clusterspace.py:1908-1966, after the cutoff of single sites was taken out (C90): [points] are the orbits of single sites, [multi] the
    others by size, [given] tells that cutoffs are left.  Without any the function returns before the last functions are removed. *)
Definition potts_items (points : list pgeo) (multi : list (nat * list pgeo)) (given remove_last : bool) : option (list (nat * list sorbit)) :=
  let? ps := opt_map potts_of points in
  if negb given then Some [(1, ps)]
  else
    let? ms := opt_map (fun kv => let? os := opt_map potts_of (snd kv) in Some (fst kv, os)) multi in
    if remove_last then opt_map (fun kv => let? os := opt_map drop_last_combo (snd kv) in Some (fst kv, os)) ((1, ps) :: ms) else Some ((1, ps) :: ms).

(** The species of a cluster for the indices of its site functions, line 1883. *)
Fixpoint species_of (spaces : list (list nat)) (bits : list nat) {struct bits} : option (list nat) :=
  match bits, spaces with
  | [], _ => Some []
  | b :: bits', sp :: spaces' => let? x := nth_error sp b in let? r := species_of spaces' bits' in Some (x :: r)
  | _ :: _, [] => None
  end.
(** [get_function_decoration], lines 1868-1887; [spaces key]: the species allowed at the sites of the base cluster.  For index 0, the constant, Python's negative indices are left out. *)
Definition get_function_decoration (spaces : nat -> list (list nat)) (st : subspace) (index : nat) : option (list (list nat)) :=
  let? oid := nth_error (function_orbit_ids (sub_orbits st)) index in
  let? o := nth_error (sub_orbits st) (oid - 1) in
  let? combo := nth_error (s_combos o) (index - s_bit o) in
  opt_map (species_of (spaces (s_key o))) combo.
(** [get_orbit_decorations], lines 1889-1905. *)
Definition get_orbit_decorations (spaces : nat -> list (list nat)) (st : subspace) (orbit_id : nat) : option (list (list (list nat))) :=
  let? o := nth_error (sub_orbits st) (orbit_id - 1) in
  opt_map (get_function_decoration spaces st) (seq (s_bit o) (s_len o)).
