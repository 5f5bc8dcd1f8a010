(** Sub-orbits and sub-functions: [Orbit.is_sub_orbit] and [Orbit.sub_orbit_mappings] (smol/cofe/space/orbit.py),
    [get_sub_orbits], [orbit_hierarchy], [get_sub_function_ids] and [function_hierarchy]
    (smol/cofe/space/clusterspace.py).

    Simplifications: those of OrbitGen.v; orbit and function ids are natural numbers, so Python's negative
    indices are left out. *)
From Verif Require Export OrbitGen Hierarchy.
Set Implicit Arguments.
Local Open Scope Qc_scope.

(** [itertools.combinations]: the subsequences of length [k] in lexicographic order of positions. *)
Fixpoint combinations {A} (l : list A) (k : nat) : list (list A) :=
  match l, k with
  | _, O => [[]]
  | [], S _ => []
  | x :: l', S k' => map (cons x) (combinations l' k') ++ combinations l' k
  end.
(** [array[inds]] for rows of coordinates. *)
Definition rows (A : list (list Qc)) (inds : list nat) : list (list Qc) := map (fun i => nth i A []) inds.
Definition size (o : gorbit) : nat := length (c_coords (g_base o)).

Section SubOrbits.
(** [tol] is the site tolerance of smol, [atol] the default tolerance of [is_coord_subset]; [sp] gives the site space of
    a site of the prim structure: equal numbers for equal site spaces. *)
Variables (dim : nat) (tol atol : Qc) (ops : list symop) (sp : nat -> nat).

(** [is_sub_orbit], orbit.py:354-383.  The test of site spaces at line 368 is [np.all] of a generator, which is true.  The site
    spaces given to the new clusters do not matter for their comparison. *)
Definition is_sub_orbit (o s : gorbit) : option bool :=
  if (size o <=? size s)%nat then Some false else
  let? p := orbit_parts dim tol ops (g_base s) in
  let? cs := opt_map (fun inds => mk_cluster dim (rows (c_coords (g_base o)) inds)) (combinations (seq 0 (size o)) (size s)) in
  Some (existsb (fun c => mem_cluster tol c (o_clusters p)) cs).

(** The index sets, orbit.py:401-413: combinations of the sites whose space is one of those of the sub-orbit. *)
Definition indsets (o s : gorbit) : list (list nat) :=
  combinations (filter (fun i => existsb (Nat.eqb (sp (nth i (g_kinds o) 0%nat))) (map sp (g_kinds s))) (seq 0 (length (g_kinds o))))
    (length (g_kinds s)).
(** One turn of the innermost loop, orbit.py:418-428: [cl] is a cluster of the orbit and [sub] one of the sub-orbit. *)
Definition recentre (cl : cluster) (s : gorbit) (inds : list nat) : list Qc :=
  map (fun x => Qc_of_Z (qround x)) (qvsub (average dim (rows (c_coords cl) inds)) (c_centroid (g_base s))).
Definition one_mapping (cl : cluster) (s : gorbit) (inds : list nat) (sub : cluster) : option (list (list nat)) :=
  let cs := map (fun x => qvadd x (recentre cl s inds)) (c_coords sub) in
  if coord_subset atol cs (c_coords cl) then let? m := coord_mapping tol cs (c_coords cl) in Some [m] else Some [].
(** [sub_orbit_mappings], orbit.py:385-434.  (The clusters of the sub-orbit are computed there only when there is an index set.) *)
Definition sub_orbit_mappings (o s : gorbit) : option (list (list nat)) :=
  let? po := orbit_parts dim tol ops (g_base o) in
  let? ps := orbit_parts dim tol ops (g_base s) in
  let? ms := opt_map (fun q => one_mapping (fst q) s (fst (snd q)) (snd (snd q)))
               (list_prod (o_clusters po) (list_prod (indsets o s) (o_clusters ps))) in
  match concat ms with
  | [] => let? b := is_sub_orbit o s in if b then None else Some []
  | l => Some (unique_rows l)
  end.

(** ** Subspaces *)
(** An orbit with what [get_sub_orbits] and [get_sub_function_ids] read of it: [id], [bit_id] and [bit_combos]. *)
Record forbit := mkF { f_geo : gorbit; f_combos : list (list (list nat)); f_id : nat; f_bit : nat }.
(** [_orbits]: orbits by size. *)
Definition forbits := list (nat * list forbit).
(** [orbits], clusterspace.py:358-360. *)
Definition all_forbits (D : forbits) : list forbit := flat_map snd D.
Definition fget (k : nat) (D : forbits) : option (list forbit) := option_map snd (find (fun e => (fst e =? k)%nat) D).
(** [range(size - 1, stop, -1)]. *)
Definition down (sz stop : nat) : list nat := rev (seq (S stop) (sz - 1 - stop)).
(** The smallest size that is not searched, clusterspace.py:1119-1124. *)
Definition stop_size (sz : nat) (level : option Z) (min_size : Z) : nat :=
  match level with
  | None => 0
  | Some l =>
      if ((l <? 0) || (Z.of_nat sz - l - 1 <? 0))%Z then 0%nat
      else if (Z.of_nat sz - l <? min_size)%Z then Z.to_nat (min_size - 1) else Z.to_nat (Z.of_nat sz - l - 1)
  end.
Fixpoint filter_opt {A} (f : A -> option bool) (l : list A) : option (list A) :=
  match l with [] => Some [] | x :: l' => let? b := f x in let? r := filter_opt f l' in Some (if b then x :: r else r) end.
(** [get_sub_orbits], clusterspace.py:1101-1132. *)
Definition get_sub_orbits (D : forbits) (id : nat) (level : option Z) (min_size : Z) : option (list forbit) :=
  match id with
  | O => Some []
  | S k =>
      let? o := nth_error (all_forbits D) k in
      let? ls := opt_map (fun s => let? os := fget s D in filter_opt (fun x => is_sub_orbit (f_geo o) (f_geo x)) os)
                   (down (size (f_geo o)) (stop_size (size (f_geo o)) level min_size)) in
      Some (concat ls)
  end.
(** [orbit_hierarchy], clusterspace.py:499-529. *)
Definition orbit_hierarchy (D : forbits) (level : option Z) (min_size : Z) : option (list (list nat)) :=
  let? h := opt_map (fun o => let? l := get_sub_orbits D (f_id o) level min_size in Some (map f_id l)) (all_forbits D) in Some ([] :: h).

(** The inner loop of [get_sub_function_ids], clusterspace.py:1163-1168, for the sub-orbit [s]: [combo] are the bit combinations of the function. *)
Definition covers (combo : list (list nat)) (ms : list (list nat)) (c0 : list nat) : bool :=
  existsb (fun c => existsb (fun m => row_eqb c0 (map (fun i => nth i c 0%nat) m)) ms) combo.
Definition sub_functions (o s : forbit) (combo : list (list nat)) : option (list nat) :=
  let? ms := sub_orbit_mappings (f_geo o) (f_geo s) in
  let? hs := opt_map (fun g => match g with [] => None | c0 :: _ => Some (covers combo ms c0) end) (f_combos s) in
  Some (map fst (filter snd (combine (seq (f_bit s) (length (f_combos s))) hs))).
(** [get_sub_function_ids], clusterspace.py:1134-1170, with [function_orbit_ids] (400-411). *)
Definition f_orbit_ids (D : forbits) : list nat := 0%nat :: flat_map (fun o => repeat (f_id o) (length (f_combos o))) (all_forbits D).
Definition get_sub_function_ids (D : forbits) (corr : nat) (level : option Z) (min_size : Z) : option (list nat) :=
  if (corr =? 0)%nat then Some [] else
  let? oid := nth_error (f_orbit_ids D) corr in
  let? o := nth_error (all_forbits D) (oid - 1) in
  let? combo := nth_error (f_combos o) (corr - f_bit o) in
  let? subs := get_sub_orbits D (f_id o) level min_size in
  let? ls := opt_map (fun s => sub_functions o s combo) subs in
  Some (concat ls).
(** [function_hierarchy], clusterspace.py:531-563. *)
Definition function_hierarchy (D : forbits) (level : option Z) (min_size : Z) (invert : bool) : option (list (list nat)) :=
  let? h := opt_map (fun i => get_sub_function_ids D i level min_size) (seq 0 (length (f_orbit_ids D))) in
  if invert then invert_mapping h else Some h.
End SubOrbits.
