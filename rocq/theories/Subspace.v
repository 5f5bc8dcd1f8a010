(** Model of orbits and cluster subspaces: the algebra of site functions, correlation functions and
    their ids, [smol/cofe/space/orbit.py], [smol/cofe/space/clusterspace.py], and of the
    coefficients of an expansion, [smol/cofe/expansion.py].

    Geometry is not modelled: an orbit has a key that stands for its base cluster, the number of
    its clusters and the site permutations of its base cluster. *)
From Verif Require Export Evaluator.
Set Implicit Arguments.
Open Scope nat_scope.

(** ** Bit combinations *)
(** [itertools.product]. *)
Fixpoint cart (ls : list (list nat)) : list (list nat) :=
  match ls with [] => [[]] | l :: ls' => flat_map (fun x => map (cons x) (cart ls')) l end.
(** [bit_combo[permutation]]. *)
Definition permute (bits p : list nat) : option (list nat) := opt_map (nth_error bits) p.
(** [np.unique(rows, axis=0)]: distinct rows in lexicographic order. *)
Fixpoint row_cmp (a b : list nat) : comparison :=
  match a, b with
  | [], [] => Eq | [], _ => Lt | _, [] => Gt
  | x :: a', y :: b' => match x ?= y with Eq => row_cmp a' b' | c => c end
  end.
Fixpoint insert_row (r : list nat) (l : list (list nat)) : list (list nat) :=
  match l with
  | [] => [r]
  | x :: l' => match row_cmp r x with Lt => r :: l | Eq => l | Gt => x :: insert_row r l' end
  end.
Definition unique_rows (rows : list (list nat)) : list (list nat) := fold_right insert_row [] rows.
(** [np.array_equal]. *)
Fixpoint row_eqb (a b : list nat) : bool :=
  match a, b with [], [] => true | x :: a', y :: b' => (x =? y) && row_eqb a' b' | _, _ => false end.
(** [Orbit.bit_combos], orbit.py:133-149. *)
Definition combo_step (perms : list (list nat)) (acc : option (list (list (list nat)))) (bc : list nat) : option (list (list (list nat))) :=
  let? all := acc in
  if existsb (row_eqb bc) (concat all) then Some all
  else let? rows := opt_map (permute bc) perms in Some (all ++ [unique_rows rows]).
Definition gen_combos (bits perms : list (list nat)) : option (list (list (list nat))) :=
  fold_left (combo_step perms) (cart bits) (Some []).

(** ** Orbits *)
(** [s_basis]: [basis_arrays], orbit.py:206-210, one array per site with one row per function. *)
Record sorbit := mkS {
  s_key : nat; s_mult : nat; s_basis : list (list (list Qc)); s_combos : list (list (list nat)); s_id : nat; s_bit : nat
}.
Definition with_combos (o : sorbit) (cs : list (list (list nat))) : sorbit := mkS (s_key o) (s_mult o) (s_basis o) cs (s_id o) (s_bit o).
(** [len(orbit)], orbit.py:490-495. *)
Definition s_len (o : sorbit) : nat := length (s_combos o).
(** [bit_combo_multiplicities], orbit.py:156-159. *)
Definition combo_mults (o : sorbit) : list nat := map (@length _) (s_combos o).
(** Sizes of the tensor axes: [basis.shape[1]]. *)
Definition s_dims (o : sorbit) : list nat := map (fun b => length (hd [] b)) (s_basis o).
(** The flattened outer product, orbit.py:234-237 and 245-258. *)
Fixpoint outer (vs : list (list Qc)) : list Qc :=
  match vs with [] => [1%Qc] | v :: vs' => flat_map (fun x => map (Qcmult x) (outer vs')) v end.
(** [basis_arrays[i][b] for i, b in enumerate(bits)]; bits of another length than the cluster do not occur. *)
Fixpoint pick_rows (basis : list (list (list Qc))) (bits : list nat) : option (list (list Qc)) :=
  match basis, bits with
  | [], [] => Some []
  | B :: basis', b :: bits' => let? r := nth_error B b in let? rs := pick_rows basis' bits' in Some (r :: rs)
  | _, _ => None
  end.
Definition combo_tensor (basis : list (list (list Qc))) (n : nat) (combos : list (list nat)) : option (list Qc) :=
  let? ts := opt_map (fun bits => let? rs := pick_rows basis bits in Some (outer rs)) combos in
  Some (map (fun x => x / Qc_of_nat (length combos))%Qc (fold_left qvadd ts (repeat (Q2Qc 0) n))).
(** [correlation_tensors], orbit.py:212-242, with [flat_correlation_tensors]: one flattened tensor per function. *)
Definition correlation_tensors (o : sorbit) : option (list (list Qc)) :=
  opt_map (combo_tensor (s_basis o) (fold_right Nat.mul 1 (s_dims o))) (s_combos o).
(** [get_orbit_data], utils/cluster/__init__.py:4-15, for one orbit. *)
Definition orbit_data (o : sorbit) : option orbit :=
  let? ts := correlation_tensors o in Some (mkOrbit (s_id o) (s_bit o) ts (flat_tensor_indices (s_dims o))).
(** [remove_bit_combos_by_inds], orbit.py:317-333.  [inds] is not empty.  [None] in the first component is the
    error for indices out of range, the boolean tells that the orbit is left without functions
    (RuntimeError after the assignment). *)
Fixpoint drop_at {A} (inds : list nat) (n : nat) (l : list A) : list A :=
  match l with [] => [] | x :: l' => if existsb (Nat.eqb n) inds then drop_at inds (S n) l' else x :: drop_at inds (S n) l' end.
Definition remove_combos (inds : list nat) (o : sorbit) : option (sorbit * bool) :=
  if existsb (fun i => s_len o <=? i) inds then None
  else let cs := drop_at inds 0 (s_combos o) in Some (with_combos o cs, length cs =? 0).
(** [assign_ids], orbit.py:468-488. *)
Definition assign_ids (c : nat * nat * nat) (o : sorbit) : sorbit * (nat * nat * nat) :=
  let '(i, b, k) := c in (mkS (s_key o) (s_mult o) (s_basis o) (s_combos o) i b, (S i, b + s_len o, k + s_mult o)).

(** [IndicatorBasis], basis.py:364-388: one function per species, an indicator of it. *)
Definition indicator (d : nat) : list (list Qc) := map (fun i => map (fun j => if i =? j then 1%Qc else 0%Qc) (seq 0 d)) (seq 0 d).
(** An orbit of [PottsSubspace] before the last function is removed, clusterspace.py:1908-1957, for the numbers of
    species and the site permutations of its base cluster. *)
Definition potts_orbit (key mult : nat) (dims : list nat) (perms : list (list nat)) : option sorbit :=
  let? cs := gen_combos (map (seq 0) dims) perms in Some (mkS key mult (map indicator dims) cs 0 0).

(** ** Cluster subspaces *)
Definition scmatrix := list (list Z).
(** The dictionary of orbits is kept in ascending order of sizes (Python sorts the keys at each use).
    [sub_eval] is what the evaluator was last given: the data of these orbits and the two numbers;
    [sub_cache] the cached cluster tables by key. *)
Record subspace := mkSub {
  sub_items : list (nat * list sorbit); sub_norb : nat; sub_ncorr : nat; sub_nclus : nat;
  sub_eval : list sorbit * nat * nat; sub_cache : list (scmatrix * list ctable)
}.
(** [orbits], clusterspace.py:358-360. *)
Definition orbits_of (items : list (nat * list sorbit)) : list sorbit := flat_map snd items.
Definition sub_orbits (st : subspace) : list sorbit := orbits_of (sub_items st).
(** [_assign_orbit_ids], clusterspace.py:1210-1223. *)
Fixpoint assign_list (c : nat * nat * nat) (os : list sorbit) : list sorbit * (nat * nat * nat) :=
  match os with [] => ([], c) | o :: os' => let (o', c') := assign_ids c o in let (r, c'') := assign_list c' os' in (o' :: r, c'') end.
Fixpoint assign_items (c : nat * nat * nat) (items : list (nat * list sorbit)) : list (nat * list sorbit) * (nat * nat * nat) :=
  match items with
  | [] => ([], c)
  | (k, os) :: items' => let (os', c') := assign_list c os in let (r, c'') := assign_items c' items' in ((k, os') :: r, c'')
  end.
(** Assigning ids and resetting the evaluator with [get_orbit_data(self.orbits)]. *)
Definition reset_sub (items : list (nat * list sorbit)) (cache : list (scmatrix * list ctable)) : subspace :=
  let (items', c) := assign_items (1, 1, 1) items in
  mkSub items' (fst (fst c)) (snd (fst c)) (snd c) (orbits_of items', fst (fst c), snd (fst c)) cache.
(** The constructor, clusterspace.py:196-214. *)
Definition new_sub (items : list (nat * list sorbit)) : subspace := reset_sub items [].
(** [remove_orbits], clusterspace.py:972-1028 (ids are natural numbers: the test for negative ids is void;
    the minimum of no ids raises). *)
Definition remove_orbits (ids : list nat) (st : subspace) : option subspace :=
  if length ids =? 0 then None
  else if existsb (Nat.eqb 0) ids then None
  else if existsb (fun i => sub_norb st <=? i) ids then None
  else
    let kept := map (fun kv => (fst kv, filter (fun o => negb (existsb (Nat.eqb (s_id o)) ids)) (snd kv))) (sub_items st) in
    Some (reset_sub (filter (fun kv => negb (length (snd kv) =? 0)) kept) []).
(** [remove_corr_functions], clusterspace.py:1030-1076.  The loop over orbits changes each orbit in place. *)
Definition corr_in (ids : list nat) (o : sorbit) : list nat :=
  map (fun i => i - s_bit o) (filter (fun i => (s_bit o <=? i) && (i <? s_bit o + s_len o)) ids).
Definition strip_orbit (ids : list nat) (o : sorbit) : option (sorbit * bool) :=
  match corr_in ids o with [] => Some (o, false) | inds => remove_combos inds o end.
Definition strip_items (ids : list nat) (items : list (nat * list sorbit)) : option (list (nat * list (sorbit * bool))) :=
  opt_map (fun kv => let? os := opt_map (strip_orbit ids) (snd kv) in Some (fst kv, os)) items.
Definition remove_corr (ids : list nat) (st : subspace) : option subspace :=
  let? sitems := strip_items ids (sub_items st) in
  let items := map (fun kv => (fst kv, map fst (snd kv))) sitems in
  let empty := flat_map (fun kv => map (fun p : sorbit * bool => s_id (fst p)) (filter (fun p => snd p) (snd kv))) sitems in
  match empty with
  | [] => Some (reset_sub items (sub_cache st))
  | _ => remove_orbits empty (mkSub items (sub_norb st) (sub_ncorr st) (sub_nclus st) (sub_eval st) (sub_cache st))
  end.
(** [change_site_bases] and [rotate_site_basis], clusterspace.py:914-970: other basis arrays for every
    orbit, ids unchanged, evaluator reset.  How the arrays are computed is not modelled. *)
Definition with_basis (o : sorbit) (b : list (list (list Qc))) : sorbit := mkS (s_key o) (s_mult o) b (s_combos o) (s_id o) (s_bit o).
Definition change_bases (f : sorbit -> list (list (list Qc))) (st : subspace) : subspace :=
  let items := map (fun kv => (fst kv, map (fun o => with_basis o (f o)) (snd kv))) (sub_items st) in
  mkSub items (sub_norb st) (sub_ncorr st) (sub_nclus st) (orbits_of items, sub_norb st, sub_ncorr st) (sub_cache st).

(** Cached cluster tables, [get_orbit_indices], clusterspace.py:1225-1240.  [gen] stands for
    [_gen_orbit_indices] (geometry) for one orbit. *)
Fixpoint zrow_cmp (a b : list Z) : comparison :=
  match a, b with
  | [], [] => Eq | [], _ => Lt | _, [] => Gt
  | x :: a', y :: b' => match Z.compare x y with Eq => zrow_cmp a' b' | c => c end
  end.
Fixpoint insert_zrow (r : list Z) (l : scmatrix) : scmatrix :=
  match l with [] => [r] | x :: l' => match zrow_cmp r x with Gt => x :: insert_zrow r l' | _ => r :: l end end.
Definition sort_rows (m : scmatrix) : scmatrix := fold_right insert_zrow [] m.
Fixpoint zrow_eqb (a b : list Z) : bool :=
  match a, b with [], [] => true | x :: a', y :: b' => Z.eqb x y && zrow_eqb a' b' | _, _ => false end.
Fixpoint mat_eqb (a b : scmatrix) : bool :=
  match a, b with [], [] => true | x :: a', y :: b' => zrow_eqb x y && mat_eqb a' b' | _, _ => false end.
Definition orbit_indices (gen : scmatrix -> nat -> ctable) (m : scmatrix) (st : subspace) : list ctable * subspace :=
  let key := sort_rows m in
  match find (fun kv => mat_eqb (fst kv) key) (sub_cache st) with
  | Some kv => (snd kv, st)
  | None =>
      let t := map (fun o => gen m (s_key o)) (sub_orbits st) in
      (t, mkSub (sub_items st) (sub_norb st) (sub_ncorr st) (sub_nclus st) (sub_eval st) ((key, t) :: sub_cache st))
  end.

(** ** Ids and multiplicities *)
(** [function_orbit_ids], clusterspace.py:400-411. *)
Definition function_orbit_ids (os : list sorbit) : list nat := 0 :: flat_map (fun o => repeat (s_id o) (s_len o)) os.
(** [orbit_multiplicities], clusterspace.py:382-386. *)
Definition orbit_multiplicities (os : list sorbit) : list nat := 1 :: map s_mult os.
(** [function_ordering_multiplicities] and [function_total_multiplicities], clusterspace.py:421-450. *)
Definition ordering_multiplicities (os : list sorbit) : list nat := 1 :: flat_map combo_mults os.
Definition total_multiplicities (os : list sorbit) : option (list nat) :=
  let? ms := opt_map (nth_error (orbit_multiplicities os)) (function_orbit_ids os) in
  Some (map (fun p => fst p * snd p) (combine ms (ordering_multiplicities os))).

(** ** Expansions *)
(** [eci], expansion.py:172-183, for coefficients followed by [next] external terms.  Arrays of different
    lengths cannot be divided, except that one of length 1 is repeated. *)
Definition eci (os : list sorbit) (coefs : list Qc) (next : nat) : option (list Qc) :=
  let? ms := total_multiplicities os in
  let cs := firstn (length coefs - next) coefs in
  if length cs =? length ms then Some (qmap2 Qcdiv cs (map Qc_of_nat ms))
  else match cs, ms with
       | [c], _ => Some (map (fun m => c / Qc_of_nat m)%Qc ms)
       | _, [m] => Some (map (fun c => c / Qc_of_nat m)%Qc cs)
       | _, _ => None
       end.
(** [cluster_interaction_tensors], expansion.py:186-201: the offset and one flattened tensor per orbit. *)
Definition interaction_tensor (e : list Qc) (o : sorbit) : option (list Qc) :=
  let? ts := correlation_tensors o in
  let? rows := opt_map (fun p => let? x := nth_error e (s_bit o + fst p) in
                                 Some (qvscale (Qc_of_nat (fst (snd p)) * x) (snd (snd p))))
                       (combine (seq 0 (length ts)) (combine (combo_mults o) ts)) in
  match rows with [] => None | _ => Some (fold_left qvadd rows (repeat (Q2Qc 0) (length (hd [] rows)))) end.
Definition interaction_tensors (os : list sorbit) (coefs : list Qc) (next : nat) : option (Qc * list (list Qc)) :=
  let? c0 := nth_error coefs 0 in
  let? e := eci os coefs next in
  let? ts := opt_map (interaction_tensor e) os in
  Some (c0, ts).
(** The processors for an expansion on a supercell, processor/expansion.py:92-111 and 283-316.  The expansion processor
    does not hold interaction tensors, but its methods do not look at them. *)
Definition expansion_proc (size : nat) (st : subspace) (tables : list ctable) (coefs : list Qc) (next : nat) : option proc :=
  let os := sub_orbits st in
  let? it := interaction_tensors os coefs next in
  let? ds := opt_map orbit_data os in
  Some (mkProc size (mkEval ds (sub_norb st) (sub_ncorr st) (fst it) (snd it)) tables).

(** ** Serialization *)
(** [as_dict], clusterspace.py:1608-1633 and orbit.py:539-557: what is stored of an orbit, and
    [from_dict], clusterspace.py:1545-1606, orbit.py:512-537: ids are assigned anew, the cache restored (as far as it can be read, see [sub_load]). *)
Definition sub_dict := (list (nat * list (nat * nat * list (list (list Qc)) * list (list (list nat)))) * list (scmatrix * list ctable))%type.
Definition sub_as_dict (st : subspace) : sub_dict :=
  (map (fun kv => (fst kv, map (fun o => (s_key o, s_mult o, s_basis o, s_combos o)) (snd kv))) (sub_items st), sub_cache st).
Definition sub_from_dict (d : sub_dict) : subspace :=
  reset_sub (map (fun kv => (fst kv, map (fun q => mkS (fst (fst (fst q))) (snd (fst (fst q))) (snd (fst q)) (snd q) 0 0) (snd kv))) (fst d)) (snd d).
(** Reading the cached tables, clusterspace.py:1583-1595: [indices[0][0]] raises IndexError for a cached supercell without tables, or with no clusters in the first. *)
Definition readable (c : scmatrix * list ctable) : bool := match snd c with (_ :: _) :: _ => true | _ => false end.
Definition sub_load (d : sub_dict) : option subspace := if forallb readable (snd d) then Some (sub_from_dict d) else None.
(** [PottsSubspace.from_dict], clusterspace.py:1980-1992: the last function of every orbit is removed again and ids
    are assigned, without resetting the evaluator. *)
Definition drop_last_combo (o : sorbit) : option sorbit :=
  let? r := remove_combos [s_len o - 1] o in if snd r then None else Some (fst r).
Definition potts_from_dict (d : sub_dict) (wo_last : bool) : option subspace :=
  let? st := sub_load d in
  let? items := if wo_last then opt_map (fun kv => let? os := opt_map drop_last_combo (snd kv) in Some (fst kv, os)) (sub_items st)
                else Some (sub_items st) in
  let (items', c) := assign_items (1, 1, 1) items in
  Some (mkSub items' (fst (fst c)) (snd (fst c)) (snd c) (sub_eval st) (sub_cache st)).
