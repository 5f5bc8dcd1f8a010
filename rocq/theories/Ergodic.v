(** Model of the flip table utilities of [smol/utils/math.py] and of [basis], [flip_table] and
    [get_composition_grid] of [smol/moca/composition/space.py].

    Integers are unbounded.  [np.linalg.matrix_rank] and scipy's [KDTree.query] are oracles. *)
From Verif Require Export NatSol CompSpace.
Set Implicit Arguments.
Open Scope Z_scope.

(** [flip_size], math.py:567-589; [None] is the ValueError of line 588. *)
Definition flip_size (u : list Z) : option Z :=
  if negb (zsum u =? 0) then None else Some (zsum (filter (fun x => 0 <? x) u)).

Definition row_dec := list_eq_dec Z.eq_dec.
Definition row_mem (r : list Z) (l : list (list Z)) : bool := existsb (fun x => if row_dec r x then true else false) l.
(** [count_row_matches], math.py:592-606: the size of the intersection of two sets of rows. *)
Definition count_row_matches (a1 a2 : list (list Z)) : nat := length (filter (fun r => row_mem r a2) (nodup row_dec a1)).
(** [connectivity], math.py:609-636. *)
Definition connectivity (u : list Z) (ns : list (list Z)) : nat := count_row_matches ns (map (fun n => vadd n u) ns).
(** [is_connected], math.py:639-656; [np.isclose] compares exactly (it has a relative tolerance of 1e-5). *)
Definition is_connected (n : list Z) (vs ns : list (list Z)) : bool :=
  existsb (fun v => row_mem (vadd v n) ns) (vs ++ map vopp vs).

(** A row of [xs @ vs + n0], math.py:709, 794 and space.py:486. *)
Definition lattice_point (n0 : list Z) (vs : list (list Z)) (x : list Z) : list Z :=
  fold_right (fun p acc => vadd (vscale (fst p) (snd p)) acc) n0 (combine x vs).

(** ** [get_optimal_basis], math.py:659-747 *)
(** The pairs of [combinations(list(range(n)), 2)] with their sum and difference, lines 730-731.
    The table has [n] rows, so the indices are those of the table before it grows. *)
Fixpoint pair_vectors (vs : list (list Z)) : list (list Z) :=
  match vs with
  | [] => []
  | v :: vs' => concat (map (fun w => [vadd v w; vadd v (vopp w)]) vs') ++ pair_vectors vs'
  end.
(** [key_func], lines 712-713. *)
Definition opt_key (ns : list (list Z)) (u : list Z) : option (Z * Z) :=
  let? s := flip_size u in Some (s, - Z.of_nat (connectivity u ns)).
Definition key_leb (a b : Z * Z) : bool := (fst a <? fst b) || ((fst a =? fst b) && (snd a <=? snd b)).
(** [sorted(V, key=key_func)], line 733. *)
Definition sorted_vectors (ns V : list (list Z)) : option (list (list Z)) :=
  let? keyed := opt_map (fun u => let? k := opt_key ns u in Some (k, u)) V in
  Some (map snd (sort_by (fun a b => key_leb (fst a) (fst b)) keyed)).
(** The loop of lines 735-741; [rank] is [np.linalg.matrix_rank], rows have [d] entries. *)
Fixpoint select (rank : list (list Z) -> nat) (n d : nat) (new V : list (list Z)) : list (list Z) :=
  match V with
  | [] => new
  | u :: V' =>
      if Nat.eqb (length new) n then new
      else let cur := new ++ [u] in
           select rank n d (if Nat.eqb (rank cur) (Nat.min (length cur) d) then cur else new) V'
  end.
(** [standardize_table] and [table_match], lines 716-726; the rows have the same length. *)
Definition standardize_row (v : list Z) : list Z := match v with x :: _ => if 0 <=? x then v else vopp v | [] => v end.
Definition table_match (V1 V2 : list (list Z)) : bool :=
  Nat.eqb (length V1) (length V2) &&
  Nat.eqb (count_row_matches (map standardize_row V1) (map standardize_row V2)) (length V1).
(** The loop of lines 728-745. *)
Fixpoint opt_loop (rank : list (list Z) -> nat) (n d : nat) (ns : list (list Z)) (fuel : nat) (cur : list (list Z)) : option (list (list Z)) :=
  match fuel with
  | O => Some cur
  | S fuel' =>
      let? V := sorted_vectors ns (cur ++ pair_vectors cur) in
      let new := select rank n d [] V in
      if table_match new cur then Some cur else opt_loop rank n d ns fuel' new
  end.
Definition get_optimal_basis (rank : list (list Z) -> nat) (n0 : list Z) (vs xs : list (list Z)) (max_loops : nat) : option (list (list Z)) :=
  opt_loop rank (length vs) (length n0) (map (lattice_point n0 vs) xs) max_loops vs.

(** ** [get_ergodic_vectors], math.py:750-829 *)
(** [knn ns n k] is [KDTree(ns).query(n, k=k)]: pairs of a squared distance ([None] when infinite) and an index. *)
Definition knn_oracle := list (list Z) -> list Z -> nat -> list (option Z * nat).
(** Lines 804-807; [None] is the IndexError of line 807. *)
Definition near_points (knn : knn_oracle) (ns : list (list Z)) (k : nat) (n : list Z) : option (list (list Z)) :=
  let found := knn ns n k in
  let found := match found with (Some 0, _) :: rest => rest | _ => found end in
  opt_map (fun p => nth_error ns (snd p)) found.
(** Lines 808-815. *)
Definition add_candidate (n : list Z) (cands : list (list Z)) (point : list Z) : list (list Z) :=
  let u := vadd point (vopp n) in
  if row_mem u cands || row_mem (vopp u) cands then cands else cands ++ [u].
(** The loop of lines 803-815. *)
Fixpoint candidates (knn : knn_oracle) (ns : list (list Z)) (k : nat) (todo cands : list (list Z)) : option (list (list Z)) :=
  match todo with
  | [] => Some cands
  | n :: todo' =>
      let? points := near_points knn ns k n in
      candidates knn ns k todo' (fold_left (add_candidate n) points cands)
  end.
(** [sorted(candidate_vectors, key=candidate_key)], line 817. *)
Definition sorted_candidates (cands : list (list Z)) : option (list (list Z)) :=
  let? keyed := opt_map (fun u => let? s := flip_size u in Some (s, u)) cands in
  Some (map snd (sort_by (fun a b => fst a <=? fst b) keyed)).
(** The loop of lines 821-827. *)
Fixpoint extend_table (ns cands selected rem : list (list Z)) : list (list Z) :=
  match cands with
  | [] => selected
  | u :: cands' =>
      let selected := selected ++ [u] in
      let rem := filter (fun n => negb (is_connected n selected ns)) rem in
      match rem with [] => selected | _ :: _ => extend_table ns cands' selected rem end
  end.
(** For [k <= 1] the query returns scalars and line 805 raises a TypeError. *)
Definition get_ergodic_vectors (knn : knn_oracle) (n0 : list Z) (vs xs : list (list Z)) (k : nat) : option (list (list Z)) :=
  let ns := map (lattice_point n0 vs) xs in
  match filter (fun n => negb (is_connected n vs ns)) ns with
  | [] => Some vs
  | disconnected =>
      if (k <=? 1)%nat then None
      else let? cands := candidates knn ns k disconnected [] in
           let? cands := sorted_candidates cands in
           Some (extend_table ns cands vs disconnected)
  end.

(** ** The composition space *)
(** [basis], space.py:372-401, for the minimal supercell size [min_size] and the flag [optimize_basis]. *)
Definition space_basis (rank : list (list Z) -> nat) (lp : list Z -> list (list Z) -> option (Q * Q)) (tol : Q)
  (sp : cspace) (min_size : Z) (optimize : bool) : option (list (list Z)) :=
  let? (n0, vs) := solve_at sp min_size in
  if optimize then let? xs := natural lp tol 1 n0 vs in get_optimal_basis rank n0 vs xs 100 else Some vs.

(** A stored grid of coordinates: [_comp_grids], keyed by supercell size and step. *)
Definition grid_cache := list ((Z * Z) * list (list Z)).
(** The loop of space.py:460-469: the first stored grid of the same size-to-step ratio that divides the request. *)
Definition find_grid (size step : Z) (cache : grid_cache) : option (Z * list (list Z)) :=
  option_map (fun e => (size / fst (fst e), snd e))
    (find (fun e => (size mod fst (fst e) =? 0) && (step mod snd (fst e) =? 0) && (size / fst (fst e) =? step / snd (fst e))) cache).
Definition scale_grid (s : Z) (grid : list (list Z)) : list (list Z) := map (vscale s) grid.
(** The filter of lines 486-493; each inequality is a row of coefficients and a bound per primitive cell. *)
Definition leq_ok (sp : cspace) (size : Z) (n : list Z) : bool :=
  forallb (fun c => Qcleb (qdot (fst c) (map Qc_of_Z n) / Qc_of_Z size)%Qc (snd c + num_tol)%Qc) (cs_leq sp).
(** Lines 483-497, with the basis [vs]. *)
Definition enumerate_grid (lp : list Z -> list (list Z) -> option (Q * Q)) (tol : Q) (sp : cspace) (vs : list (list Z))
  (size step : Z) (cache : grid_cache) : option (list (list Z) * grid_cache) :=
  let? n0 := base_solution sp size in
  let? grid := natural lp tol step n0 vs in
  let grid := filter (fun x => leq_ok sp size (lattice_point n0 vs x)) grid in
  Some (grid, cache ++ [((size, step), grid)]).
(** [get_composition_grid], space.py:441-497.  The recursive call of line 477 has coprime arguments,
    so that it does not call itself again; it looks into the store first. *)
Definition get_composition_grid (lp : list Z -> list (list Z) -> option (Q * Q)) (tol : Q) (sp : cspace) (vs : list (list Z))
  (size step : Z) (cache : grid_cache) : option (list (list Z) * grid_cache) :=
  match find_grid size step cache with
  | Some (s, grid) => Some (scale_grid s grid, cache)
  | None =>
      let s := Z.gcd size step in
      if 1 <? s then
        match find_grid (size / s) (step / s) cache with
        | Some (s', grid) => Some (scale_grid s (scale_grid s' grid), cache)
        | None =>
            let? (grid, cache) := enumerate_grid lp tol sp vs (size / s) (step / s) cache in
            Some (scale_grid s grid, cache)
        end
      else enumerate_grid lp tol sp vs size step cache
  end.
(** [flip_table], space.py:403-429; the grid is that of the minimal supercell (space.py:499-507). *)
Definition flip_table (knn : knn_oracle) (lp : list Z -> list (list Z) -> option (Q * Q)) (tol : Q) (sp : cspace) (vs : list (list Z))
  (min_size : Z) (ergodic : bool) (cache : grid_cache) : option (list (list Z)) :=
  if negb ergodic then Some vs
  else let? n0 := base_solution sp min_size in
       let? (grid, _) := get_composition_grid lp tol sp vs min_size 1 cache in
       get_ergodic_vectors knn n0 vs grid 3.
