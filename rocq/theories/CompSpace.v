(** Composition spaces (smol/moca/composition/space.py).

    Simplifications: numbers are exact rationals and integers are unbounded.  The oxidation states of the
    species, pymatgen's order on species, the rank and the pseudo-inverse of numpy, and the minimal supercell size (from the
    vertices that the polytope package finds) are parameters.  [optimize_basis] and [table_ergodic] are left out. *)
From Verif Require Export Constraints Rationalize NatSol.
Set Implicit Arguments.
Open Scope Z_scope.

(** [NUM_TOL] and the default [max_denominator], math.py:28, 61. *)
Definition num_tol : Qc := Qc_frac 1 1000000.
Definition max_den : Z := 1000.
Definition integerize (v : list Qc) : option (list Z * Z) := integerize_vector max_den num_tol v.

Record cspace := mkCS {
  cs_bits : list (list species); cs_sizes : list Z;
  cs_A : list (list Z); cs_b : list Qc;       (* equations, per primitive cell *)
  cs_leq : list (list Qc * Qc) }.             (* inequalities, per primitive cell *)
Definition cs_dims (bits : list (list species)) : nat := list_sum (map (@length species) bits).
Definition cs_dim_ids (bits : list (list species)) : list (list nat) := get_dim_ids_by_sublattice (map (@length species) bits).

(** The rows of the equations, space.py:253-275. *)
Definition size_row (nd : nat) (ds : list nat) : list Z := map (fun i => if memb i ds then 1 else 0) (seq 0 nd).
Definition eq_row (nd : nat) (c : list Qc * Qc) : option (list Z * Qc) :=
  if Nat.eqb (length (fst c)) nd then
    let? (_, scale) := integerize (fst c) in
    Some (map (fun x => qround (x * Qc_of_Z scale)%Qc) (fst c), (snd c * Qc_of_Z scale)%Qc)
  else None.
(** [CompositionSpace.__init__], space.py:116-295; [None] is a ValueError. *)
Definition equations (oxi : species -> Z) (bits : list (list species)) (sizes : list Z) (neutral : bool) (eqs : list (list Qc * Qc)) : option (list (list Z * Qc)) :=
  let? others := opt_map (eq_row (cs_dims bits)) eqs in
  Some ((if neutral then [(map oxi (concat bits), 0%Qc)] else []) ++
        map (fun p => (size_row (cs_dims bits) (fst p), Qc_of_Z (snd p))) (combine (cs_dim_ids bits) sizes) ++ others).
Definition make_space (oxi : species -> Z) (rank : list (list Z) -> nat) (bits : list (list species)) (sizes : option (list Z)) (neutral : bool) (other : option (list entry)) : option cspace :=
  let sizes := match sizes with Some s => s | None => map (fun _ => 1) bits end in
  if negb (Nat.eqb (length sizes) (length bits)) then None
  else
    let? attr := assign bits None other in
    let c := match attr with Some c => c | None => mkCL [] [] end in
    let? rows := equations oxi bits sizes neutral (cl_eq c) in
    if (cs_dims bits <=? rank (map fst rows))%nat then None
    else Some (mkCS bits sizes (map fst rows) (map snd rows) (cl_leq c)).

(** [solve_diophantines(self._A, np.round(self._b * m))], space.py:365-367 and 384-386. *)
Definition solve_at (sp : cspace) (m : Z) : option (list Z * list (list Z)) :=
  solve_diophantines (length (cs_A sp)) (cs_dims (cs_bits sp)) (cs_A sp) (Some (map (fun b => qround (b * Qc_of_Z m)%Qc) (cs_b sp))).
(** [get_supercell_base_solution], space.py:340-370; the stored [_n0] is always the result of the same call. *)
Definition base_solution (sp : cspace) (size : Z) : option (list Z) :=
  let? (_, m) := integerize (cs_b sp) in
  if negb (size mod m =? 0) then None
  else let? (n0, _) := solve_at sp m in Some (map (fun x => x * size / m) n0).
(** [basis], space.py:372-401, for the minimal supercell size [min_size]. *)
Definition basis (sp : cspace) (min_size : Z) : option (list (list Z)) :=
  let? (_, vs) := solve_at sp min_size in Some vs.

(** ** Formats *)
Inductive format := Counts | Coords | Comps | SpeciesCounts.
Inductive cvalue := Vec (v : list Qc) | CompList (c : list composition).

(** pymatgen's [Composition(dict)]: negative amounts raise, tiny ones are dropped. *)
Definition amount_tol : Qc := Qc_frac 1 100000000.
Definition make_composition (l : list (species * Qc)) : option composition :=
  if existsb (fun p => Qcltb (snd p) (- amount_tol)) l then None
  else Some (filter (fun p => Qcleb amount_tol (qabs (snd p))) l).
Definition comp_get (c : composition) (sp : species) : Qc :=
  match find (fun p => sp_eqb (fst p) sp) c with Some p => snd p | None => 0%Qc end.
(** The counts of a sublattice, space.py:595-623. *)
Fixpoint sublattice_counts (comp : composition) (size : Qc) (vac_counted : bool) (sps : list species) : option (list Qc) :=
  match sps with
  | [] => Some []
  | sp :: sps' =>
      if is_vac sp then
        if vac_counted then None
        else let? r := sublattice_counts comp size true sps' in
             Some (((1 - num_atoms (filter (fun p => negb (is_vac (fst p))) comp)) * size)%Qc :: r)
      else let? r := sublattice_counts comp size vac_counted sps' in Some ((comp_get comp sp * size)%Qc :: r)
  end.
Fixpoint comp_counts (bits : list (list species)) (sizes : list Z) (size : Z) (c : list composition) : option (list Qc) :=
  match bits, sizes, c with
  | sps :: bits', s :: sizes', comp :: c' =>
      if Qcltb 1 (num_atoms comp) || Qcltb (num_atoms comp) 0 then None
      else let? r := sublattice_counts comp (Qc_of_Z s * Qc_of_Z size)%Qc false sps in
           let? rs := comp_counts bits' sizes' size c' in Some (r ++ rs)
  | _, _, _ => Some []
  end.
(** Rounding, space.py:628-632 and 673-677. *)
Definition round_all (v : list Qc) : option (list Qc) :=
  if existsb (fun x => Qcltb num_tol (qabs (Qc_of_Z (qround x) - x))) v then None else Some (map (fun x => Qc_of_Z (qround x)) v).
(** [V.T @ x + n0]. *)
Definition from_coords (nd : nat) (vs : list (list Z)) (n0 : list Z) (x : list Qc) : option (list Qc) :=
  if Nat.eqb (length x) (length vs) then
    Some (map (fun i => (qsum (map (fun p => fst p * Qc_of_Z (nth i (snd p) 0%Z)) (combine x vs)) + Qc_of_Z (nth i n0 0%Z))%Qc) (seq 0 nd))
  else None.
(** [_convert_to_counts], space.py:582-634. *)
Definition to_counts (sp : cspace) (min_size : Z) (form : format) (size : Z) (rounding : bool) (c : cvalue) : option (list Qc) :=
  let? n := match form, c with
            | Counts, Vec v => Some v
            | Coords, Vec x => let? vs := basis sp min_size in let? n0 := base_solution sp size in
                               from_coords (cs_dims (cs_bits sp)) vs n0 x
            | Comps, CompList cs => comp_counts (cs_bits sp) (cs_sizes sp) size cs
            | _, _ => None
            end in
  if rounding then round_all n else Some n.

(** The species of the whole structure, space.py:201-228. *)
Fixpoint dedup (l : list species) : list species :=
  match l with [] => [] | x :: l' => if existsb (sp_eqb x) l' then dedup l' else x :: dedup l' end.
Definition species_list (leb : species -> species -> bool) (bits : list (list species)) : list species := sort_by leb (dedup (concat bits)).
(** [c[ids] += n[dims]]: the right side is read before anything is written. *)
Definition add_fancy (c : list Qc) (ids : list nat) (xs : list Qc) : list Qc :=
  fold_left (fun c' p => upd c' (fst p) (snd p)) (combine ids (map (fun p => (nth (fst p) c 0 + snd p)%Qc) (combine ids xs))) c.
Definition species_counts (species : list species) (bits : list (list Domain.species)) (n : list Qc) : option (list Qc) :=
  fold_left (fun c p =>
      let? c' := c in
      let? ids := opt_map (fun sp => sp_index sp species) (fst p) in
      let? xs := opt_map (nth_error n) (snd p) in
      Some (add_fancy c' ids xs)) (combine bits (cs_dim_ids bits)) (Some (repeat 0%Qc (length species))).
(** The compositions of the sublattices, space.py:651-665. *)
Fixpoint comps_of (bits : list (list species)) (sizes : list Z) (dims : list (list nat)) (size : Z) (n : list Qc) : option (list composition) :=
  match bits, sizes, dims with
  | sps :: bits', s :: sizes', ds :: dims' =>
      let? xs := opt_map (nth_error n) ds in
      let? c := make_composition (filter (fun p => negb (is_vac (fst p))) (combine sps (map (fun x => (x / (Qc_of_Z s * Qc_of_Z size))%Qc) xs))) in
      let? cs := comps_of bits' sizes' dims' size n in Some (c :: cs)
  | _, _, _ => Some []
  end.
(** The checks, space.py:637-644; a vector of the wrong length cannot be multiplied. *)
Definition counts_ok (sp : cspace) (size : Z) (n : list Qc) : bool :=
  Nat.eqb (length n) (cs_dims (cs_bits sp)) &&
  negb (existsb (fun x => Qcltb x (- num_tol)) n) &&
  forallb (fun p => Qcleb (qabs (qdot (map Qc_of_Z (fst p)) (map (fun x => (x / Qc_of_Z size)%Qc) n) - snd p)) num_tol) (combine (cs_A sp) (cs_b sp)).
(** [_convert_counts_to], space.py:636-678; [pinv vs] is the pseudo-inverse of the transpose of [vs]. *)
Definition counts_to (pinv : list (list Z) -> list (list Qc)) (leb : species -> species -> bool) (sp : cspace) (min_size : Z) (form : format) (size : Z) (rounding : bool) (n : list Qc) : option cvalue :=
  if negb (counts_ok sp size n) then None
  else
    let vec (o : option (list Qc)) := let? v := o in if rounding then let? r := round_all v in Some (Vec r) else Some (Vec v) in
    match form with
    | Counts => vec (Some n)
    | Coords => vec (let? n0 := base_solution sp size in let? vs := basis sp min_size in
                     let dn := qmap2 Qcminus n (map Qc_of_Z n0) in Some (map (fun row => qdot row dn) (pinv vs)))
    | Comps => let? cs := comps_of (cs_bits sp) (cs_sizes sp) (cs_dim_ids (cs_bits sp)) size n in Some (CompList cs)
    | SpeciesCounts => vec (species_counts (species_list leb (cs_bits sp)) (cs_bits sp) n)
    end.
(** [translate_format], space.py:529-580. *)
Definition translate (pinv : list (list Z) -> list (list Qc)) (leb : species -> species -> bool) (sp : cspace) (min_size : Z) (from to : format) (size : Z) (rounding : bool) (c : cvalue) : option cvalue :=
  let? n := to_counts sp min_size from size rounding c in
  counts_to pinv leb sp min_size to size rounding n.
