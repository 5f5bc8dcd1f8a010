(** What a composition space remembers, and its dictionary (smol/moca/composition/space.py).

    Simplifications: as in CompSpace.v and Ergodic.v.  The vertices that the polytope package finds, the rank of numpy,
    the linear programs and the neighbour queries are oracles that return the same for the same arguments.
    Arrays are lists, so that the shape of an array without rows is not modelled; the keys "size_step"
    of the stored grids are pairs of integers; species are kept as they are by their own dictionaries. *)
From Verif Require Export Ergodic.
Set Implicit Arguments.
Open Scope Z_scope.

(** The attributes of [CompositionSpace], space.py:196-295. *)
Record sstate := mkSS {
  ss_space : cspace; ss_neutral : bool; ss_optimize : bool; ss_ergodic : bool;
  ss_vertices : option (list (list Qc)); ss_min : option Z; ss_n0 : option (list Z);
  ss_vs : option (list (list Z)); ss_table : option (list (list Z)); ss_grids : grid_cache }.
(** The dictionary, space.py:716-731. *)
Record sdict := mkSD {
  sd_bits : list (list species); sd_sizes : list Z; sd_other : list entry; sd_neutral : bool; sd_optimize : bool; sd_ergodic : bool;
  sd_min : option Z; sd_vertices : option (list (list Qc)); sd_n0 : option (list Z);
  sd_vs : option (list (list Z)); sd_table : option (list (list Z)); sd_grids : grid_cache }.

Section Remember.
Variables (oxi : species -> Z) (rank : list (list Z) -> nat) (vertices : list (list Z) -> list Qc -> option (list (list Qc)))
  (knn : knn_oracle) (lp : list Z -> list (list Z) -> option (Q * Q)) (tol : Q).

(** [CompositionSpace.__init__], space.py:116-295: nothing is remembered. *)
Definition new_state (bits : list (list species)) (sizes : option (list Z)) (neutral : bool) (other : option (list entry)) (optimize ergodic : bool) : option sstate :=
  let? sp := make_space oxi rank bits sizes neutral other in
  Some (mkSS sp neutral optimize ergodic None None None None None []).
(** [as_dict], space.py:680-731. *)
Definition as_dict (s : sstate) : sdict :=
  let sp := ss_space s in
  let n_cons := (length (cs_bits sp) + if ss_neutral s then 1 else 0)%nat in
  let eq := map (fun p => Tuple (map Qc_of_Z (fst p)) (snd p) (Some REq)) (combine (skipn n_cons (cs_A sp)) (skipn n_cons (cs_b sp))) in
  let leq := map (fun p => Tuple (fst p) (snd p) (Some RLe)) (cs_leq sp) in
  mkSD (cs_bits sp) (cs_sizes sp) (eq ++ leq) (ss_neutral s) (ss_optimize s) (ss_ergodic s)
       (ss_min s) (ss_vertices s) (ss_n0 s) (ss_vs s) (ss_table s) (ss_grids s).
(** [from_dict], space.py:733-786; [None] is a ValueError. *)
Definition from_dict (d : sdict) : option sstate :=
  let? s := new_state (sd_bits d) (Some (sd_sizes d)) (sd_neutral d) (Some (sd_other d)) (sd_optimize d) (sd_ergodic d) in
  Some (mkSS (ss_space s) (ss_neutral s) (ss_optimize s) (ss_ergodic s) (sd_vertices d) (sd_min d) (sd_n0 d) (sd_vs d) (sd_table d) (sd_grids d)).

(** A call changes what is remembered and returns or raises ([None]); what was remembered before an exception stays. *)
Definition call (A : Type) := sstate -> sstate * option A.
Definition done {A} (x : option A) : call A := fun s => (s, x).
Definition then_ {A B} (c : call A) (f : A -> call B) : call B :=
  fun s => let (s', x) := c s in match x with Some a => f a s' | None => (s', None) end.
(** A stored attribute, or its computation and storage. *)
Definition stored {A} (get : sstate -> option A) (put : sstate -> A -> sstate) (c : call A) : call A :=
  fun s => match get s with
           | Some a => (s, Some a)
           | None => let (s', x) := c s in match x with Some a => (put s' a, Some a) | None => (s', None) end
           end.
Definition put_vertices s v := mkSS (ss_space s) (ss_neutral s) (ss_optimize s) (ss_ergodic s) (Some v) (ss_min s) (ss_n0 s) (ss_vs s) (ss_table s) (ss_grids s).
Definition put_min s m := mkSS (ss_space s) (ss_neutral s) (ss_optimize s) (ss_ergodic s) (ss_vertices s) (Some m) (ss_n0 s) (ss_vs s) (ss_table s) (ss_grids s).
Definition put_n0 s n := mkSS (ss_space s) (ss_neutral s) (ss_optimize s) (ss_ergodic s) (ss_vertices s) (ss_min s) (Some n) (ss_vs s) (ss_table s) (ss_grids s).
Definition put_vs s v := mkSS (ss_space s) (ss_neutral s) (ss_optimize s) (ss_ergodic s) (ss_vertices s) (ss_min s) (ss_n0 s) (Some v) (ss_table s) (ss_grids s).
Definition put_table s t := mkSS (ss_space s) (ss_neutral s) (ss_optimize s) (ss_ergodic s) (ss_vertices s) (ss_min s) (ss_n0 s) (ss_vs s) (Some t) (ss_grids s).
Definition put_grids s g := mkSS (ss_space s) (ss_neutral s) (ss_optimize s) (ss_ergodic s) (ss_vertices s) (ss_min s) (ss_n0 s) (ss_vs s) (ss_table s) g.

(** [prim_vertices], space.py:297-309. *)
Definition ask_vertices : call (list (list Qc)) :=
  stored ss_vertices put_vertices (fun s => done (vertices (cs_A (ss_space s)) (cs_b (ss_space s))) s).
(** [min_supercell_size], space.py:311-323; the vertices are rows of [cs_dims] numbers. *)
Definition ask_min : call Z :=
  stored ss_min put_min (then_ ask_vertices (fun v s => done (option_map snd (integerize_multiple max_den num_tol (cs_dims (cs_bits (ss_space s))) v)) s)).
(** An optional size, space.py:354-355. *)
Definition ask_size (size : option Z) : call Z := match size with Some m => done (Some m) | None => ask_min end.
(** [get_supercell_base_solution], space.py:340-370. *)
Definition ask_base (size : option Z) : call (list Z) :=
  then_ (ask_size size) (fun size s =>
    match integerize (cs_b (ss_space s)) with
    | None => (s, None)
    | Some (_, m) =>
        if negb (size mod m =? 0) then (s, None)
        else then_ (stored ss_n0 put_n0 (fun s => done (option_map fst (solve_at (ss_space s) m)) s))
                   (fun n0 => done (Some (map (fun x => x * size / m) n0))) s
    end).
(** [basis], space.py:372-401. *)
Definition ask_basis : call (list (list Z)) :=
  stored ss_vs put_vs (then_ ask_min (fun m s => done (space_basis rank lp tol (ss_space s) m (ss_optimize s)) s)).
(** Lines 483-497 of [get_composition_grid]. *)
Definition enumerate_here (size step : Z) : call (list (list Z)) :=
  then_ (ask_base (Some size)) (fun n0 => then_ ask_basis (fun vs s =>
    match natural lp tol step n0 vs with
    | None => (s, None)
    | Some grid => let grid := filter (fun x => leq_ok (ss_space s) size (lattice_point n0 vs x)) grid in
                   (put_grids s (ss_grids s ++ [((size, step), grid)]), Some grid)
    end)).
(** [get_composition_grid], space.py:441-497: stored, or [otherwise]. *)
Definition grid_or (size step : Z) (otherwise : call (list (list Z))) : call (list (list Z)) :=
  fun s => match find_grid size step (ss_grids s) with Some (k, grid) => (s, Some (scale_grid k grid)) | None => otherwise s end.
Definition ask_grid (size step : Z) : call (list (list Z)) :=
  grid_or size step (
    let d := Z.gcd size step in
    if 1 <? d then then_ (grid_or (size / d) (step / d) (enumerate_here (size / d) (step / d))) (fun grid => done (Some (scale_grid d grid)))
    else enumerate_here size step).
(** [min_supercell_grid], space.py:499-506. *)
Definition ask_min_grid : call (list (list Z)) := then_ ask_min (fun m => ask_grid m 1).
(** [flip_table], space.py:403-429. *)
Definition ask_table : call (list (list Z)) :=
  stored ss_table put_table (fun s =>
    if negb (ss_ergodic s) then ask_basis s
    else then_ ask_min (fun m => then_ (ask_base (Some m)) (fun n0 => then_ ask_basis (fun vs => then_ ask_min_grid (fun grid =>
           done (get_ergodic_vectors knn n0 vs grid 3))))) s).

(** What a user can ask for; [Save] continues with the space made from its dictionary. *)
Inductive request := Vertices | MinSize | Base (size : option Z) | Basis | Table | Grid (size step : Z) | MinGrid | Save.
Inductive answer := Numbers (m : list (list Qc)) | Number (z : Z) | Vector (v : list Z) | Matrix (m : list (list Z)) | Saved.
Definition as_answer {A} (f : A -> answer) (c : call A) : call answer := then_ c (fun a => done (Some (f a))).
Definition ask (r : request) : call answer :=
  match r with
  | Vertices => as_answer Numbers ask_vertices
  | MinSize => as_answer Number ask_min
  | Base size => as_answer Vector (ask_base size)
  | Basis => as_answer Matrix ask_basis
  | Table => as_answer Matrix ask_table
  | Grid size step => as_answer Matrix (ask_grid size step)
  | MinGrid => as_answer Matrix ask_min_grid
  | Save => fun s => match from_dict (as_dict s) with Some s' => (s', Some Saved) | None => (s, None) end
  end.
Fixpoint ask_all (rs : list request) (s : sstate) : sstate := match rs with [] => s | r :: rs' => ask_all rs' (fst (ask r s)) end.
End Remember.
