(** Energy terms, composition constraints and the solver of the ground-state problem
    (smol/capp/generate/groundstate/upper_bound: objectives.py, indices.py, constraints.py, solver.py).

    Simplifications: correlation and interaction tensors are flattened with the strides of the evaluator
    (as in Evaluator.v); numbers are exact rationals; the optimiser is an oracle that returns values. *)
From Verif Require Export GroundState Ewald SiteTable.
Set Implicit Arguments.
Open Scope nat_scope.

(** [tensor[tuple(state)]]. *)
Fixpoint state_index (strides st : list nat) : option nat :=
  match st, strides with
  | [], [] => Some 0
  | c :: st', t :: strides' => let? r := state_index strides' st' in Some (t * c + r)
  | _, _ => None
  end.
(** The terms of one cluster image, objectives.py:70-113 and 186-216; [n] is the number of images. *)
Definition row_terms (marks : list (list mark)) (strides : list nat) (t : list Qc) (n : nat) (row : list nat) : option (list (list nat * Qc)) :=
  let? mss := opt_map (nth_error marks) row in
  opt_map (fun st => let? i := state_index strides st in let? x := nth_error t i in
                     let? vs := cluster_vars marks row st in Some (vs, (x / Qc_of_nat n)%Qc))
          (states_product (map site_states mss)).
(** All images, objectives.py:68-72 and 172-175; [mapping.shape[1]] of an empty mapping is an IndexError. *)
Definition tensor_terms (marks : list (list mark)) (strides : list nat) (t : list Qc) (rows : ctable) : option (list (list nat * Qc)) :=
  if length rows =? 0 then None else
  let? l := opt_map (row_terms marks strides t (length rows)) rows in Some (concat l).
(** [cluster_terms[n].append]: a bucket that does not exist is an IndexError. *)
Notation bucket := (list (list nat * Qc)).
Fixpoint add_buckets (bs : list bucket) (ws : list (nat * bucket)) : option (list bucket) :=
  match ws with
  | [] => Some bs
  | (i, l) :: ws' => let? b := nth_error bs i in add_buckets (upd bs i (b ++ l)) ws'
  end.
(** One orbit of [get_terms_from_expansion_processor], objectives.py:61-116. *)
Definition expansion_writes (marks : list (list mark)) (o : orbit) (rows : ctable) : option (list (nat * bucket)) :=
  opt_map (fun k => let? t := nth_error (o_tensors o) k in let? l := tensor_terms marks (o_strides o) t rows in Some (o_bit o + k, l)) (seq 0 (o_rows o)).
(** objectives.py:52-116 ([zip] of orbits and mappings). *)
Definition expansion_buckets (marks : list (list mark)) (P : proc) : option (list bucket) :=
  if e_num_corr (p_eval P) =? 0 then None else
  let? ws := opt_map (fun p => expansion_writes marks (fst p) (snd p)) (combine (e_orbits (p_eval P)) (p_tables P)) in
  add_buckets (upd (repeat [] (e_num_corr (p_eval P))) 0 [([], 1%Qc)]) (concat ws).
(** objectives.py:118-125 and 218-230: coefficients and size, flat or grouped. *)
Definition grouped (size : nat) (bs : list bucket) (coefs : list Qc) : list (list term) :=
  map (fun p => map (fun q => mkT (fst q) (snd q) (snd p * Qc_of_nat size)%Qc) (fst p)) (combine bs coefs).
Definition expansion_terms (marks : list (list mark)) (P : proc) (coefs : list Qc) : option (list term) :=
  let? bs := expansion_buckets marks P in Some (concat (grouped (p_size P) bs coefs)).
(** [get_terms_from_decomposition_processor], objectives.py:128-230: bucket [n] for the [n]-th mapping. *)
Definition decomposition_buckets (marks : list (list mark)) (P : proc) : option (list bucket) :=
  if e_num_orbits (p_eval P) =? 0 then None else
  let? ws := opt_map (fun p => let? t := nth_error (e_inter (p_eval P)) (fst p) in
                               let? o := nth_error (e_orbits (p_eval P)) (fst p) in
                               let? l := tensor_terms marks (o_strides o) t (snd p) in Some (S (fst p), l))
                     (combine (seq 0 (length (p_tables P))) (p_tables P)) in
  add_buckets (upd (repeat [] (e_num_orbits (p_eval P))) 0 [([], e_offset (p_eval P))]) ws.
Definition decomposition_terms (marks : list (list mark)) (P : proc) (coefs : list Qc) : option (list term) :=
  let? bs := decomposition_buckets marks P in Some (concat (grouped (p_size P) bs coefs)).

(** [map_ewald_indices_to_variable_indices], indices.py:64-104; a site space is given by its vacancies. *)
Definition ewald_marks (spaces : list (list bool)) (marks : list (list mark)) : option (list mark) :=
  let? rows := opt_map (fun p => let? sp := nth_error spaces (fst p) in
      opt_map (fun q : nat * bool => if snd q then Some [] else let? m := nth_error (snd p) (fst q) in Some [m]) (combine (seq 0 (length sp)) sp))
    (combine (seq 0 (length marks)) marks) in
  Some (concat (concat rows)).
(** [get_terms_from_ewald_processor], objectives.py:233-289, for a matrix with [n] rows. *)
Definition mark_eqb (a b : mark) : bool :=
  match a, b with Var u, Var v => u =? v | Always, Always => true | Never, Never => true | _, _ => false end.
Definition ewald_pair (M : nat -> nat -> Qc) (coef : Qc) (ems : list mark) (i j : nat) : option (list term) :=
  let? a := nth_error ems i in let? b := nth_error ems j in
  Some (if mark_eqb a Never || mark_eqb b Never then []
        else [mkT (vars_of [a] ++ if mark_eqb b Always || mark_eqb b a then [] else vars_of [b]) (M i j) coef]).
Definition ewald_terms (n : nat) (M : nat -> nat -> Qc) (spaces : list (list bool)) (marks : list (list mark)) (coef : Qc) : option (list term) :=
  let? ems := ewald_marks spaces marks in
  let? tss := opt_map (fun i => opt_map (ewald_pair M coef ems i) (seq 0 n)) (seq 0 n) in
  Some (concat (concat tss)).

(** [_handle_single_processor] and the loop over the processors, solver.py:234-273; a processor that is not a
    composite is a list of one.  Other kinds of processor raise NotImplementedError. *)
Inductive processor :=
| Expansion (P : proc) (coefs : list Qc)
| Decomposition (P : proc) (coefs : list Qc)
| Electrostatic (M : nat -> nat -> Qc) (spaces : list (list bool)) (coef : Qc)
| Unsupported (p : part).
Definition processor_terms (marks : list (list mark)) (p : processor) : option (list term) :=
  match p with
  | Expansion P coefs => expansion_terms marks P coefs
  | Decomposition P coefs => decomposition_terms marks P coefs
  | Electrostatic M spaces coef => ewald_terms (snd (ewald_structure spaces)) M spaces marks coef
  | Unsupported _ => None
  end.
Definition problem_terms (marks : list (list mark)) (ps : list processor) (mu : option vtable) : option (list term) :=
  let? tss := opt_map (processor_terms marks) ps in
  let? ms := match mu with None => Some [] | Some t => mu_terms t marks end in
  Some (concat tss ++ ms).
(** The processor as a part of a composite one (Ewald.v). *)
Definition processor_part (p : processor) : part :=
  match p with
  | Expansion P coefs => ce_part P coefs
  | Decomposition P coefs => cd_part P coefs
  | Electrostatic M spaces coef => ewald_part (snd (ewald_structure spaces)) M (fst (ewald_structure spaces)) coef
  | Unsupported p => p
  end.

(** ** Composition *)
(** [get_variable_indices_for_each_composition_component], indices.py:14-61. *)
Definition component (sl : sublattice) (sp : species) (marks : list (list mark)) (origs : list (list species)) : option (list nat * nat) :=
  let? ms := opt_map (fun s => let? orig := nth_error origs s in let? k := species_index sp orig in
                               let? m := nth_error marks s in nth_error m k) (sl_sites sl) in
  Some (vars_of ms, length (find_all (fun m => match m with Always => true | _ => false end) ms)).
Definition components (sls : list sublattice) (marks : list (list mark)) (origs : list (list species)) : option (list (list nat * nat)) :=
  let? cs := opt_map (fun sl => opt_map (fun sp => component sl sp marks origs) (sl_species sl)) sls in Some (concat cs).

(** A constraint on the composition: coefficients of groups of variables, a constant, the relation and the bound. *)
Inductive rel := Eq | Leq.
Record comp_con := mkCon { k_groups : list (Qc * list nat); k_const : Qc; k_rel : rel; k_bound : Qc }.
Definition rel_holds (r : rel) (x y : Qc) : Prop := match r with Eq => x = y | Leq => (x <= y)%Qc end.
Definition comp_holds (x : list Qc) (k : comp_con) : Prop :=
  rel_holds (k_rel k) (qsum (map (fun g => fst g * sum_vars x (snd g)) (k_groups k)) + k_const k)%Qc (k_bound k).

(** [get_fixed_composition_constraints], constraints.py:184-246. *)
Definition fixed_constraint (p : list nat * nat) (required : Z) : option (list comp_con) :=
  if (required <? Z.of_nat (snd p))%Z then None
  else if length (fst p) =? 0 then if (Z.of_nat (snd p) =? required)%Z then Some [] else None
  else Some [mkCon [(1%Qc, fst p)] (Qc_of_nat (snd p)) Eq (Qc_of_Z required)].
Fixpoint fixed_constraints (comps : list (list nat * nat)) (required : list Z) : option (list comp_con) :=
  match comps with
  | [] => Some []
  | p :: comps' => match required with
                   | [] => None
                   | r :: required' => let? k := fixed_constraint p r in let? ks := fixed_constraints comps' required' in Some (k ++ ks)
                   end
  end.

(** [np.isclose(q, 0)]. *)
Definition tiny (q : Qc) : bool := Qcleb (Cluster.qabs q) (Qc_frac 1 100000000).
(** The expression of one row, constraints.py:82-87: a number when no variable takes part. *)
Definition formula_groups (a : list Qc) (comps : list (list nat * nat)) : option (list (Qc * list nat) * Qc) :=
  let? gs := opt_map (fun p => let? q := nth_error a (fst p) in
      Some (if (length (fst (snd p)) =? 0) || tiny q then [] else [(q, fst (snd p))], (Qc_of_nat (snd (snd p)) * q)%Qc))
    (combine (seq 0 (length comps)) comps) in
  Some (concat (map fst gs), qsum (map snd gs)).
Definition rel_dec (r : rel) (x y : Qc) : bool := match r with Eq => Qceqb x y | Leq => Qcleb x y end.
(** One row of [_get_formula_constraints], constraints.py:66-101. *)
Definition formula_constraint (r : rel) (comps : list (list nat * nat)) (row : list Qc * Qc) : option (list comp_con) :=
  let (a, b) := row in
  if forallb tiny a then
    match r with Eq => if tiny b then Some [] else None | Leq => if Qcltb b 0 then None else Some [] end
  else
    let? (gs, c) := formula_groups a comps in
    if length gs =? 0 then if rel_dec r c b then Some [] else None
    else Some [mkCon gs c r b].
Definition formula_constraints (r : rel) (comps : list (list nat * nat)) (skip : list nat) (rows : list (list Qc * Qc)) : option (list comp_con) :=
  let? ks := opt_map (fun p => if memb (fst p) skip then Some [] else formula_constraint r comps (snd p)) (combine (seq 0 (length rows)) rows) in
  Some (concat ks).
(** The skipped rows of [get_composition_space_constraints], constraints.py:160-168; [eqs] are the rows of the
    composition space, charge first when it is constrained, then one per sublattice. *)
Definition skip_rows (charge : bool) (n_sublattices : nat) (eqs : list (list Qc * Qc)) : option (list nat) :=
  let? r := nth_error eqs 0 in
  let rows := seq (if charge then 1 else 0) n_sublattices in
  Some (if forallb tiny (fst r) && tiny (snd r) then 0 :: rows else rows).
Definition space_constraints (charge : bool) (sls : list sublattice) (marks : list (list mark)) (origs : list (list species))
  (eqs leqs : list (list Qc * Qc)) : option (list comp_con) :=
  let? comps := components sls marks origs in
  let? skip := skip_rows charge (length sls) eqs in
  let? ks := formula_constraints Eq comps skip eqs in
  let? ks' := formula_constraints Leq comps [] leqs in Some (ks ++ ks').

(** ** The solver object *)
(** solver.py:103-199: the solution, the energy and the cached occupancy. *)
Record solver := mkSolver { so_solution : option (list Z); so_energy : option Qc; so_occu : option (list nat) }.
Definition fresh_solver : solver := mkSolver None None None.
(** [astype(int)] cuts the fraction off. *)
Definition qtrunc (x : Qc) : Z := if Qcltb x 0 then (- qfloor (- x))%Z else qfloor x.
(** [solve], solver.py:396-425, with the values and the objective that the optimiser returns. *)
Definition solve (s : solver) (answer : option (list Qc * Qc)) : solver :=
  match answer with
  | Some (x, e) => mkSolver (Some (map qtrunc x)) (Some e) (so_occu s)
  | None => mkSolver None None (so_occu s)
  end.
(** [reset], solver.py:427-434. *)
Definition reset (s : solver) : solver := fresh_solver.
(** [ground_state_occupancy], solver.py:464-478: the value and the object with its cache. *)
Definition ground_state_occupancy (sls : list sublattice) (marks : list (list mark)) (s : solver) : option (list nat * solver) :=
  let? sol := so_solution s in let? e := so_energy s in
  match so_occu s with
  | Some o => Some (o, s)
  | None => let? o := decode sls (map Qc_of_Z sol) marks in Some (o, mkSolver (so_solution s) (so_energy s) (Some o))
  end.
