(** Variables, constraints and linearised terms of the ground-state problem
    (smol/capp/generate/groundstate/upper_bound).

    Simplifications: cvxpy and the solver are left out; a variable vector is a list of values, a
    constraint is data that is evaluated on such lists.  Numbers are exact rationals. *)
From Verif Require Export Sublattice Cluster.
Set Implicit Arguments.
Open Scope nat_scope.

(** Marks of a species on a site: a variable, [-1] (always there) or [-2] (never there),
    variables.py:50-57. *)
Inductive mark := Var (v : nat) | Always | Never.
Definition var_of (m : mark) : option nat := match m with Var v => Some v | _ => None end.
(** [site_indices[site_indices >= 0]]. *)
Fixpoint vars_of (ms : list mark) : list nat :=
  match ms with [] => [] | Var v :: ms' => v :: vars_of ms' | _ :: ms' => vars_of ms' end.

(** [get_sublattice_indices_by_site], indices.py:107-132: later sublattices overwrite earlier ones, a site
    outside the array is an IndexError, a site of no sublattice a ValueError. *)
Fixpoint write_sites (i : nat) (sites : list nat) (a : list (option nat)) : option (list (option nat)) :=
  match sites with
  | [] => Some a
  | s :: sites' => if s <? length a then write_sites i sites' (upd a s (Some i)) else None
  end.
Fixpoint write_sublattices (i : nat) (sls : list sublattice) (a : list (option nat)) : option (list (option nat)) :=
  match sls with
  | [] => Some a
  | sl :: sls' => let? a' := write_sites i (sl_sites sl) a in write_sublattices (S i) sls' a'
  end.
Definition sublattice_ids (sls : list sublattice) : option (list nat) :=
  let? a := write_sublattices 0 sls (repeat None (list_sum (map (fun sl => length (sl_sites sl)) sls))) in
  opt_map (fun x => x) a.

(** The marks of one site, variables.py:78-114; [orig] is the site space of the structure and [n]
    the number of variables so far. *)
Fixpoint site_marks (sl : sublattice) (site : nat) (init : option (list nat)) (orig : list species) (n : nat) : option (list mark * nat) :=
  match orig with
  | [] => Some ([], n)
  | sp :: orig' =>
      match species_index sp (sl_species sl) with
      | None => let? r := site_marks sl site init orig' n in Some (Never :: fst r, snd r)
      | Some k =>
          if 1 <? length (sl_species sl) then
            if memb site (sl_active sl) then
              let? r := site_marks sl site init orig' (S n) in Some (Var n :: fst r, snd r)
            else
              let? o := init in let? c := nth_error o site in let? e := nth_error (sl_encoding sl) k in
              let? r := site_marks sl site init orig' n in Some ((if c =? e then Always else Never) :: fst r, snd r)
          else let? r := site_marks sl site init orig' n in Some (Always :: fst r, snd r)
      end
  end.
(** [get_variables_from_sublattices], variables.py:19-120: number of variables and marks. *)
Fixpoint all_marks (sls : list sublattice) (init : option (list nat)) (ids : list nat) (site : nat) (origs : list (list species)) (n : nat) : option (list (list mark) * nat) :=
  match origs with
  | [] => Some ([], n)
  | orig :: origs' =>
      let? i := nth_error ids site in let? sl := nth_error sls i in
      let? r := site_marks sl site init orig n in
      let? rs := all_marks sls init ids (S site) origs' (snd r) in
      Some (fst r :: fst rs, snd rs)
  end.
Definition get_variables (sls : list sublattice) (init : option (list nat)) (origs : list (list species)) : option (list (list mark) * nat) :=
  let? ids := sublattice_ids sls in all_marks sls init ids 0 origs 0.

(** [np.where(a == x)[0]]. *)
Definition find_all {A} (f : A -> bool) (l : list A) : list nat :=
  map fst (filter (fun p => f (snd p)) (combine (seq 0 (length l)) l)).

(** [get_occupancy_from_variables], variables.py:123-165. *)
Definition site_code (sl : sublattice) (values : list Z) (ms : list mark) : option nat :=
  match vars_of ms with
  | [] => nth_error (find_all (fun m => match m with Always => true | _ => false end) ms) 0
  | vs => let? xs := opt_map (nth_error values) vs in
          match find_all (Z.eqb 1) xs with
          | [k] => nth_error (sl_encoding sl) k
          | _ => None
          end
  end.
Definition decode (sls : list sublattice) (values : list Qc) (marks : list (list mark)) : option (list nat) :=
  let? ids := sublattice_ids sls in
  let vs := map qround values in
  opt_map (fun p => let? i := nth_error ids (fst p) in let? sl := nth_error sls i in site_code sl vs (snd p))
          (combine (seq 0 (length marks)) marks).

(** [max(max(sub) for sub in variable_indices) + 1], variables.py:190: an empty list has no
    maximum, and a length of [-1] is no array length. *)
Definition mark_z (m : mark) : Z := match m with Var v => Z.of_nat v | Always => -1 | Never => -2 end%Z.
Definition zmax (l : list Z) : option Z := match l with [] => None | x :: l' => Some (fold_left Z.max l' x) end.
Definition num_variables (marks : list (list mark)) : option nat :=
  let? ms := opt_map (fun m => zmax (map mark_z m)) marks in
  let? m := zmax ms in
  if (m + 1 <? 0)%Z then None else Some (Z.to_nat (m + 1)).
(** [get_variable_values_from_occupancy], variables.py:168-208. *)
Fixpoint encode_sites (sls : list sublattice) (ids : list nat) (occu : list nat) (site : nat) (marks : list (list mark)) (vals : list Qc) : option (list Qc) :=
  match marks with
  | [] => Some vals
  | ms :: marks' =>
      let? i := nth_error ids site in let? sl := nth_error sls i in
      match vars_of ms with
      | [] => encode_sites sls ids occu (S site) marks' vals
      | vs => let? c := nth_error occu site in let? k := index_of c (sl_encoding sl) in
              let? v := nth_error vs k in
              encode_sites sls ids occu (S site) marks' (upd vals v 1%Qc)
      end
  end.
Definition encode (sls : list sublattice) (occu : list nat) (marks : list (list mark)) : option (list Qc) :=
  let? n := num_variables marks in
  let? ids := sublattice_ids sls in
  encode_sites sls ids occu 0 marks (repeat 0%Qc n).

(** [get_normalization_constraints], constraints.py:21-41: variables whose sum is one. *)
Definition normalization (marks : list (list mark)) : list (list nat) :=
  filter (fun vs => 0 <? length vs) (map vars_of marks).

(** [cp.sum(variables[indices])]. *)
Definition sum_vars (x : list Qc) (vs : list nat) : Qc := qsum (map (fun v => nth v x 0%Qc) vs).

(** ** Linearised terms *)
(** A product term: indices of the variables and the two factors, terms.py:37-60. *)
Record term := mkT { t_inds : list nat; t_f1 : Qc; t_f2 : Qc }.

(** The dictionary of simplified terms, terms.py:72-86, in insertion order. *)
Fixpoint list_eqb (a b : list nat) : bool :=
  match a, b with [], [] => true | x :: a', y :: b' => (x =? y) && list_eqb a' b' | _, _ => false end.
Fixpoint add_term (inds : list nat) (c : Qc) (d : list (list nat * Qc)) : list (list nat * Qc) :=
  match d with
  | [] => [(inds, c)]
  | (i, c') :: d' => if list_eqb i inds then (i, c' + c)%Qc :: d' else (i, c') :: add_term inds c d'
  end.
Definition simplified (ts : list term) (cutoff : Qc) : list (list nat * Qc) :=
  filter (fun p => Qcleb cutoff (Cluster.qabs (snd p)))
    (fold_left (fun d t => add_term (sort_by Nat.leb (t_inds t)) (t_f1 t * t_f2 t)%Qc d) ts []).
(** The sort key [(len(t[0]), t[1])], terms.py:87. *)
Definition term_leb (a b : list nat * Qc) : bool :=
  (length (fst a) <? length (fst b)) || ((length (fst a) =? length (fst b)) && Qcleb (snd a) (snd b)).

(** The linear objective and the constraints of the auxiliary variables, terms.py:89-132.  The
    point terms are not sorted by index (lines 103-110), which changes the order of a sum only.  [None] is the
    RuntimeError of an objective without variables. *)
Inductive aux_con := AuxLe (aux var : nat) | AuxGe (aux : nat) (inds : list nat).
Record objective := mkObj { ob_const : Qc; ob_points : list (nat * Qc); ob_many : list (list nat * Qc); ob_cons : list aux_con }.
Definition has_len (k : nat) (p : list nat * Qc) : bool := length (fst p) =? k.
Definition linearize (ts : list term) (cutoff : Qc) : option objective :=
  let st := sort_by term_leb (simplified ts cutoff) in
  let n_const := length (filter (has_len 0) st) in
  let n_single := length (filter (has_len 1) st) in
  let const := match st with p :: _ => if n_const =? 1 then snd p else 0%Qc | [] => 0%Qc end in
  let points := map (fun p => (hd 0 (fst p), snd p)) (firstn n_single (skipn n_const st)) in
  let many := skipn (n_const + n_single) st in
  if (length points =? 0) && (length many =? 0) then None else
  Some (mkObj const points many
    (concat (map (fun p => map (AuxLe (fst p)) (fst (snd p)) ++ [AuxGe (fst p) (fst (snd p))])
                 (combine (seq 0 (length many)) many)))).
Definition obj_value (o : objective) (x aux : list Qc) : Qc :=
  (ob_const o + qsum (map (fun p => nth (fst p) x 0 * snd p) (ob_points o)) + qdot aux (map snd (ob_many o)))%Qc.
Definition con_holds (x aux : list Qc) (c : aux_con) : Prop :=
  match c with
  | AuxLe a v => (nth a aux 0 <= nth v x 0)%Qc
  | AuxGe a inds => (sum_vars x inds + 1 - Qc_of_nat (length inds) <= nth a aux 0)%Qc
  end.
(** [get_auxiliary_variable_values], terms.py:13-34. *)
Definition aux_values (x : list Qc) (inds : list (list nat)) : list Qc :=
  map (fun vs => fold_right Qcmult 1%Qc (map (fun v => nth v x 0%Qc) vs)) inds.

(** ** Terms of the energy *)
(** [get_terms_from_chemical_potentials], objectives.py:292-329. *)
Definition mu_terms (table : list (list Qc)) (marks : list (list mark)) : option (list term) :=
  let? rows := opt_map (fun p =>
      opt_map (fun q => let? row := nth_error table (fst p) in let? mu := nth_error row (fst q) in
        Some (match snd q with
              | Var v => [mkT [v] (- mu)%Qc 1%Qc]
              | Always => [mkT [] (- mu)%Qc 1%Qc]
              | Never => []
              end)) (combine (seq 0 (length (snd p))) (snd p)))
    (combine (seq 0 (length marks)) marks) in
  Some (concat (concat rows)).

(** The states of a site that can be taken, objectives.py:80-97. *)
Definition site_states (ms : list mark) : list nat :=
  match vars_of ms with
  | [] => find_all (fun m => match m with Always => true | _ => false end) ms
  | _ => find_all (fun m => match m with Var _ => true | _ => false end) ms
  end.
(** [itertools.product]. *)
Fixpoint states_product (ls : list (list nat)) : list (list nat) :=
  match ls with [] => [[]] | l :: ls' => flat_map (fun x => map (cons x) (states_product ls')) l end.
(** The variables of a cluster state, objectives.py:103-113 (the assertion is a failure). *)
Definition cluster_vars (marks : list (list mark)) (sites states : list nat) : option (list nat) :=
  let? ms := opt_map (fun p => let? m := nth_error marks (fst p) in nth_error m (snd p)) (combine sites states) in
  if forallb (fun m => match m with Never => false | _ => true end) ms then Some (vars_of ms) else None.
