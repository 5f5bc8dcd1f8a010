(** Specification for C29, C33, C35, C36, C71 and C72. *)
From Verif Require Export Subspace EvaluatorSpec.
From Coq Require Export Permutation.
Set Implicit Arguments.
Open Scope nat_scope.

(** ** Ids *)
(** The correlation functions of a subspace, in order: base cluster and bit combinations. *)
Definition labels (st : subspace) : list (nat * list (list nat)) :=
  flat_map (fun o => map (fun c => (s_key o, c)) (s_combos o)) (sub_orbits st).
(** The elements of a list whose position, counted from 1, is not listed. *)
Definition without {A} (ids : list nat) (l : list A) : list A :=
  map snd (filter (fun p => negb (existsb (Nat.eqb (fst p)) ids)) (combine (seq 1 (length l)) l)).
(** Ids count orbits and functions, and the evaluator holds the current orbits. *)
Record consistent (st : subspace) : Prop := {
  c_ids : map s_id (sub_orbits st) = seq 1 (length (sub_orbits st));
  c_norb : sub_norb st = S (length (sub_orbits st));
  c_bits : forall n o, nth_error (sub_orbits st) n = Some o -> s_bit o = 1 + list_sum (map s_len (firstn n (sub_orbits st)));
  c_ncorr : sub_ncorr st = 1 + list_sum (map s_len (sub_orbits st));
  c_nclus : sub_nclus st = 1 + list_sum (map s_mult (sub_orbits st));
  c_eval : sub_eval st = (sub_orbits st, sub_norb st, sub_ncorr st);
  c_funs : forall o, In o (sub_orbits st) -> s_combos o <> []
}.
(** Every function id belongs to one orbit, the one that [function_orbit_ids] names. *)
Definition owner (st : subspace) (j : nat) (o : sorbit) : Prop := In o (sub_orbits st) /\ s_bit o <= j < s_bit o + s_len o.

(** Histories of operations.  An operation that raises leaves the subspace as it was. *)
Inductive sub_op :=
| ORemoveOrbits (ids : list nat) | ORemoveCorr (ids : list nat)
| OBases (f : sorbit -> list (list (list Qc))) | OIndices (m : scmatrix).
Definition run_op (gen : scmatrix -> nat -> ctable) (st : subspace) (x : sub_op) : subspace :=
  match x with
  | ORemoveOrbits ids => match remove_orbits ids st with Some st' => st' | None => st end
  | ORemoveCorr ids => match remove_corr ids st with Some st' => st' | None => st end
  | OBases f => change_bases f st
  | OIndices m => snd (orbit_indices gen m st)
  end.
Definition items_ok (items : list (nat * list sorbit)) : Prop := forall kv o, In kv items -> In o (snd kv) -> s_combos o <> [].
Definition reachable (gen : scmatrix -> nat -> ctable) (st : subspace) : Prop :=
  exists items ops, items_ok items /\ st = fold_left (run_op gen) ops (new_sub items).

(** ** Permutations *)
Definition is_perm (n : nat) (p : list nat) : Prop := length p = n /\ NoDup p /\ forall i, In i p -> i < n.
Record perm_group (n : nat) (ps : list (list nat)) : Prop := {
  pg_perm : forall p, In p ps -> is_perm n p;
  pg_id : In (seq 0 n) ps;
  pg_comp : forall p q r, In p ps -> In q ps -> permute p q = Some r -> In r ps;
  pg_inv : forall p, In p ps -> exists q, In q ps /\ permute p q = Some (seq 0 n)
}.
(** Sites exchanged by a symmetry of the cluster have the same functions. *)
Definition sym_bits (bits ps : list (list nat)) : Prop :=
  forall p i j, In p ps -> nth_error p i = Some j -> nth_error bits j = nth_error bits i.
