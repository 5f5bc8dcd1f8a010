(** Model of orbit aliasing and of the mapping tables of [smol/cofe/space/clusterspace.py]. *)
From Verif Require Export Lib.
Set Implicit Arguments.
Open Scope nat_scope.

(** [sorted] on a tuple of site indices. *)
Fixpoint ninsert (x : nat) (l : list nat) : list nat :=
  match l with [] => [x] | y :: l' => if x <=? y then x :: l else y :: ninsert x l' end.
Definition nsorted (l : list nat) : list nat := fold_right ninsert [] l.
Fixpoint tuple_eqb (u v : list nat) : bool :=
  match u, v with
  | [], [] => true
  | x :: u', y :: v' => (x =? y) && tuple_eqb u' v'
  | _, _ => false
  end.
(** Equality of the sets of sorted tuples, clusterspace.py:895, 901 and 903. *)
Definition subset_eqb (A B : list (list nat)) : bool := forallb (fun a => existsb (tuple_eqb a) B) A.
Definition same_sets (A B : list (list nat)) : bool :=
  subset_eqb (map nsorted A) (map nsorted B) && subset_eqb (map nsorted B) (map nsorted A).

Definition in_any (x : nat) (groups : list (list nat)) : bool := existsb (Nat.eqb x) (concat groups).
(** Body of the outer loop, clusterspace.py:887-909. *)
Definition alias_step (maps : list (list (list nat))) (aliased : list (list nat)) (i : nat) : list (list nat) :=
  if in_any (S i) aliased then aliased
  else
    let js := filter (fun j => negb ((j <=? i) || in_any (S j) aliased) && same_sets (nth i maps []) (nth j maps [])) (seq 0 (length maps)) in
    match js with
    | [] => aliased
    | _ => aliased ++ [nsorted (S i :: map S js)]
    end.
(** [sorted(list(set(groups)), key=first)], clusterspace.py:911. *)
Fixpoint ginsert (x : list nat) (l : list (list nat)) : list (list nat) :=
  match l with [] => [x] | y :: l' => if hd 0 x <=? hd 0 y then x :: l else y :: ginsert x l' end.
Definition by_first (l : list (list nat)) : list (list nat) :=
  fold_right ginsert [] (nodup (list_eq_dec Nat.eq_dec) l).
(** [get_aliased_orbits], clusterspace.py:861-912, from the cluster tables of a supercell. *)
Definition get_aliased (maps : list (list (list nat))) : list (list nat) :=
  by_first (fold_left (alias_step maps) (seq 0 (length maps)) []).

(** ** Mapping tables *)
(** [inv[value].append(i)] if missing; a value out of range raises. *)
Definition add_to (inv : list (list nat)) (value i : nat) : option (list (list nat)) :=
  let? l := nth_error inv value in
  Some (if existsb (Nat.eqb i) l then inv else upd inv value (l ++ [i])).
Fixpoint add_values (inv : list (list nat)) (i : nat) (values : list nat) : option (list (list nat)) :=
  match values with [] => Some inv | v :: vs => let? inv' := add_to inv v i in add_values inv' i vs end.
Fixpoint invert_loop (mapping : list (list nat)) (inv : list (list nat)) (is : list nat) : option (list (list nat)) :=
  match is with
  | [] => Some inv
  | i :: is' => let? inv' := add_values inv i (nth i mapping []) in invert_loop mapping inv' is'
  end.
(** [invert_mapping], clusterspace.py:1636-1657. *)
Definition invert_mapping (mapping : list (list nat)) : option (list (list nat)) :=
  invert_loop mapping (repeat [] (length mapping)) (rev (seq 0 (length mapping))).

(** Append the elements that are missing. *)
Fixpoint append_new (acc l : list nat) : list nat :=
  match l with [] => acc | x :: l' => append_new (if existsb (Nat.eqb x) acc then acc else acc ++ [x]) l' end.
(** Values one step further, clusterspace.py:1690-1694. *)
Fixpoint next_values (mapping : list (list nat)) (acc vs : list nat) : option (list nat) :=
  match vs with
  | [] => Some acc
  | v :: vs' => let? l := nth_error mapping v in next_values mapping (append_new acc l) vs'
  end.
(** The while loop with a bound on the number of rounds; [None] if it is still running. *)
Fixpoint complete_loop (fuel : nat) (mapping : list (list nat)) (acc next : list nat) : option (option (list nat)) :=
  match next with
  | [] => Some (Some acc)
  | _ => match fuel with
         | 0 => None
         | S k => match next_values mapping [] next with
                  | None => Some None
                  | Some next' => complete_loop k mapping (append_new acc next) next'
                  end
         end
  end.
(** [get_complete_mapping], clusterspace.py:1660-1698; the inner option is an IndexError. *)
Definition complete_mapping (fuel : nat) (mapping : list (list nat)) : option (option (list (list nat))) :=
  let? rows := opt_map (fun l => complete_loop fuel mapping l l) mapping in Some (opt_map (fun r => r) rows).
