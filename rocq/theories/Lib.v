(** Small shared library: list update, finite sums, counting.

    None of these definitions models a function of smol by itself; they are the
    vocabulary (numpy item assignment, numpy sums) used by the models. *)
From Coq Require Export List Arith ZArith Lia Bool Permutation.
Export ListNotations.

Set Implicit Arguments.

(** [upd l i x] is numpy / Python item assignment [l[i] = x] for a valid
    non-negative index; an index beyond the end leaves the list unchanged (the
    models that use it either test the index first or state it as a guard). *)
Fixpoint upd {A} (l : list A) (i : nat) (x : A) : list A :=
  match l, i with
  | [], _ => []
  | _ :: l', 0 => x :: l'
  | y :: l', S i' => y :: upd l' i' x
  end.

(** Sum of a list of integers, [np.sum]. *)
Fixpoint zsum (l : list Z) : Z :=
  match l with [] => 0%Z | x :: l' => (x + zsum l')%Z end.

(** Number of elements satisfying a boolean predicate. *)
Definition countb {A} (f : A -> bool) (l : list A) : nat := length (filter f l).

(** Componentwise sum of integer vectors, numpy [u + v] on equal shapes. *)
Fixpoint vadd (u v : list Z) : list Z :=
  match u, v with
  | x :: u', y :: v' => (x + y)%Z :: vadd u' v'
  | _, _ => []
  end.

Definition vopp (u : list Z) : list Z := map Z.opp u.
Definition vscale (k : Z) (u : list Z) : list Z := map (Z.mul k) u.

(** Dot product of integer vectors, [np.dot]. *)
Fixpoint dot (u v : list Z) : Z :=
  match u, v with
  | x :: u', y :: v' => (x * y + dot u' v')%Z
  | _, _ => 0%Z
  end.

Definition option_bind {A B} (o : option A) (f : A -> option B) : option B :=
  match o with Some x => f x | None => None end.
Notation "'let?' x := o 'in' e" := (option_bind o (fun x => e))
  (at level 200, x pattern, o at level 100, e at level 200).

(** All results or the first error: a list comprehension whose body may raise. *)
Fixpoint opt_map {A B} (f : A -> option B) (l : list A) : option (list B) :=
  match l with
  | [] => Some []
  | x :: l' => match f x, opt_map f l' with
               | Some y, Some ys => Some (y :: ys)
               | _, _ => None
               end
  end.
