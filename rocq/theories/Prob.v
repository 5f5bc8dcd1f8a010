(** Finite random computations.

    A [prog A] lists the outcomes of a computation that draws from a random
    generator: a weight and a value, or [None] when the Python code raises.  Draws of
    [numpy.random.Generator] are modelled by their documented distributions. *)
From Verif Require Export QcLib.
Set Implicit Arguments.
Open Scope Qc_scope.

Definition prog (A : Type) := list (Qc * option A).

Definition pret {A} (x : A) : prog A := [(1, Some x)].
Definition pfail {A} : prog A := [(1, None)].

Definition pbind {A B} (m : prog A) (f : A -> prog B) : prog B :=
  flat_map (fun p => match snd p with
                     | None => [(fst p, None)]
                     | Some x => map (fun q => (fst p * fst q, snd q)) (f x)
                     end) m.

Notation "'draw' x <- m ; e" := (pbind m (fun x => e))
  (at level 60, x pattern, m at level 50, e at level 60, right associativity).

(** [rng.choice(l)]: uniform; raises on an empty list. *)
Definition uniform {A} (l : list A) : prog A :=
  match l with
  | [] => pfail
  | _ => map (fun x => (1 / Qc_of_nat (length l), Some x)) l
  end.

(** [rng.choice(l, p=p)]: raises if the sizes differ, a probability is negative
    or they do not add up to one; values of probability zero are never drawn. *)
Definition choice_p {A} (l : list A) (p : list Qc) : prog A :=
  if (length l =? length p)%nat && negb (length l =? 0)%nat
     && forallb (fun x => Qcleb 0 x) p && Qceqb (qsum p) 1
  then map (fun q => (snd q, Some (fst q))) (filter (fun q => negb (Qceqb (snd q) 0)) (combine l p))
  else pfail.

(** All ordered selections of [k] elements without replacement. *)
Fixpoint selections {A} (l : list A) : list (A * list A) :=
  match l with
  | [] => []
  | x :: l' => (x, l') :: map (fun p => (fst p, x :: snd p)) (selections l')
  end.
Fixpoint arrangements {A} (k : nat) (l : list A) : list (list A) :=
  match k with
  | O => [[]]
  | S k' => flat_map (fun p => map (cons (fst p)) (arrangements k' (snd p))) (selections l)
  end.

(** [rng.choice(l, size=k, replace=False)]: raises if [k > len(l)]. *)
Definition choose_k {A} (k : nat) (l : list A) : prog (list A) :=
  uniform (arrangements k l).

(** Probability of an event, and of the exception. *)
Definition prob {A} (m : prog A) (P : A -> bool) : Qc :=
  qsum (map (fun p => match snd p with Some x => if P x then fst p else 0 | None => 0 end) m).
Definition prob_fail {A} (m : prog A) : Qc :=
  qsum (map (fun p => match snd p with Some _ => 0 | None => fst p end) m).

(** [x] is a possible outcome / the program cannot raise. *)
Definition outcome {A} (m : prog A) (x : A) : Prop := exists w, In (w, Some x) m.
Definition never_raises {A} (m : prog A) : Prop := forall w, ~ In (w, None) m.
(** Total weight. *)
Definition mass {A} (m : prog A) : Qc := qsum (map fst m).
