(** Model of the drift check of processors ([smol/moca/processor/base.py:257-299]).

    A property is a function of occupancies and a change of it one of occupancies and flips,
    as the processors of [Ewald.v] have them; both may raise.  Every number stands for a draw of the
    generator: it is reduced modulo the number of outcomes.  Exact rationals instead of floats. *)
From Verif Require Export OccuUtils Ewald.
Set Implicit Arguments.
Open Scope nat_scope.

(** [rng.choice(species)] for every site, then [encode_occupancy], base.py:278-279: an allowed
    code of every site.  The encoding of the drawn species is taken to be its place (C33). *)
Definition drawn_occupancy (allowed : list nat) (draws : list nat) : list nat :=
  map (fun an => snd an mod fst an) (combine allowed draws).

(** [set(range(len(self.allowed_species[site]))) - {occu[site]}], base.py:282. *)
Definition other_codes (n c : nat) : list nat := filter (fun k => negb (k =? c)) (seq 0 n).
(** [rng.choice(list(species))], base.py:283: raises ValueError without other species. *)
Definition choose (l : list nat) (d : nat) : option nat :=
  match l with [] => None | _ => nth_error l (d mod length l) end.

Section Check.
Variable property : list nat -> option Qc.
Variable change : list nat -> step -> option Qc.
Variable size : nat.
Variable allowed : list nat.

(** What is kept of one iteration, base.py:289-291: the forward drift, [prop - new_prop], the new
    occupancy and the flip back. *)
Definition entry : Type := (Qc * Qc * list nat * step)%type.

(** One iteration, base.py:281-292.  [self.size] is the number of primitive cells (base.py:73). *)
Definition iteration (occu : list nat) (d : nat * nat) : option (entry * list nat) :=
  match size with
  | 0 => None
  | S _ =>
    let site := fst d mod size in
    let? n := nth_error allowed site in
    let? c := nth_error occu site in
    let? k := choose (other_codes n c) (snd d) in
    let? delta := change occu [(site, k)] in
    let new := upd occu site k in
    let? prop := property occu in
    let? new_prop := property new in
    Some ((new_prop - prop - delta, prop - new_prop, new, [(site, c)])%Qc, new)
  end.
Fixpoint iterations (occu : list nat) (draws : list (nat * nat)) : option (list entry) :=
  match draws with
  | [] => Some []
  | d :: ds =>
    let? r := iteration occu d in
    let? es := iterations (snd r) ds in Some (fst r :: es)
  end.
(** [dp - self.compute_property_change(o, f)], base.py:296. *)
Definition back (e : entry) : option Qc :=
  let '(_, dp, o, f) := e in let? x := change o f in Some (dp - x)%Qc.
(** [compute_average_drift], base.py:257-299; no iterations raise ZeroDivisionError. *)
Definition average_drift (first : list nat) (draws : list (nat * nat)) : option (Qc * Qc) :=
  let? es := iterations (drawn_occupancy allowed first) draws in
  let? rs := opt_map back es in
  match draws with
  | [] => None
  | _ => let n := Qc_of_nat (length draws) in
         Some (qsum (map (fun e => fst (fst (fst e))) es) / n, qsum rs / n)%Qc
  end.
End Check.

(** The check of a processor and of a composite of processors. *)
Definition part_drift (p : part) := average_drift (part_property p) (part_property_change p).
Definition composite_drift (ps : list part) := average_drift (composite_property ps) (composite_property_change ps).
