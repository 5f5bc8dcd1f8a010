(** Model of occupancies from structures: smol/cofe/space/clusterspace.py:650-819, and of structures from occupancies:
    smol/moca/processor/base.py:180-230, smol/moca/sampler/container.py:144-179. *)
From Verif Require Export QcLib.
Set Implicit Arguments.
Open Scope nat_scope.

(** A species: an atom, or a [Vacancy] (domain.py:238-274) with a label for its symbol, oxidation state and spin; label 0 is [Vacancy()].
    Vacancies are equal only with equal labels. *)
Inductive specie := Atom (s : nat) | Vacancy (label : nat).
Definition specie_eqb (a b : specie) : bool :=
  match a, b with Atom x, Atom y => Nat.eqb x y | Vacancy x, Vacancy y => Nat.eqb x y | _, _ => false end.
Definition is_vacancy (a : specie) : bool := match a with Vacancy _ => true | Atom _ => false end.

(** [list.index], clusterspace.py:801 and base.py:220. *)
Fixpoint index_where {A} (f : A -> bool) (l : list A) : option nat :=
  match l with [] => None | x :: l' => if f x then Some 0 else option_map S (index_where f l') end.
(** The species at site [i] of the supercell, clusterspace.py:800-803.  [str]: species of the sites of the structure;
    [mapping]: for each of them the site of the supercell (the answer of pymatgen's matcher, or the argument). *)
Definition spec_at (str : list specie) (mapping : list nat) (i : nat) : option specie :=
  match index_where (Nat.eqb i) mapping with
  | Some j => nth_error str j
  | None => Some (Vacancy 0)
  end.
(** One turn of the loop, clusterspace.py:796-811: [None] is the StructureMatchError of line 805. *)
Definition site_specie (str : list specie) (mapping : list nat) (p : nat * list specie) : option specie :=
  let? sp := spec_at str mapping (fst p) in
  if existsb (specie_eqb sp) (snd p) then Some sp else None.
Definition numbered {A} (l : list A) : list (nat * A) := combine (seq 0 (length l)) l.
(** [occupancy_from_structure] of the subspace, clusterspace.py:749-819; [allowed]: the species allowed at each site of the supercell. *)
Definition occupancy_from_structure (allowed : list (list specie)) (str : list specie) (mapping : list nat) : option (list specie) :=
  opt_map (site_specie str mapping) (numbered allowed).
(** The same with [encode=True], line 809. *)
Definition site_code (str : list specie) (mapping : list nat) (p : nat * list specie) : option nat :=
  let? sp := site_specie str mapping p in index_where (specie_eqb sp) (snd p).
Definition encoded_from_structure (allowed : list (list specie)) (str : list specie) (mapping : list nat) : option (list nat) :=
  opt_map (site_code str mapping) (numbered allowed).
(** [refine_structure], clusterspace.py:708-747: every vacancy is skipped.  A site of the result: its index in the supercell and its species. *)
Definition refine_structure (allowed : list (list specie)) (str : list specie) (mapping : list nat) : option (list (nat * specie)) :=
  let? occu := occupancy_from_structure allowed str mapping in
  Some (filter (fun p => negb (is_vacancy (snd p))) (numbered occu)).
(** [encode_occupancy] and [decode_occupancy] of a processor, base.py:216-230. *)
Definition encode_occupancy (allowed : list (list specie)) (occu : list specie) : option (list nat) :=
  opt_map (fun p => index_where (specie_eqb (snd p)) (fst p)) (combine allowed occu).
Definition decode_occupancy (allowed : list (list specie)) (codes : list nat) : option (list specie) :=
  opt_map (fun p => nth_error (fst p) (snd p)) (combine allowed codes).
(** [occupancy_from_structure] of a processor, base.py:180-196. *)
Definition processor_occupancy (allowed : list (list specie)) (str : list specie) (mapping : list nat) : option (list nat) :=
  let? occu := occupancy_from_structure allowed str mapping in encode_occupancy allowed occu.
(** [structure_from_occupancy], base.py:198-214: only species equal to [Vacancy()] are skipped. *)
Definition structure_from_occupancy (allowed : list (list specie)) (codes : list nat) : option (list (nat * specie)) :=
  let? occu := decode_occupancy allowed codes in
  Some (filter (fun p => negb (specie_eqb (snd p) (Vacancy 0))) (numbered occu)).
(** [get_sampled_structures], container.py:144-179, flat and not flat; an index out of range raises.  Left out: negative indices, and the conversion of a single index. *)
Definition sampled_structures (allowed : list (list specie)) (samples : list (list (list nat))) (indices : list nat) : option (list (list (nat * specie))) :=
  let? occus := opt_map (nth_error (concat samples)) indices in opt_map (structure_from_occupancy allowed) occus.
Definition sampled_structures_by_walker (allowed : list (list specie)) (samples : list (list (list nat))) (indices : list nat) : option (list (list (list (nat * specie)))) :=
  let? occus := opt_map (nth_error samples) indices in opt_map (opt_map (structure_from_occupancy allowed)) occus.
(** [corr_from_structure], clusterspace.py:650-706: [evaluate] is the evaluator with the indices of the supercell, [terms] the external terms (for the supercell), [size] the number of cells. *)
Definition corr_from_structure (evaluate : list nat -> list Qc) (terms : list (list nat -> list Qc)) (size : nat) (normalized : bool)
  (allowed : list (list specie)) (str : list specie) (mapping : list nat) : option (list Qc) :=
  let? occu := encoded_from_structure allowed str mapping in
  let corr := evaluate occu ++ concat (map (fun t => map (fun x => (x / Qc_of_nat size)%Qc) (t occu)) terms) in
  Some (if normalized then corr else map (fun x => (x * Qc_of_nat size)%Qc) corr).
