(** Model of occupancy encoding in [smol/moca/processor/base.py] and of
    [smol/moca/utils] free default sublattices. *)
From Verif Require Export Sublattice.
Set Implicit Arguments.
Open Scope nat_scope.

(** [encode_occupancy], processor/base.py:216-224: [zip] of allowed species and
    occupancy; [None] is the ValueError of [list.index]. *)
Fixpoint encode_occupancy (allowed : list (list species)) (occu : list species)
  : option (list nat) :=
  match allowed, occu with
  | sps :: allowed', sp :: occu' =>
      let? i := species_index sp sps in
      let? r := encode_occupancy allowed' occu' in Some (i :: r)
  | _, _ => Some []
  end.

(** [decode_occupancy], processor/base.py:226-230; [None] is an IndexError. *)
Fixpoint decode_occupancy (allowed : list (list species)) (enc : list nat)
  : option (list species) :=
  match allowed, enc with
  | sps :: allowed', i :: enc' =>
      let? sp := nth_error sps i in
      let? r := decode_occupancy allowed' enc' in Some (sp :: r)
  | _, _ => Some []
  end.

Fixpoint sps_eqb (a b : list species) : bool :=
  match a, b with
  | [], [] => true
  | x :: a', y :: b' => sp_eqb x y && sps_eqb a' b'
  | _, _ => false
  end.

(** [get_sublattices], processor/base.py:232-255. *)
Definition sites_of_space (allowed : list (list species)) (space : site_space) : list nat :=
  map fst (filter (fun p => sps_eqb (snd p) (map fst space))
                  (combine (seq 0 (length allowed)) allowed)).
Definition get_sublattices (allowed : list (list species)) (spaces : list site_space)
  : list sublattice :=
  map (fun sp => mk_sublattice sp (sites_of_space allowed sp)) spaces.

(** [structure_from_occupancy], processor/base.py:196-214: the non-vacancy
    species kept with their site index (the lattice coordinates of the site). *)
Definition structure_from_occupancy (allowed : list (list species)) (enc : list nat)
  : option (list (nat * species)) :=
  let? occu := decode_occupancy allowed enc in
  Some (filter (fun p => negb (is_vac (snd p))) (combine (seq 0 (length allowed)) occu)).
