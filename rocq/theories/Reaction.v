(** Model of [flip_vec_to_reaction] and [flip_reactions] of [smol/moca/composition/space.py].

    A formula is kept as its two lists of terms: number, species and sublattice.  Their text
    ([f"{number} {species}({sublattice})"], joined by " + " and " -> ") is not modelled. *)
From Verif Require Export Ergodic.
Set Implicit Arguments.
Open Scope Z_scope.

(** A term of a formula, space.py:63 and 65. *)
Definition rterm := (Z * species * nat)%type.
(** The inner loop, space.py:61-65; [None] is an IndexError. *)
Fixpoint sublattice_terms (u : list Z) (sl_id : nat) (l : list (species * nat)) : option (list rterm * list rterm) :=
  match l with
  | [] => Some ([], [])
  | (specie, dim) :: l' =>
      let? x := nth_error u dim in
      let? (from_terms, to_terms) := sublattice_terms u sl_id l' in
      Some (if x <? 0 then ((- x, specie, sl_id) :: from_terms, to_terms)
            else if 0 <? x then (from_terms, (x, specie, sl_id) :: to_terms)
            else (from_terms, to_terms))
  end.
(** The outer loop, space.py:60-65. *)
Fixpoint reaction_from (u : list Z) (sl_id : nat) (l : list (list species * list nat)) : option (list rterm * list rterm) :=
  match l with
  | [] => Some ([], [])
  | (sl_species, sl_dims) :: l' =>
      let? (f, t) := sublattice_terms u sl_id (combine sl_species sl_dims) in
      let? (f', t') := reaction_from u (S sl_id) l' in
      Some (f ++ f', t ++ t')
  end.
(** [flip_vec_to_reaction], space.py:43-69. *)
Definition flip_vec_to_reaction (u : list Z) (bits : list (list species)) : option (list rterm * list rterm) :=
  reaction_from u 0 (combine bits (cs_dim_ids bits)).
(** [flip_reactions], space.py:431-439, for the flip table [us]. *)
Definition flip_reactions (us : list (list Z)) (sp : cspace) : option (list (list rterm * list rterm)) :=
  opt_map (fun u => flip_vec_to_reaction u (cs_bits sp)) us.
