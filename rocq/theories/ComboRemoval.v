(** Model of [remove_bit_combo] of [smol/cofe/space/orbit.py]. *)
From Verif Require Export Subspace.
Set Implicit Arguments.

(** [remove_bit_combo], orbit.py:297-315.  [None] is the RuntimeError, which is raised before the assignment.
    The arrays dropped by [reset_bases], orbit.py:462-466, are always computed anew in the model. *)
Definition remove_bit_combo (bits : list nat) (o : sorbit) : option sorbit :=
  let bit_combos := filter (fun bit_combo => negb (existsb (row_eqb bits) bit_combo)) (s_combos o) in
  if length bit_combos =? 0 then None else Some (with_combos o bit_combos).
