(** Model of [smol/moca/occu_utils.py]. *)
From Verif Require Export Sublattice.
Set Implicit Arguments.
Open Scope nat_scope.

(** [get_dim_ids_by_sublattice], occu_utils.py:8-23; [bits] given by the number of
    species per sublattice. *)
Fixpoint dim_ids_from (dim_id : nat) (lens : list nat) : list (list nat) :=
  match lens with
  | [] => []
  | k :: lens' => seq dim_id k :: dim_ids_from (dim_id + k) lens'
  end.
Definition get_dim_ids_by_sublattice (lens : list nat) := dim_ids_from 0 lens.

(** 2D integer arrays; -1 marks "not counted". *)
Definition table := list (list Z).

(** [table[sites, code] = dim_id], occu_utils.py:56. [None] is an IndexError. *)
Definition set_cell (t : table) (site code : nat) (v : Z) : option table :=
  let? row := nth_error t site in
  if code <? length row then Some (upd t site (upd row code v)) else None.
Fixpoint set_cells (t : table) (sites : list nat) (code : nat) (v : Z) : option table :=
  match sites with
  | [] => Some t
  | s :: sites' => let? t' := set_cell t s code v in set_cells t' sites' code v
  end.

(** The two loops of [get_dim_ids_table], occu_utils.py:48-57. *)
Fixpoint fill_codes (t : table) (dim_id : nat) (sites codes : list nat)
  : option (table * nat) :=
  match codes with
  | [] => Some (t, dim_id)
  | c :: codes' => let? t' := set_cells t sites c (Z.of_nat dim_id) in
                   fill_codes t' (S dim_id) sites codes'
  end.
Fixpoint fill_sublattices (t : table) (dim_id : nat) (active_only : bool)
  (sls : list sublattice) : option (table * nat) :=
  match sls with
  | [] => Some (t, dim_id)
  | sl :: sls' =>
      let? (t', d') := fill_codes t dim_id
        (if active_only then sl_active sl else sl_sites sl) (sl_encoding sl) in
      fill_sublattices t' d' active_only sls'
  end.

Definition max_list (l : list nat) : nat := fold_right Nat.max 0 l.

(** [get_dim_ids_table], occu_utils.py:27-58.  [max] of an empty encoding raises
    in Python, so an empty list of sublattices or an empty encoding is [None]. *)
Definition get_dim_ids_table (sls : list sublattice) (active_only : bool) : option table :=
  if (length sls =? 0) || existsb (fun sl => length (sl_encoding sl) =? 0) sls then None
  else
    let n_row := list_sum (map (fun sl => length (sl_sites sl)) sls) in
    let n_col := max_list (map (fun sl => max_list (sl_encoding sl)) sls) + 1 in
    let? (t, _) := fill_sublattices (repeat (repeat (-1)%Z n_col) n_row) 0 active_only sls in
    Some t.

(** [table[site, code]] for non-negative indices. *)
Definition get_cell (t : table) (site code : nat) : option Z :=
  let? row := nth_error t site in nth_error row code.

(** [dim_ids_table[np.arange(len(occu)), occu]] after the length check,
    occu_utils.py:85-91 and 118-124. *)
Definition occu_dims (occu : list nat) (t : table) : option (list Z) :=
  if negb (length occu =? length t) then None
  else opt_map (fun p => nth_error (snd p) (fst p)) (combine occu t).

(** [occu_to_species_list], occu_utils.py:62-93. *)
Definition positions (d : Z) (dims : list Z) : list nat :=
  map fst (filter (fun p => Z.eqb (snd p) d) (combine (seq 0 (length dims)) dims)).
Definition occu_to_species_list (occu : list nat) (n_dims : nat) (t : table)
  : option (list (list nat)) :=
  let? dims := occu_dims occu t in
  Some (map (fun i => positions (Z.of_nat i) dims) (seq 0 n_dims)).

(** [occu_to_counts], occu_utils.py:96-128: [np.unique] with counts, then
    assignment of the non-negative ones.  [None] also when a dimension is outside
    [n_dims] (IndexError in numpy). *)
Definition occu_to_counts (occu : list nat) (n_dims : nat) (t : table)
  : option (list Z) :=
  let? dims := occu_dims occu t in
  if forallb (fun d => Z.ltb d (Z.of_nat n_dims)) dims
  then Some (map (fun i => Z.of_nat (countb (Z.eqb (Z.of_nat i)) dims)) (seq 0 n_dims))
  else None.

(** In-place [delta_n[d] += v] for a valid index. *)
Definition add_at (v : list Z) (d : nat) (x : Z) : option (list Z) :=
  let? y := nth_error v d in Some (upd v d (y + x)%Z).

(** A Monte Carlo step: list of (site, code). *)
Definition step := list (nat * nat).
(** [for site, code in step: occu[site] = code]. *)
Definition apply_step (occu : list nat) (s : step) : list nat :=
  fold_left (fun o f => upd o (fst f) (snd f)) s occu.

(** [delta_counts_from_step], occu_utils.py:131-169. *)
Fixpoint delta_loop (occu : list nat) (s : step) (t : table) (dn : list Z)
  : option (list Z) :=
  match s with
  | [] => Some dn
  | (site, code) :: s' =>
      let? code_ori := nth_error occu site in
      let? dim_ori := get_cell t site code_ori in
      let? dim_nex := get_cell t site code in
      if (dim_ori <? 0)%Z || (dim_nex <? 0)%Z then None
      else
        let? dn1 := add_at dn (Z.to_nat dim_ori) (-1) in
        let? dn2 := add_at dn1 (Z.to_nat dim_nex) 1 in
        delta_loop (upd occu site code) s' t dn2
  end.
Definition delta_counts_from_step (occu : list nat) (s : step) (n_dims : nat) (t : table)
  : option (list Z) := delta_loop occu s t (repeat 0%Z n_dims).
