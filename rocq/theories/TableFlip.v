(** Model of [TableFlip] in [smol/moca/kernel/mcusher.py] and of the helpers
    [flip_weights_mask] and [choose_section_from_partition] of [smol/utils/math.py].

    Comparisons with a tolerance ([np.allclose], [NUM_TOL]) are modelled as exact
    comparisons.  The logarithm is in TableFlipLog.v. *)
From Verif Require Export Usher.
Set Implicit Arguments.
Open Scope nat_scope.

(** [directions], math.py:857. *)
Definition flip_directions (table : list (list Z)) : list (list Z) :=
  flat_map (fun u => [u; vopp u]) table.

(** [flip_weights_mask], math.py:832-866, with a list of maxima.  [np.concatenate]
    raises on an empty table; vectors of a different length raise when broadcast. *)
Definition feasible_dir (n max_n dir : list Z) : bool :=
  negb (existsb (fun x => (x <? 0)%Z) (vadd dir n)
        || existsb (fun p => (snd p <? fst p)%Z) (combine (vadd dir n) max_n)).
Definition flip_weights_mask (table : list (list Z)) (n max_n : list Z) : option (list bool) :=
  if (length table =? 0) || negb (forallb (fun u => length u =? length n) table)
     || negb (length max_n =? length n) then None
  else Some (map (feasible_dir n max_n) (flip_directions table)).

(** [choose_section_from_partition], math.py:870-893. *)
Definition choose_section (p : list Qc) : prog nat :=
  let p1 := if forallb (fun x => Qceqb x 0) p then repeat 1%Qc (length p) else p in
  if existsb (fun x => Qcltb x 0) p1 then pfail
  else choice_p (seq 0 (length p1)) (map (fun x => x / qsum p1)%Qc p1).

(** [rng.random() < w], mcusher.py:578. *)
Definition bernoulli (w : Qc) : prog bool :=
  if Qcleb w 0 then pret false
  else if Qcleb 1 w then pret true
  else [(w, Some true); ((1 - w)%Qc, Some false)].

(** The attributes of a [TableFlip], mcusher.py:489-542; [tf_A], [tf_b] and
    [tf_size] are the constraint matrix, the constants and the supercell size of the
    composition space. *)
Record tableflip := mkTF {
  tf_sls : list sublattice;
  tf_swapper : usher;
  tf_table : list (list Z);
  tf_weights : list Qc;
  tf_swap_weight : Qc;
  tf_A : list (list Z);
  tf_b : list Z;
  tf_size : Z
}.

(** [flip_weights], mcusher.py:520-538. *)
Definition table_weights (table : list (list Z)) (given : option (list Qc)) : option (list Qc) :=
  match given with
  | None => Some (repeat 1%Qc (2 * length table))
  | Some w => if negb (length w =? length table) && negb (length w =? 2 * length table) then None
              else if length w =? 2 * length table then Some w
              else Some (flat_map (fun x => [x; x]) w)
  end.

(** [d] and [max_n], mcusher.py:497-502. *)
Definition tf_d (tf : tableflip) : nat := list_sum (map (fun sl => length (sl_species sl)) (tf_sls tf)).
Definition tf_max (tf : tableflip) : list Z :=
  flat_map (fun sl => map (fun _ => Z.of_nat (length (sl_active sl))) (sl_species sl)) (tf_sls tf).

(** Species of a sublattice with the table entry, code and sites of each dimension,
    mcusher.py:624-628. *)
Definition flip_items (u : list Z) (species_list : list (list nat)) (dim_ids codes : list nat)
  : option (list (Z * nat * list nat)) :=
  if negb (length dim_ids =? length codes) then None
  else opt_map (fun p => let? z := nth_error u (fst p) in
                         let? l := nth_error species_list (fst p) in
                         Some (z, snd p, l)) (combine dim_ids codes).

(** The site picking loop, mcusher.py:629-632. *)
Fixpoint pick_from (items : list (Z * nat * list nat)) : prog (list nat) :=
  match items with
  | [] => pret []
  | (z, _, l) :: items' =>
      if (z <? 0)%Z then
        draw a <- choose_k (Z.to_nat (- z)) l;
        draw rest <- pick_from items';
        pret (a ++ rest)
      else pick_from items'
  end.

(** The assignment loop and the final assertion, mcusher.py:633-637. *)
Fixpoint assign_to (items : list (Z * nat * list nat)) (ids : list nat) : prog step :=
  match items with
  | [] => if length ids =? 0 then pret [] else pfail
  | (z, c, _) :: items' =>
      if (0 <? z)%Z then
        draw a <- choose_k (Z.to_nat z) ids;
        draw rest <- assign_to items' (filter (fun s => negb (memb s a)) ids);
        pret (map (fun s => (s, c)) a ++ rest)
      else assign_to items' ids
  end.

(** One sublattice, mcusher.py:620-637. *)
Definition flip_sublattice (u : list Z) (species_list : list (list nat))
  (sl : sublattice) (dim_ids : list nat) : prog step :=
  if negb (is_active sl) then pret []
  else
    draw items <- of_opt (flip_items u species_list dim_ids (sl_encoding sl));
    draw ids <- pick_from items;
    assign_to items ids.

Fixpoint flip_sublattices (u : list Z) (species_list : list (list nat))
  (l : list (sublattice * list nat)) : prog step :=
  match l with
  | [] => pret []
  | (sl, dims) :: l' =>
      draw a <- flip_sublattice u species_list sl dims;
      draw b <- flip_sublattices u species_list l';
      pret (a ++ b)
  end.

(** [self._comp_space._A @ n == b * size], mcusher.py:587-590. *)
Definition constraints_hold (tf : tableflip) (n : list Z) : bool :=
  forallb (fun p => (dot (fst p) n =? snd p * tf_size tf)%Z) (combine (tf_A tf) (tf_b tf)).

(** Masked weights: [flip_weights * mask], mcusher.py:598. *)
Definition masked (w : list Qc) (mask : list bool) : list Qc :=
  map (fun p : Qc * bool => if snd p then fst p else 0%Qc) (combine w mask).

Definition count_list (L : list (list nat)) : list Z := map (fun l => Z.of_nat (length l)) L.

(** [TableFlip.propose_step], mcusher.py:553-639. *)
Definition table_propose (tf : tableflip) (occu : list nat) : prog step :=
  draw do_swap <- bernoulli (tf_swap_weight tf);
  if do_swap then swap_propose (tf_swapper tf) occu
  else
    draw t <- of_opt (get_dim_ids_table (tf_sls tf) true);
    draw t_full <- of_opt (get_dim_ids_table (tf_sls tf) false);
    draw L <- of_opt (occu_to_species_list occu (tf_d tf) t);
    draw L_full <- of_opt (occu_to_species_list occu (tf_d tf) t_full);
    draw mask <- of_opt (if constraints_hold tf (count_list L_full)
                         then flip_weights_mask (tf_table tf) (count_list L) (tf_max tf)
                         else Some (repeat false (2 * length (tf_table tf))));
    let mw := masked (tf_weights tf) mask in
    if existsb (fun x => Qcltb x 0) mw then pfail
    else if forallb (fun x => Qceqb x 0) mw then swap_propose (tf_swapper tf) occu
    else
      draw idx <- choose_section mw;
      draw v <- of_opt (nth_error (tf_table tf) (idx / 2));
      let u := if idx mod 2 =? 1 then vopp v else v in
      flip_sublattices u L
        (combine (tf_sls tf)
           (get_dim_ids_by_sublattice (map (fun sl => length (sl_species sl)) (tf_sls tf)))).

(** [_get_flip_id], mcusher.py:641-654: [Some None] is [(-1, 0)], [Some (Some (fid, dir))]
    a table flip, [None] "not in table". *)
Definition z_eqb (u v : list Z) : bool := if list_eq_dec Z.eq_dec u v then true else false.
Fixpoint find_flip (fid : nat) (table : list (list Z)) (dn : list Z) : option (nat * nat) :=
  match table with
  | [] => None
  | v :: table' => if z_eqb v dn then Some (fid, 0)
                   else if z_eqb (vopp v) dn then Some (fid, 1)
                   else find_flip (S fid) table' dn
  end.
Definition get_flip_id (table : list (list Z)) (dn : list Z) : option (option (nat * nat)) :=
  if forallb (fun x => (x =? 0)%Z) dn then Some None
  else match find_flip 0 table dn with Some p => Some (Some p) | None => None end.
