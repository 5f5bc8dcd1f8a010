(** Tables of values per site and code, as built in bias.py:216-233 and 253-266 and
    ensemble.py:89-99: [table[sublatt.sites[:, None], sublatt.encoding] = values]. *)
From Verif Require Export OccuUtils.
Set Implicit Arguments.
Open Scope nat_scope.

Definition vtable := list (list Qc).
(** [table[site, code]]; [None] is an IndexError. *)
Definition get_val (t : vtable) (s c : nat) : option Qc := let? row := nth_error t s in nth_error row c.
Fixpoint put_codes (row : list Qc) (enc : list nat) (vals : list Qc) : option (list Qc) :=
  match enc, vals with
  | c :: enc', v :: vals' => if c <? length row then put_codes (upd row c v) enc' vals' else None
  | _, _ => Some row
  end.
Fixpoint put_sites (t : vtable) (sites enc : list nat) (vals : list Qc) : option vtable :=
  match sites with
  | [] => Some t
  | s :: sites' => let? row := nth_error t s in
                   let? row' := put_codes row enc vals in
                   put_sites (upd t s row') sites' enc vals
  end.
(** NumPy broadcasting of the values against the codes. *)
Definition bcast (vals : list Qc) (k : nat) : option (list Qc) :=
  if length vals =? k then Some vals
  else match vals with [v] => Some (repeat v k) | _ => None end.
Record block := mkBlock { bk_sites : list nat; bk_enc : list nat; bk_vals : list Qc }.
Definition put_block (t : vtable) (b : block) : option vtable :=
  let? vals := bcast (bk_vals b) (length (bk_enc b)) in put_sites t (bk_sites b) (bk_enc b) vals.
Fixpoint put_blocks (t : vtable) (bs : list block) : option vtable :=
  match bs with
  | [] => Some t
  | b :: bs' => let? t' := put_block t b in put_blocks t' bs'
  end.
Definition build_table (default : Qc) (rows cols : nat) (bs : list block) : option vtable :=
  put_blocks (repeat (repeat default cols) rows) bs.

(** [max(max(sl.encoding) for sl in sublattices) + 1] and
    [sum(len(sl.sites) for sl in sublattices)]; [max] of nothing raises. *)
Definition num_cols (sls : list sublattice) : option nat :=
  if (length sls =? 0) || existsb (fun sl => length (sl_encoding sl) =? 0) sls then None
  else Some (max_list (map (fun sl => max_list (sl_encoding sl)) sls) + 1).
Definition num_rows (sls : list sublattice) : nat := list_sum (map (fun sl => length (sl_sites sl)) sls).

(** Dictionary lookup by species. *)
Fixpoint sp_lookup (sp : species) (d : list (species * Qc)) : option Qc :=
  match d with
  | [] => None
  | (k, v) :: d' => if sp_eqb k sp then Some v else sp_lookup sp d'
  end.
Definition sp_dec (a b : species) : {a = b} + {a <> b}.
Proof. decide equality. apply Nat.eq_dec. Defined.
Definition sp_mem (sp : species) (l : list species) : bool := existsb (sp_eqb sp) l.
Definition same_species (a b : list species) : bool :=
  forallb (fun x => sp_mem x b) a && forallb (fun x => sp_mem x a) b.
Fixpoint sp_dup (l : list species) : bool :=
  match l with [] => false | x :: l' => sp_mem x l' || sp_dup l' end.
(** [[values[sp] for sp in sublatt.site_space]]; [None] is a KeyError. *)
Definition species_values (d : list (species * Qc)) (sl : sublattice) : option (list Qc) :=
  opt_map (fun sp => sp_lookup sp d) (sl_species sl).

(** [sum(f(site, code) for site, code in enumerate(occupancy))]. *)
Definition site_values (t : vtable) (occu : list nat) : option (list Qc) :=
  opt_map (fun p => get_val t (fst p) (snd p)) (combine (seq 0 (length occu)) occu).

(** [{site: code for site, code in step}]: insertion order of the keys, last values. *)
Fixpoint dict_put (d : list (nat * nat)) (k v : nat) : list (nat * nat) :=
  match d with
  | [] => [(k, v)]
  | (k', v') :: d' => if k' =? k then (k', v) :: d' else (k', v') :: dict_put d' k v
  end.
Definition step_dict (st : step) : list (nat * nat) :=
  fold_left (fun d f => dict_put d (fst f) (snd f)) st [].
