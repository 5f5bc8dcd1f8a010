(** Linear constraints on compositions (smol/moca/composition/constraints.py).

    Simplifications: a string is the list of its words; the recognition of a word (the regular
    expressions of lines 70-71 and 163, [get_species]) is left out, so a word is a sign, a number with its
    value, a species with an optional sublattice, or a relation.  Numbers are exact rationals. *)
From Verif Require Export OccuUtils Cluster.
Set Implicit Arguments.
Open Scope nat_scope.

Inductive relation := RLe | RGe | REq.
Inductive word := WPlus | WMinus | WNum (q : Qc) | WSp (sp : species) (sl : option nat) | WRel (r : relation).
(** Processed literals, constraints.py:68-96. *)
Inductive lit := LPlus | LMinus | LNum (q : Qc) | LSp (sp : species) (sl : option nat).
(** Lines 82-84: [np.isclose(num, round(num))]. *)
Definition read_num (q : Qc) : Qc :=
  let r := Qc_of_Z (qround q) in
  if Qcleb (qabs (q - r)) (Qc_frac 1 100000000 + Qc_frac 1 100000 * qabs r)%Qc then r else q.
(** A relation inside a side is read by [get_species], which raises. *)
Definition read_word (w : word) : option lit :=
  match w with
  | WPlus => Some LPlus | WMinus => Some LMinus | WNum q => Some (LNum (read_num q)) | WSp sp sl => Some (LSp sp sl)
  | WRel _ => None
  end.

(** [_extract_symbols_before_number], constraints.py:15-29; [before] are the literals before the number in
    reverse order. *)
Fixpoint symbols_before (before : list lit) : Qc * nat :=
  match before with
  | LPlus :: before' => let (s, n) := symbols_before before' in (s, S n)
  | LMinus :: before' => let (s, n) := symbols_before before' in ((- s)%Qc, S n)
  | _ => (1%Qc, 0)
  end.
(** [_extract_number_before_species], constraints.py:32-52. *)
Fixpoint count_numbers (before : list lit) : nat :=
  match before with LNum _ :: before' => S (count_numbers before') | _ => 0 end.
Definition number_before (before : list lit) : option (Qc * nat) :=
  match count_numbers before with
  | 0 => Some (1%Qc, 0)
  | 1 => match before with LNum q :: _ => Some (q, 1) | _ => None end
  | _ => None
  end.
(** [handle_side_string], constraints.py:55-123; an empty side is an IndexError. *)
Definition pack_lit (lits : list lit) (i : nat) : option (list (Qc * species * option nat)) :=
  match nth_error lits i with
  | Some (LSp sp sl) =>
      let? (num, n_nums) := number_before (rev (firstn i lits)) in
      let (sym, _) := symbols_before (rev (firstn (i - n_nums) lits)) in
      Some [((sym * num)%Qc, sp, sl)]
  | _ => Some []
  end.
Definition handle_lits (lits : list lit) : option (list (Qc * species * option nat) * Qc) :=
  match rev lits with
  | [] => None
  | l :: before =>
      let (lits', intercept) :=
        match l with
        | LNum q => let (sym, n_sym) := symbols_before before in (firstn (length lits - (1 + n_sym)) lits, (sym * q)%Qc)
        | LPlus => (firstn (length lits - 1) lits, 1%Qc)
        | LMinus => (firstn (length lits - 1) lits, (- (1))%Qc)
        | LSp _ _ => (lits, 0%Qc)
        end in
      let? packed := opt_map (pack_lit lits') (seq 0 (length lits')) in
      Some (concat packed, intercept)
  end.
Definition handle_side (ws : list word) : option (list (Qc * species * option nat) * Qc) :=
  let? lits := opt_map read_word ws in handle_lits lits.

(** The separator, constraints.py:162-170: the last relation with something on both sides. *)
Definition is_rel (w : word) : bool := match w with WRel _ => true | _ => false end.
Definition separator (ws : list word) : option (list word * relation * list word) :=
  match rev (filter (fun i => match nth_error ws i with Some w => is_rel w | None => false end) (seq 1 (length ws - 2))) with
  | [] => None
  | i :: _ => match nth_error ws i with
              | Some (WRel r) => Some (firstn i ws, r, skipn (S i) ws)
              | _ => None
              end
  end.

(** [species in bits[k]] and [bits[k].index(species)]. *)
Fixpoint sp_index (sp : species) (l : list species) : option nat :=
  match l with [] => None | x :: l' => if sp_eqb x sp then Some 0 else option_map S (sp_index sp l') end.
(** One term, constraints.py:181-202 and 205-227; [None] is a ValueError or IndexError. *)
Definition add_coef (vec : list Qc) (d : nat) (c : Qc) : option (list Qc) :=
  let? q := nth_error vec d in Some (upd vec d (q + c)%Qc).
Definition add_packed (bits : list (list species)) (vec : list Qc) (t : Qc * species * option nat) : option (list Qc) :=
  let '(coef, sp, sl) := t in
  let dims := get_dim_ids_by_sublattice (map (@length species) bits) in
  match sl with
  | Some k =>
      let? sps := nth_error bits k in let? j := sp_index sp sps in
      let? ds := nth_error dims k in let? d := nth_error ds j in add_coef vec d coef
  | None =>
      if existsb (fun sps => match sp_index sp sps with Some _ => true | None => false end) bits then
        fold_left (fun v p => let? v' := v in
          match sp_index sp (fst p) with
          | Some j => let? d := nth_error (snd p) j in add_coef v' d coef
          | None => Some v'
          end) (combine bits dims) (Some vec)
      else None
  end.
Definition add_all (bits : list (list species)) (ts : list (Qc * species * option nat)) (vec : option (list Qc)) : option (list Qc) :=
  fold_left (fun v t => let? v' := v in add_packed bits v' t) ts vec.
Definition negate (t : Qc * species * option nat) : Qc * species * option nat := let '(c, sp, sl) := t in ((- c)%Qc, sp, sl).
(** [convert_constraint_string], constraints.py:126-231; subtracting a coefficient is adding its negative. *)
Definition convert_constraint (ws : list word) (bits : list (list species)) : option (list Qc * Qc * relation) :=
  let? (lw, r, rw) := separator ws in
  let? (lp, li) := handle_side lw in
  let? (rp, ri) := handle_side rw in
  let? v := add_all bits lp (Some (repeat 0%Qc (list_sum (map (@length species) bits)))) in
  let? v' := add_all bits (map negate rp) (Some v) in
  Some (v', (ri - li)%Qc, r).

(** ** The descriptor *)
(** An entry is a tuple, with a relation or another label, or a string. *)
Inductive entry := Tuple (vec : list Qc) (right : Qc) (r : option relation) | Text (ws : list word).
Record constraint_lists := mkCL { cl_eq : list (list Qc * Qc); cl_leq : list (list Qc * Qc) }.
(** Reading the entries, constraints.py:264-281. *)
Definition read_entry (bits : list (list species)) (e : entry) : option (list Qc * Qc * option relation) :=
  match e with
  | Tuple v b r => Some (v, b, r)
  | Text ws => let? (v, b, r) := convert_constraint ws bits in Some (v, b, Some r)
  end.
Definition add_entry (c : constraint_lists) (e : list Qc * Qc * option relation) : constraint_lists :=
  let '(v, b, r) := e in
  match r with
  | Some RLe => mkCL (cl_eq c) (cl_leq c ++ [(v, b)])
  | Some RGe => mkCL (cl_eq c) (cl_leq c ++ [(map Qcopp v, (- b)%Qc)])
  | Some REq => mkCL (cl_eq c ++ [(v, b)]) (cl_leq c)
  | None => c
  end.
Definition read_entries (bits : list (list species)) (es : list entry) : option constraint_lists :=
  let? rs := opt_map (read_entry bits) es in Some (fold_left add_entry rs (mkCL [] [])).
(** [__set__], constraints.py:251-299, on the private attribute; the outer [None] is an exception. *)
Definition assign (bits : list (list species)) (attr : option constraint_lists) (value : option (list entry)) : option (option constraint_lists) :=
  match value with
  | None => Some None
  | Some es => let? c := read_entries bits es in Some (match attr with None => Some c | Some c' => Some c' end)
  end.
