(** Model of [smol/moca/sublattice.py]. *)
From Verif Require Export Domain.
Set Implicit Arguments.
Open Scope nat_scope.

Definition memb (x : nat) (l : list nat) : bool := existsb (Nat.eqb x) l.

(** [np.unique]: sorted without repetitions. *)
Fixpoint insert_unique (x : nat) (l : list nat) : list nat :=
  match l with
  | [] => [x]
  | y :: l' => if x <? y then x :: l
               else if x =? y then l else y :: insert_unique x l'
  end.
Definition np_unique (l : list nat) : list nat := fold_right insert_unique [] l.

(** The dataclass of sublattice.py:22-53. *)
Record sublattice := mkSL {
  sl_space : site_space;
  sl_sites : list nat;
  sl_active : list nat;
  sl_encoding : list nat
}.

(** [species], sublattice.py:75-78. *)
Definition sl_species (sl : sublattice) : list species := map fst (sl_space sl).
(** [is_active], sublattice.py:65-73 (without the warning). *)
Definition is_active (sl : sublattice) : bool := 0 <? length (sl_active sl).

Definition set_active (sl : sublattice) (a : list nat) : sublattice :=
  mkSL (sl_space sl) (sl_sites sl) a (sl_encoding sl).

(** [restrict_sites], sublattice.py:90-100. *)
Definition restrict_sites (sl : sublattice) (sites : list nat) : sublattice :=
  set_active sl (filter (fun i => negb (memb i sites)) (sl_active sl)).

(** [reset_restricted_sites], sublattice.py:102-106. *)
Definition reset_restricted_sites (sl : sublattice) : sublattice :=
  if 1 <? length (sl_space sl) then set_active sl (sl_sites sl) else sl.

(** [restricted_sites], sublattice.py:85-88 ([np.setdiff1d]). *)
Definition restricted_sites (sl : sublattice) : list nat :=
  np_unique (filter (fun i => negb (memb i (sl_active sl))) (sl_sites sl)).

(** Construction with [__post_init__], sublattice.py:55-63. *)
Definition mk_sublattice (space : site_space) (sites : list nat) : sublattice :=
  let sites' := np_unique sites in
  let sl := mkSL space sites' sites' (seq 0 (length space)) in
  if length space <=? 1 then restrict_sites sl sites' else sl.

(** The two mutating operations, as a history. *)
Inductive sl_op := Restrict (sites : list nat) | Reset.
Definition sl_step (sl : sublattice) (o : sl_op) : sublattice :=
  match o with Restrict s => restrict_sites sl s | Reset => reset_restricted_sites sl end.

(** [np.where(self.encoding == code)[0][0]], sublattice.py:157. *)
Fixpoint index_of (c : nat) (l : list nat) : option nat :=
  match l with
  | [] => None
  | x :: l' => if x =? c then Some 0
               else match index_of c l' with Some i => Some (S i) | None => None end
  end.

(** [sites[occu[sites] == code]]; [None] when a site is outside the occupancy. *)
Definition sites_with_code (occu : list nat) (sites : list nat) (code : nat) : list nat :=
  filter (fun s => match nth_error occu s with Some c => c =? code | None => false end) sites.

Definition in_range (occu : list nat) (sites : list nat) : bool :=
  forallb (fun s => s <? length occu) sites.

(** One pass of the loop over partitions, sublattice.py:150-181, for a group
    given by codes (the conversion from species to codes, lines 135-148, is
    [codes_of_species] below). *)
Definition split_part leb (sl : sublattice) (occu : list nat) (group : list nat)
  : option sublattice :=
  let codes := sort_by Nat.leb group in
  let? items := opt_map (fun c => let? i := index_of c (sl_encoding sl) in
                                  nth_error (sl_space sl) i) codes in
  if negb (in_range occu (sl_sites sl)) then None else
  let sites := flat_map (sites_with_code occu (sl_sites sl)) codes in
  let actives := flat_map (sites_with_code occu (sl_active sl)) codes in
  let part_n := qsum (map snd items) in
  let comp := map (fun p => (fst p, (snd p / part_n)%Qc))
                  (filter (fun p => negb (is_vac (fst p))) items) in
  let? space := mk_site_space leb comp in
  let part := mkSL space (sl_sites (mk_sublattice space sites)) actives codes in
  Some (if length codes =? 1 then restrict_sites part (sl_sites part) else part).

(** [split_by_species], sublattice.py:108-182. *)
Definition split_by_species leb (sl : sublattice) (occu : list nat)
  (groups : list (list nat)) : option (list sublattice) :=
  opt_map (split_part leb sl occu) groups.

(** [get_index] and the comprehension of sublattice.py:138-148. *)
Fixpoint species_index (sp : species) (l : list species) : option nat :=
  match l with
  | [] => None
  | x :: l' => if sp_eqb x sp then Some 0
               else match species_index sp l' with Some i => Some (S i) | None => None end
  end.
Definition codes_of_species (sl : sublattice) (groups : list (list species))
  : option (list (list nat)) :=
  opt_map (opt_map (fun sp => let? i := species_index sp (sl_species sl) in
                              nth_error (sl_encoding sl) i)) groups.

(** [as_dict] / [from_dict], sublattice.py:197-223: the dictionary keeps the four
    fields; [from_dict] rebuilds through the constructor and then overwrites. The
    site space is serialised through its composition (domain.py:226-235), which is
    passed here already rebuilt. *)
Definition sl_as_dict (sl : sublattice) := (sl_sites sl, sl_encoding sl, sl_active sl).
Definition sl_from_dict (space : site_space) (d : list nat * list nat * list nat)
  : sublattice :=
  let '(sites, enc, act) := d in
  let sl := mk_sublattice space sites in
  mkSL (sl_space sl) (sl_sites sl) act enc.
