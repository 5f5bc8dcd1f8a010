(** Duplicate feature vectors and structure filters
    (smol/cofe/wrangling/wrangler.py and smol/cofe/wrangling/tools.py). *)
From Verif Require Export QcLib Cluster Sublattice.
Set Implicit Arguments.
Local Open Scope Qc_scope.

(** ** Columns *)
(** What the column selection reads of one orbit: number of sites, diameter of the base
    cluster, first function index and number of functions. *)
Record orbit_info := mkOI { oi_size : nat; oi_diameter : Qc; oi_first : nat; oi_len : nat }.

(** Cutoffs: one number for every size, or a dictionary by size. *)
Inductive cutoffs := Single (c : Qc) | PerSize (d : list (nat * Qc)).

(** [self._orbits[size]], the orbits of a size; a size without orbits is a [KeyError]. *)
Definition orbits_of_size (orbits : list orbit_info) (k : nat) : option (list orbit_info) :=
  match filter (fun o => (oi_size o =? k)%nat) orbits with [] => None | l => Some l end.

(** [orbits_from_cutoffs] with the default lower cutoff, clusterspace.py:565-600. *)
Definition orbits_from_cutoffs (orbits : list orbit_info) (u : cutoffs) : option (list orbit_info) :=
  let d := match u with
           | PerSize d => d
           | Single c => map (fun k => (k, c)) (nodup Nat.eq_dec (map oi_size orbits))
           end in
  let? ls := opt_map (fun p : nat * Qc => let? os := orbits_of_size orbits (fst p) in
               Some (filter (fun o => Qcleb 0 (oi_diameter o) && Qcleb (oi_diameter o) (snd p)) os)) d in
  Some (concat ls).

(** [function_inds_from_cutoffs], clusterspace.py:602-626. *)
Definition function_inds_from_cutoffs (orbits : list orbit_info) (u : cutoffs) : option (list nat) :=
  let? os := orbits_from_cutoffs orbits u in
  Some (flat_map (fun o => seq (oi_first o) (oi_len o)) os).

(** [np.around(x, decimals)]: nearest multiple of a power of ten, halves to the even one. *)
Definition around (decimals : nat) (x : Qc) : Qc :=
  let p := Qc_of_Z (10 ^ Z.of_nat decimals) in Qc_of_Z (qround (x * p)) / p.

(** ** Groups of equal rows *)
(** Order of rows used by [np.unique(axis=0)]: first different entry. *)
Fixpoint row_leb (x y : list Qc) : bool :=
  match x, y with
  | [], _ => true
  | _, [] => false
  | a :: x', b :: y' => if Qceqb a b then row_leb x' y' else Qcltb a b
  end.
Fixpoint row_insert (x : list Qc) (l : list (list Qc)) : list (list Qc) :=
  match l with [] => [x] | y :: l' => if row_leb x y then x :: l else y :: row_insert x l' end.
Definition row_eq_dec : forall x y : list Qc, {x = y} + {x <> y} := list_eq_dec Qc_eq_dec.
(** The rows of [np.unique(axis=0)]: sorted, each one once. *)
Definition unique_rows (l : list (list Qc)) : list (list Qc) := fold_right row_insert [] (nodup row_eq_dec l).
(** Position of a row, the entry of [inverse]. *)
Fixpoint row_index (x : list Qc) (l : list (list Qc)) : nat :=
  match l with [] => 0 | y :: l' => if row_eq_dec x y then 0 else S (row_index x l') end.
(** [np.where(inverse == i)[0]]. *)
Definition where_eq (inverse : list nat) (i : nat) : list nat :=
  filter (fun k => (nth k inverse 0 =? i)%nat) (seq 0 (length inverse)).
(** wrangler.py:283-288. *)
Definition duplicate_groups (rows : list (list Qc)) : list (list nat) :=
  let u := unique_rows rows in
  let inverse := map (fun r => row_index r u) rows in
  filter (fun g => (1 <? length g)%nat) (map (where_eq inverse) (np_unique inverse)).

(** [m[:, inds]]: out of range columns raise. *)
Definition select_columns (inds : list nat) (m : list (list Qc)) : option (list (list Qc)) :=
  opt_map (fun r => opt_map (nth_error r) inds) m.

(** [get_duplicate_corr_indices], wrangler.py:243-289.  [nfeat] is the number of columns and
    [next] the number of external terms.  An empty float index array raises, and neither a
    [range] nor an array has an [extend] method (line 274-275). *)
Definition get_duplicates (orbits : list orbit_info) (nfeat next : nat) (m : list (list Qc))
  (cut : option cutoffs) (decimals : option nat) (rm_external : bool) : option (list (list nat)) :=
  match m with
  | [] => Some []
  | _ =>
    let? inds := match cut with
                 | Some u => let? i := function_inds_from_cutoffs orbits u in match i with [] => None | _ => Some i end
                 | None => Some (seq 0 (nfeat - next))
                 end in
    if negb rm_external then None else
    let m' := match decimals with None => m | Some d => map (map (around d)) m end in
    let? rows := select_columns inds m' in
    Some (duplicate_groups rows)
  end.

(** ** Merging of matching pairs *)
(** [itertools.combinations(l, 2)]. *)
Fixpoint pairs2 {A} (l : list A) : list (A * A) :=
  match l with [] => [] | x :: l' => map (pair x) l' ++ pairs2 l' end.
(** Sets of indices are kept as increasing lists, so equal sets are equal lists. *)
Definition set_union (s t : list nat) : list nat := np_unique (s ++ t).
Definition overlap (s t : list nat) : bool := existsb (fun x => existsb (Nat.eqb x) t) s.
Definition set_in (s : list nat) (l : list (list nat)) : bool := if in_dec (list_eq_dec Nat.eq_dec) s l then true else false.
(** [filter(lambda s: s[0] & s[1], combinations(matches, 2))]. *)
Definition overlaps (ms : list (list nat)) : list (list nat * list nat) :=
  filter (fun p => overlap (fst p) (snd p)) (pairs2 ms).
(** One pass of the loop, wrangler.py:331-338. *)
Definition merge_pass (ms : list (list nat)) : list (list nat) :=
  let ov := overlaps ms in
  let all := flat_map (fun p => [fst p; snd p]) ov in
  fold_left (fun acc p => let u := set_union (fst p) (snd p) in if set_in u acc then acc else acc ++ [u])
    ov (filter (fun s => negb (set_in s all)) ms).
(** The [while] loop, wrangler.py:328-339, with fuel; [None] when the fuel does not suffice. *)
Fixpoint merge_loop (fuel : nat) (ms : list (list nat)) : option (list (list nat)) :=
  match overlaps ms with
  | [] => Some ms
  | _ => match fuel with 0 => None | S n => merge_loop n (merge_pass ms) end
  end.
(** The matches of one duplicate group, wrangler.py:316-340: [fit] is the structure matcher. *)
Definition matching_groups (fit : nat -> nat -> bool) (inds : list nat) : option (list (list nat)) :=
  merge_loop (length inds) (map (fun p => set_union [fst p] [snd p]) (filter (fun p => fit (fst p) (snd p)) (pairs2 inds))).
(** [get_matching_corr_duplicate_indices], wrangler.py:291-340: the number of decimals is passed
    in the place of the cutoffs (line 315), the rounding is always to twelve decimals. *)
Definition get_matching (orbits : list orbit_info) (nfeat next : nat) (m : list (list Qc))
  (decimals : nat) (fit : nat -> nat -> bool) : option (list (list nat)) :=
  let? groups := get_duplicates orbits nfeat next m (Some (Single (Qc_of_nat decimals))) (Some 12) true in
  let? ls := opt_map (matching_groups fit) groups in
  Some (concat ls).

(** ** Constant features *)
(** [get_constant_features], wrangler.py:342-357: the first constant column is left out. *)
Definition constant_columns (m : list (list Qc)) : option (list nat) :=
  match m with
  | [] => None
  | r0 :: _ => Some (filter (fun j => forallb (fun r => Qceqb (nth j r 0) (nth j r0 0)) m) (seq 0 (length r0)))
  end.
Definition get_constant_features (m : list (list Qc)) : option (list nat) :=
  let? c := constant_columns m in Some (tl c).

(** ** Filters *)
(** [np.argmin] and [np.argmax]: the first position of the extreme value. *)
Fixpoint argbest (better : Qc -> Qc -> bool) (l : list Qc) : nat :=
  match l with
  | [] => 0
  | x :: l' => match l' with
               | [] => 0
               | _ => let k := argbest better l' in if better (nth k l' 0) x then S k else 0
               end
  end.
Definition argmin := argbest (fun a b => Qcltb a b).
Definition argmax := argbest (fun a b => Qcltb b a).

(** [unique_corr_vector_indices], tools.py:19-59.  Sets of small integers are listed in
    increasing order. *)
Definition unique_indices (best : list Qc -> nat) (prop : list Qc) (dupes : list (list nat)) (n : nat) : list nat * list nat :=
  let kept := map (fun g => nth (best (map (fun i => nth i prop 0) g)) g 0%nat) dupes in
  let dup := filter (fun i => negb (existsb (Nat.eqb i) kept)) (np_unique (concat dupes)) in
  (filter (fun i => negb (existsb (Nat.eqb i) dup)) (seq 0 n), dup).

Definition unique_corr_vector_indices (orbits : list orbit_info) (nfeat next : nat) (m : list (list Qc)) (prop : list Qc)
  (by_max : bool) (cut : option cutoffs) : option (list nat * list nat) :=
  let? dupes := get_duplicates orbits nfeat next m cut (Some 12) true in
  Some (unique_indices (if by_max then argmax else argmin) prop dupes (length m)).

(** [min_energy_by_comp], tools.py:104-108: dictionary from compositions to the lowest energy so
    far, a missing key is infinity.  Compositions are compared as keys. *)
Fixpoint comp_lookup (c : nat) (d : list (nat * Qc)) : option Qc :=
  match d with [] => None | (k, e) :: d' => if (k =? c)%nat then Some e else comp_lookup c d' end.
Definition min_update (d : list (nat * Qc)) (p : Qc * nat) : list (nat * Qc) :=
  match comp_lookup (snd p) d with
  | Some e => if Qcltb (fst p) e then (snd p, fst p) :: d else d
  | None => (snd p, fst p) :: d
  end.
Definition min_by_comp (data : list (Qc * nat)) : list (nat * Qc) := fold_left min_update data [].

(** The energies used, tools.py:83-102: the last feature if some external term is an Ewald term
    (whatever the last external term is), else energies computed with a new Ewald term. *)
Definition filter_energies (terms : list bool) (m : list (list Qc)) (computed : list Qc) : list Qc :=
  if existsb (fun b => b) terms then map (fun r => last r 0) m else computed.

(** [max_ewald_energy_indices], tools.py:104-122. *)
Definition ewald_indices (energies : list Qc) (comps : list nat) (cutoff : Qc) : list nat * list nat :=
  let data := combine energies comps in
  let d := min_by_comp data in
  let low i := match nth_error data i with
               | Some (e, c) => match comp_lookup c d with Some m => Qcltb (e - m) cutoff | None => false end
               | None => false
               end in
  (filter low (seq 0 (length data)), filter (fun i => negb (low i)) (seq 0 (length data))).

(** [_energies_above_composition], tools.py:192-203. *)
Definition energies_above (energies : list Qc) (sizes : list nat) (comps : list nat) : list Qc :=
  let data := combine (map (fun p => fst p / Qc_of_nat (snd p)) (combine energies sizes)) comps in
  let d := min_by_comp data in
  map (fun p => match comp_lookup (snd p) d with Some m => fst p - m | None => 0 end) data.
