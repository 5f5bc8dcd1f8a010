(** Model of [smol/moca/sampler/container.py]: energies, means, variances, compositions and
    orbit factors of the samples of a container. *)
From Verif Require Export Container.
Set Implicit Arguments.
Open Scope nat_scope.

(** NumPy arrays with at most two axes, which is what [_flatten] returns. *)
Inductive arr := Num (x : Qc) | Vec (l : list Qc) | Mat (rows : list (list Qc)).

(** [_flatten], container.py:511-515, of values with one row per sample and walker and [k]
    numbers per row: [np.squeeze] removes every axis of length one. *)
Definition flatten (k : nat) (rows : list (list Qc)) : arr :=
  match rows with
  | [r] => if k =? 1 then Num (nth 0 r 0%Qc) else Vec r
  | _ => if k =? 1 then Vec (map (fun r => nth 0 r 0%Qc) rows) else Mat rows
  end.

Definition mean (l : list Qc) : Qc := (qsum l / Qc_of_nat (length l))%Qc.
Definition variance (l : list Qc) : Qc :=
  let m := mean l in mean (map (fun x => (x - m) * (x - m))%Qc l).
Definition column (j : nat) (rows : list (list Qc)) : list Qc := map (fun r => nth j r 0%Qc) rows.
(** [arr.mean(axis=0)] and [arr.var(axis=0)]: an array without axes raises; NaN (no rows) is
    [None].  [k] is the number of columns. *)
Definition along0 (stat : list Qc -> Qc) (k : nat) (a : arr) : option arr :=
  match a with
  | Num _ => None
  | Vec [] => None
  | Vec l => Some (Num (stat l))
  | Mat [] => None
  | Mat rows => Some (Vec (map (fun j => stat (column j rows)) (seq 0 k)))
  end.

Section Stats.
Variable W : Type.
Implicit Type c : container W.

(** [get_trace_value], container.py:181-186, flat; a traced value with [k] numbers. *)
Definition get_values (value : W -> list Qc) (k : nat) c (discard thin_by : nat) : option arr :=
  let? l := get_flat c discard thin_by in Some (flatten k (map value l)).
(** [mean_trace_value], [mean_enthalpy], [mean_feature_vector], container.py:188-190, 241-243
    and 257-259, flat. *)
Definition mean_values value k c discard thin_by : option arr :=
  let? a := get_values value k c discard thin_by in along0 mean k a.
(** [trace_value_variance], [enthalpy_variance], [feature_vector_variance],
    container.py:192-194, 245-247 and 261-263, flat. *)
Definition variance_values value k c discard thin_by : option arr :=
  let? a := get_values value k c discard thin_by in along0 variance k a.
(** The same four with [flat=False]: one row of [k] numbers per walker. *)
Definition walkers_stat (stat : list Qc -> Qc) (value : W -> list Qc) (k walkers : nat) c (discard thin_by : nat)
  : option (list (list Qc)) :=
  let? rows := get_rows c discard thin_by in
  let? l := opt_map (fun r => r) rows in
  match l with
  | [] => None
  | _ => Some (map (fun i => map (fun j =>
           stat (map (fun s => nth j (nth i (map value s) []) 0%Qc) l)) (seq 0 k)) (seq 0 walkers))
  end.

(** [get_energies], container.py:207-229, not flat.  [params] are the natural parameters of
    the ensemble when the method is called and [ncoefs] the number of coefficients when the
    container was made.  [np.vstack] raises on an empty list, [np.tensordot] on a mismatch. *)
Definition tensordot (u v : list Qc) : option Qc :=
  if length u =? length v then Some (qdot u v) else None.
Definition energy_rows (enthalpy : W -> Qc) (features : W -> list Qc) (params : list Qc) (ncoefs : nat)
  c (discard thin_by : nat) : option (list (list Qc)) :=
  let? rows := get_rows c discard thin_by in
  let? l := opt_map (fun r => r) rows in
  if length params =? ncoefs then Some (map (map enthalpy) l)
  else match l with
       | [] => None
       | _ => opt_map (opt_map (fun w => tensordot (firstn ncoefs (features w)) (firstn ncoefs params))) l
       end.
(** Flat, container.py:227-228. *)
Definition get_energies enthalpy features params ncoefs c discard thin_by : option arr :=
  let? e := energy_rows enthalpy features params ncoefs c discard thin_by in
  Some (flatten 1 (map (fun x => [x]) (concat e))).
(** [mean_energy] and [energy_variance], container.py:249-255, flat. *)
Definition energy_stat stat enthalpy features params ncoefs c discard thin_by : option arr :=
  let? a := get_energies enthalpy features params ncoefs c discard thin_by in along0 stat 1 a.
(** [get_minimum_energy], container.py:321-323, flat ([min] of one number is that number, of
    none raises). *)
Definition get_minimum_energy enthalpy features params ncoefs c discard thin_by : option Qc :=
  let? e := energy_rows enthalpy features params ncoefs c discard thin_by in minimum (concat e).

(** A sublattice of the ensemble: sites, encoding and species in the order of the encoding. *)
Record sub := mkSub { s_sites : list nat; s_enc : list nat; s_species : list nat }.

(** [get_sublattice_species_counts], container.py:345-378, flat. *)
Definition sub_counts (occu : W -> list nat) (sl : sub) c (discard thin_by : nat) : option arr :=
  let? l := get_flat c discard thin_by in
  let? cs := opt_map (fun w => sublattice_counts (s_sites sl) (s_enc sl) (occu w)) l in
  Some (flatten (length (s_enc sl)) (map (map Qc_of_nat) cs)).

(** [get_sublattice_compositions], container.py:231-234, flat; division by zero is NaN. *)
Definition scale (q : Qc) (a : arr) : arr :=
  match a with
  | Num x => Num (x / q)%Qc
  | Vec l => Vec (map (fun x => x / q)%Qc l)
  | Mat rows => Mat (map (map (fun x => x / q)%Qc) rows)
  end.
Definition sub_compositions occu sl c discard thin_by : option arr :=
  let? a := sub_counts occu sl c discard thin_by in
  if length (s_sites sl) =? 0 then None else Some (scale (Qc_of_nat (length (s_sites sl))) a).
(** [mean_sublattice_composition], [sublattice_composition_variance], container.py:289-304. *)
Definition sub_composition_stat stat occu sl c discard thin_by : option arr :=
  let? a := sub_compositions occu sl c discard thin_by in along0 stat (length (s_enc sl)) a.

(** A [defaultdict] of arrays of a fixed length [k] made of zeros, container.py:336; the
    arrays are made when a species is met first, which raises for a negative length. *)
Definition table := list (nat * list Qc).
Fixpoint add_to (k : Z) (t : table) (sp : nat) (count : list Qc) : option table :=
  match t with
  | [] => if (k <? 0)%Z then None
          else let z := repeat 0%Qc (Z.to_nat k) in
               if length count =? length z then Some [(sp, qvadd z count)] else None
  | (s, v) :: t' => if s =? sp then
                      if length count =? length v then Some ((s, qvadd v count) :: t') else None
                    else let? t'' := add_to k t' sp count in Some ((s, v) :: t'')
  end.
(** Rows of [subcounts.T], container.py:341: the columns of a matrix; the elements of a
    vector, broadcast to the length of the arrays; an array without axes cannot be iterated. *)
Definition columns (k : Z) (ncols : nat) (a : arr) : option (list (list Qc)) :=
  match a with
  | Num _ => None
  | Vec l => Some (map (fun x => repeat x (Z.to_nat k)) l)
  | Mat rows => Some (map (fun j => column j rows) (seq 0 ncols))
  end.
Fixpoint add_all (k : Z) (t : table) (l : list (nat * list Qc)) : option table :=
  match l with
  | [] => Some t
  | (sp, count) :: l' => let? t' := add_to k t sp count in add_all k t' l'
  end.
(** [get_species_counts], container.py:332-343, flat; [walkers] is [self.shape[0]]. *)
Fixpoint species_counts_loop (occu : W -> list nat) (k : Z) (sls : list sub) (t : table) c (discard thin_by : nat)
  : option table :=
  match sls with
  | [] => Some t
  | sl :: sls' =>
      let? a := sub_counts occu sl c discard thin_by in
      let? cols := columns k (length (s_enc sl)) a in
      let? t' := add_all k t (combine (s_species sl) cols) in
      species_counts_loop occu k sls' t' c discard thin_by
  end.
Definition species_counts occu (walkers : nat) (sls : list sub) c (discard thin_by : nat) : option table :=
  if thin_by =? 0 then None
  else let samples := ((Z.of_nat (c_n c) - Z.of_nat discard) / Z.of_nat thin_by)%Z in
       species_counts_loop occu (Z.of_nat walkers * samples) sls [] c discard thin_by.
(** [get_compositions], container.py:236-239, flat; [sites] is [self.shape[1]]. *)
Definition compositions occu walkers (sites : nat) sls c discard thin_by : option table :=
  let? t := species_counts occu walkers sls c discard thin_by in
  Some (map (fun p => (fst p, map (fun x => x / Qc_of_nat sites)%Qc (snd p))) t).
(** [mean_composition], [composition_variance], container.py:279-287. *)
Definition composition_stat (stat : list Qc -> Qc) occu walkers sites sls c discard thin_by
  : option (list (nat * Qc)) :=
  let? t := compositions occu walkers sites sls c discard thin_by in
  opt_map (fun p => match snd p with [] => None | _ => Some (fst p, stat (snd p)) end) t.

(** [get_orbit_factors], container.py:265-277, flat: the mask [function_orbit_ids == i] is
    applied to the first axis of the array of products and everything selected is summed.
    A mask whose length is not that of the first axis raises. *)
Definition masked {A} (mask : list bool) (l : list A) : option (list A) :=
  if length mask =? length l then Some (map snd (filter fst (combine mask l))) else None.
Definition orbit_factor (ids : list nat) (i : nat) (vals : arr) : option Qc :=
  let mask := map (fun o => o =? i) ids in
  match vals with
  | Num _ => None
  | Vec l => let? m := masked mask l in Some (qsum m)
  | Mat rows => let? m := masked mask rows in Some (qsum (concat m))
  end.
(** The product broadcasts the parameters against the last axis, container.py:267-269; one
    parameter or one feature (broadcast differently) is not modelled. *)
Definition times (params : list Qc) (a : arr) : option arr :=
  match a with
  | Num _ => None
  | Vec l => if length l =? length params then Some (Vec (qmap2 Qcmult params l)) else None
  | Mat rows => let? rs := opt_map (fun r => if length r =? length params
                                            then Some (qmap2 Qcmult params r) else None) rows in
                Some (Mat rs)
  end.
Definition orbit_factors (features : W -> list Qc) (params : list Qc) (ids : list nat) c (discard thin_by : nat)
  : option (list Qc) :=
  let? a := get_values features (length params) c discard thin_by in
  let? vals := times params a in
  opt_map (fun i => orbit_factor ids i vals) (seq 0 (length params)).
End Stats.
