(** Model of [smol/moca/sampler/container.py]: storage of samples, streaming and files.

    A sample (one row of every traced array) is a list with one entry per walker.  Rows
    that are allocated but not written ([np.empty]) are [None].  All traced arrays have
    the same number of rows, so they are modelled by one list of rows. *)
From Verif Require Export QcLib.
Set Implicit Arguments.
Open Scope nat_scope.

Section Container.
Variable W : Type.
Definition sample := list W.

(** container.py:67-88: the arrays, [_nsamples] and [_total_steps]. *)
Record container := mkC { c_rows : list (option sample); c_n : nat; c_steps : nat }.
Definition empty_container : container := mkC [] 0 0.

(** [save_sampled_trace], container.py:380-393; IndexError if no row is left. *)
Definition save_sample (c : container) (x : sample) (thinned_by : nat) : option container :=
  if c_n c <? length (c_rows c)
  then Some (mkC (upd (c_rows c) (c_n c) (Some x)) (S (c_n c)) (c_steps c + thinned_by))
  else None.
(** [clear], [allocate], [vacuum], container.py:395-414. *)
Definition clear (c : container) : container := mkC [] 0 0.
Definition allocate (c : container) (k : nat) : container :=
  mkC (c_rows c ++ repeat None k) (c_n c) (c_steps c).
Definition vacuum (c : container) : container := mkC (firstn (c_n c) (c_rows c)) (c_n c) (c_steps c).

(** An HDF5 file: datasets and attributes [nsamples], [total_mc_steps]. *)
Record backend := mkB { b_rows : list (option sample); b_n : nat; b_steps : nat }.

(** [get_backend], container.py:435-467, with [_init_backend] and [_grow_backend];
    [None] is a file that does not exist. *)
Definition get_backend (file : option backend) (alloc : nat) : backend :=
  match file with
  | None => mkB (repeat None alloc) 0 0
  | Some b => let available := length (b_rows b) - b_n b in
              if available <? alloc
              then mkB (b_rows b ++ repeat None (alloc - available)) (b_n b) (b_steps b)
              else b
  end.

(** [dataset[start:end] = value] of h5py: the slice is cut at the end of the dataset, an
    empty selection writes nothing, one row is broadcast, other mismatches raise. *)
Definition write_rows (rows : list (option sample)) (start stop : nat) (value : list (option sample))
  : option (list (option sample)) :=
  let stop' := Nat.min stop (length rows) in
  let k := stop' - start in
  if k =? 0 then Some rows
  else if length value =? k then Some (firstn start rows ++ value ++ skipn stop' rows)
  else match value with
       | [x] => Some (firstn start rows ++ repeat x k ++ skipn stop' rows)
       | _ => None
       end.

(** [flush_to_backend], container.py:416-433: writes the whole arrays. *)
Definition flush (c : container) (b : backend) : option (container * backend) :=
  let? rows := write_rows (b_rows b) (b_n b) (c_n c + b_n b) (c_rows c) in
  Some (mkC (c_rows c) 0 0, mkB rows (b_n b + c_n c) (b_steps b + c_steps c)).

(** [to_hdf5], container.py:611-624. *)
Definition to_hdf5 (c : container) (file : option backend) : option backend :=
  let? r := flush c (get_backend file (c_n c)) in Some (snd r).
(** [from_hdf5], container.py:627-688. *)
Definition from_hdf5 (b : backend) : container :=
  mkC (firstn (b_n b) (b_rows b)) (b_n b) (b_steps b).
(** [as_dict] and [from_dict], container.py:520-609: the count is the number of rows. *)
Definition as_dict (c : container) : list (option sample) * nat * nat := (c_rows c, c_n c, c_steps c).
Definition from_dict (d : list (option sample) * nat * nat) : container :=
  let '(rows, _, steps) := d in mkC rows (length rows) steps.

(** [arr[start::step]] of NumPy for [step > 0]. *)
Fixpoint every {A} (step wait : nat) (l : list A) : list A :=
  match l with
  | [] => []
  | x :: l' => match wait with
               | 0 => x :: every step (step - 1) l'
               | S w => every step w l'
               end
  end.
Definition pyslice {A} (start step : nat) (l : list A) : list A := every step 0 (skipn start l).

(** [get_trace_value], container.py:181-186, of the whole arrays; [::0] raises. *)
Definition get_rows (c : container) (discard thin_by : nat) : option (list (option sample)) :=
  if thin_by =? 0 then None else Some (pyslice (discard + thin_by - 1) thin_by (c_rows c)).
(** The same with [flat=True], without the final [np.squeeze], container.py:511-515. *)
Definition get_flat (c : container) (discard thin_by : nat) : option (list W) :=
  let? rows := get_rows c discard thin_by in
  let? l := opt_map (fun r => r) rows in Some (concat l).
End Container.

(** [arr.argmin(axis=0)] of a non-empty list: index of the first minimum. *)
Fixpoint argmin_from (i best : nat) (bv : Qc) (l : list Qc) : nat :=
  match l with
  | [] => best
  | x :: l' => if Qcltb x bv then argmin_from (S i) i x l' else argmin_from (S i) best bv l'
  end.
Definition argmin (l : list Qc) : option nat :=
  match l with [] => None | x :: l' => Some (argmin_from 1 0 x l') end.
Definition minimum (l : list Qc) : option Qc := let? i := argmin l in nth_error l i.

(** [get_minimum_enthalpy], container.py:306-308, flat. *)
Definition min_value {W} (value : W -> Qc) (c : container W) (discard thin_by : nat) : option Qc :=
  let? l := get_flat c discard thin_by in minimum (map value l).

(** [get_minimum_enthalpy_occupancy], container.py:310-319, flat: with a single entry
    [np.squeeze] has removed the first axis and the index picks one site. *)
Inductive picked := Occupancy (o : list nat) | OneSite (code : nat).
Definition min_occupancy_flat {W} (value : W -> Qc) (occu : W -> list nat) (c : container W)
  (discard thin_by : nat) : option picked :=
  let? l := get_flat c discard thin_by in
  let? i := argmin (map value l) in
  match l with
  | [x] => let? code := nth_error (occu x) i in Some (OneSite code)
  | _ => let? x := nth_error l i in Some (Occupancy (occu x))
  end.
(** Not flat, container.py:314-318: [inds] has shape (walkers, 1) and is broadcast against
    [arange(walkers)]; row 0 is returned, so every walker is read at the index of walker 0. *)
Definition min_occupancy_walkers {W} (value : W -> Qc) (occu : W -> list nat) (c : container W)
  (discard thin_by walkers : nat) : option (list (list nat)) :=
  let? rows := get_rows c discard thin_by in
  let? l := opt_map (fun r => r) rows in
  let? first := opt_map (fun x => nth_error x 0) l in
  let? i := argmin (map value first) in
  let? row := nth_error l i in
  if length row =? walkers then Some (map occu row) else None.

(** [sampling_efficiency], container.py:131-142, flat (mean over walkers): NaN/raise for an
    empty selection is [None].  One list of flags per walker. *)
Definition efficiency {W} (accepted : W -> bool) (c : container W) (discard : nat) : option Qc :=
  let? l := opt_map (fun r => r) (skipn discard (c_rows c)) in
  let n := c_n c - discard in
  match l with
  | [] => None
  | row :: _ =>
      let walkers := length row in
      if (n =? 0) || (walkers =? 0) then None
      else Some (qsum (map (fun i => Qc_of_nat (length (filter (fun x => match nth_error x i with
                                                   | Some w => accepted w | None => false end) l))
                                     / Qc_of_nat n)%Qc (seq 0 walkers)) / Qc_of_nat walkers)%Qc
  end.

(** [get_sublattice_species_counts], container.py:345-378, for one occupancy.  [codes] are
    the distinct codes on the sites ([np.unique], whose order plays no role here); codes
    of the encoding that are missing are appended with count zero only if the number of
    distinct codes differs from the number of species; then every code of the encoding is
    looked up ([list.index], which raises). *)
Definition codes_on (sites o : list nat) : option (list nat) := opt_map (nth_error o) sites.
Definition sublattice_counts (sites encoding : list nat) (o : list nat) : option (list nat) :=
  let? here := codes_on sites o in
  let codes := nodup Nat.eq_dec here in
  let full := if length codes =? length encoding then codes
              else codes ++ filter (fun c => negb (existsb (Nat.eqb c) codes)) encoding in
  opt_map (fun c => if existsb (Nat.eqb c) full then Some (count_occ Nat.eq_dec here c) else None) encoding.
