(** Model of the cluster evaluator, [smol/utils/cluster/evaluator.pyx], and of the processors
    built on it, [smol/moca/processor/expansion.py].

    C arrays are lists; a read or write outside of an array is [None] (the compiled code does not
    check).  Floating point numbers are rationals.  A loop iteration over an orbit is the list of
    its writes to the output array, in order; the sequential result performs them orbit by orbit,
    a parallel one in any interleaving. *)
From Verif Require Export QcLib.
Set Implicit Arguments.
Open Scope nat_scope.

(** [OrbitC], struct.pxd and container.pyx:86-107: id, bit id, correlation tensors flattened
    to one row per correlation function, strides. *)
Record orbit := mkOrbit { o_id : nat; o_bit : nat; o_tensors : list (list Qc); o_strides : list nat }.
Definition o_rows (o : orbit) : nat := length (o_tensors o).
Definition o_cols (o : orbit) : nat := length (hd [] (o_tensors o)).
(** [ClusterSpaceEvaluator], evaluator.pyx:31-65; the number of threads has no counterpart. *)
Record evaluator := mkEval {
  e_orbits : list orbit; e_num_orbits : nat; e_num_corr : nat; e_offset : Qc; e_inter : list (list Qc)
}.
(** Site indices of clusters: one row per cluster. *)
Definition ctable := list (list nat).

(** [flat_tensor_indices], orbit.py:261-266, from the shape of a correlation tensor without the axis
    of functions. *)
Fixpoint cumprod (acc : nat) (l : list nat) : list nat :=
  match l with [] => [] | x :: l' => (acc * x) :: cumprod (acc * x) l' end.
Definition flat_tensor_indices (dims : list nat) : list nat := rev (cumprod 1 (rev (tl dims ++ [1]))).

(** The index loop, evaluator.pyx:158-160. *)
Fixpoint flat_index (strides : list nat) (occu row : list nat) : option nat :=
  match row, strides with
  | [], _ => Some 0
  | s :: row', t :: strides' => let? c := nth_error occu s in let? r := flat_index strides' occu row' in Some (t * c + r)
  | _ :: _, [] => None
  end.
(** The sum over clusters, evaluator.pyx:155-162, for the tensor that starts at [base]. *)
Definition cluster_sum (data : list Qc) (base : nat) (strides : list nat) (occu : list nat) (rows : ctable) : option Qc :=
  let? vs := opt_map (fun row => let? i := flat_index strides occu row in nth_error data (base + i)) rows in
  Some (qsum vs).
(** [p / J]: a division by zero clusters has no value. *)
Definition mean_over (J : nat) (p : Qc) : option Qc :=
  if J =? 0 then None else Some (p / Qc_of_nat J)%Qc.

(** The writes of one orbit in [correlations_from_occupancy], evaluator.pyx:143-164. *)
Definition corr_writes (occu : list nat) (o : orbit) (rows : ctable) : option (list (nat * Qc)) :=
  opt_map (fun k => let? p := cluster_sum (concat (o_tensors o)) (k * o_cols o) (o_strides o) occu rows in
                    let? m := mean_over (length rows) p in Some (o_bit o + k, m)) (seq 0 (o_rows o)).
(** In [interactions_from_occupancy], evaluator.pyx:196-207. *)
Definition inter_writes (occu : list nat) (o : orbit) (inter : list Qc) (rows : ctable) : option (list (nat * Qc)) :=
  let? p := cluster_sum inter 0 (o_strides o) occu rows in
  let? m := mean_over (length rows) p in Some [(o_id o, m)].
(** The sum of differences, evaluator.pyx:255-261, and [p / cluster_ratio[n] / J]. *)
Definition cluster_dsum (data : list Qc) (base : nat) (strides : list nat) (occu_f occu_i : list nat) (rows : ctable) : option Qc :=
  let? vs := opt_map (fun row => let? i := flat_index strides occu_i row in
                                 let? f := flat_index strides occu_f row in
                                 let? xf := nth_error data (base + f) in
                                 let? xi := nth_error data (base + i) in Some (xf - xi)%Qc) rows in
  Some (qsum vs).
Definition ratio_mean (ratio : Qc) (J : nat) (p : Qc) : option Qc :=
  if Qceqb ratio 0 then None else mean_over J (p / ratio)%Qc.
(** In [delta_correlations_from_occupancies], evaluator.pyx:244-263. *)
Definition dcorr_writes (occu_f occu_i : list nat) (ratio : Qc) (o : orbit) (rows : ctable) : option (list (nat * Qc)) :=
  opt_map (fun k => let? p := cluster_dsum (concat (o_tensors o)) (k * o_cols o) (o_strides o) occu_f occu_i rows in
                    let? m := ratio_mean ratio (length rows) p in Some (o_bit o + k, m)) (seq 0 (o_rows o)).
(** In [delta_interactions_from_occupancies], evaluator.pyx:301-315. *)
Definition dinter_writes (occu_f occu_i : list nat) (ratio : Qc) (o : orbit) (inter : list Qc) (rows : ctable) : option (list (nat * Qc)) :=
  let? p := cluster_dsum inter 0 (o_strides o) occu_f occu_i rows in
  let? m := ratio_mean ratio (length rows) p in Some [(o_id o, m)].
(** [fabs]. *)
Definition qabs (x : Qc) : Qc := if Qcleb 0 x then x else (- x)%Qc.
(** In [corr_distances_from_occupancies], evaluator.pyx:356-377: first and second row. *)
Definition dist_writes (occu : list nat) (ref : list Qc) (o : orbit) (rows : ctable) : option (list (nat * Qc)) :=
  let? ws := corr_writes occu o rows in
  opt_map (fun w => let? r := nth_error ref (fst w) in Some (fst w, qabs (snd w - r)%Qc)) ws.

(** Writing the output array. *)
Fixpoint write_all (out : list Qc) (ws : list (nat * Qc)) : option (list Qc) :=
  match ws with
  | [] => Some out
  | (i, x) :: ws' => if i <? length out then write_all (upd out i x) ws' else None
  end.
(** [out = zeros(n); out[0] = c]. *)
Definition init_out (n : nat) (c : Qc) : option (list Qc) :=
  if n =? 0 then None else Some (upd (repeat (Q2Qc 0) n) 0 c).

(** One list of writes per orbit; [cluster_indices.data[n]] exists for every orbit. *)
Definition zip_orbits {A B} (f : A -> B -> option (list (nat * Qc))) (os : list A) (ts : list B) : option (list (list (nat * Qc))) :=
  if length os <=? length ts then opt_map (fun p => f (fst p) (snd p)) (combine os ts) else None.

Definition corr_work (ev : evaluator) (occu : list nat) (ts : list ctable) :=
  zip_orbits (corr_writes occu) (e_orbits ev) ts.
Definition inter_work (ev : evaluator) (occu : list nat) (ts : list ctable) :=
  zip_orbits (fun oi rows => inter_writes occu (fst oi) (snd oi) rows) (combine (e_orbits ev) (e_inter ev)) ts.
Definition dcorr_work (ev : evaluator) (occu_f occu_i : list nat) (ratios : list Qc) (ts : list ctable) :=
  zip_orbits (fun orr rows => dcorr_writes occu_f occu_i (snd orr) (fst orr) rows) (combine (e_orbits ev) ratios) ts.
Definition dinter_work (ev : evaluator) (occu_f occu_i : list nat) (ratios : list Qc) (ts : list ctable) :=
  zip_orbits (fun oir rows => dinter_writes occu_f occu_i (snd oir) (fst (fst oir)) (snd (fst oir)) rows)
    (combine (combine (e_orbits ev) (e_inter ev)) ratios) ts.
Definition dist_work (ev : evaluator) (occu : list nat) (ref : list Qc) (ts : list ctable) :=
  zip_orbits (dist_writes occu ref) (e_orbits ev) ts.

Definition run_work (out : option (list Qc)) (work : option (list (list (nat * Qc)))) : option (list Qc) :=
  let? o := out in let? w := work in write_all o (concat w).
(** [correlations_from_occupancy] and the other methods with one thread. *)
Definition correlations ev occu ts := run_work (init_out (e_num_corr ev) 1%Qc) (corr_work ev occu ts).
Definition interactions ev occu ts := run_work (init_out (e_num_orbits ev) (e_offset ev)) (inter_work ev occu ts).
Definition delta_correlations ev of oi rs ts := run_work (Some (repeat (Q2Qc 0) (e_num_corr ev))) (dcorr_work ev of oi rs ts).
Definition delta_interactions ev of oi rs ts := run_work (Some (repeat (Q2Qc 0) (e_num_orbits ev))) (dinter_work ev of oi rs ts).
Definition corr_distances ev occu ref ts := run_work (init_out (e_num_corr ev) 0%Qc) (dist_work ev occu ref ts).

(** ** Processors *)
(** A processor on a supercell: its size in unit cells, the evaluator and the cluster tables
    ([_evaluator], [_indices]), expansion.py:103-111 and 305-316. *)
Record proc := mkProc { p_size : nat; p_eval : evaluator; p_tables : list ctable }.

Definition has_site (site : nat) (row : list nat) : bool := existsb (Nat.eqb site) row.
(** [data_by_sites[site]], expansion.py:117-153 and 320-361: orbits, interaction tensors, reduced
    tables and ratios; a site in no cluster has no entry ([KeyError]).  The dictionary is built
    when the processor is; here it is computed from the tables at each use. *)
Definition local_rows (P : proc) (site : nat) : list (orbit * list Qc * ctable * Qc) :=
  flat_map (fun q : orbit * list Qc * ctable =>
    let rows := filter (has_site site) (snd q) in
    if length rows =? 0 then [] else [(fst q, rows, (Qc_of_nat (length (snd q)) / Qc_of_nat (length rows))%Qc)])
    (combine (combine (e_orbits (p_eval P)) (e_inter (p_eval P))) (p_tables P)).
Record local_data := mkLocal { l_eval : evaluator; l_tables : list ctable; l_ratios : list Qc }.
Definition local_eval (P : proc) (site : nat) : option local_data :=
  match local_rows P site with
  | [] => None
  | ds => Some (mkLocal
      (mkEval (map (fun d => fst (fst (fst d))) ds) (e_num_orbits (p_eval P)) (e_num_corr (p_eval P)) (e_offset (p_eval P))
              (map (fun d => snd (fst (fst d))) ds))
      (map (fun d => snd (fst d)) ds) (map snd ds))
  end.
(** [compute_feature_vector], expansion.py:162-180 and 370-387. *)
Definition scale (P : proc) (v : list Qc) : list Qc := map (fun x => x * Qc_of_nat (p_size P))%Qc v.
Definition ce_features (P : proc) (occu : list nat) : option (list Qc) :=
  let? v := correlations (p_eval P) occu (p_tables P) in Some (scale P v).
Definition cd_features (P : proc) (occu : list nat) : option (list Qc) :=
  let? v := interactions (p_eval P) occu (p_tables P) in Some (scale P v).
(** [occu_f[site] = code] raises outside of the array. *)
Definition set_site (occu : list nat) (f : nat * nat) : option (list nat) :=
  if fst f <? length occu then Some (upd occu (fst f) (snd f)) else None.
(** The flip loops, expansion.py:201-212 and 407-420. *)
Fixpoint ce_change_loop (P : proc) (occu : list nat) (flips : list (nat * nat)) (acc : list Qc) : option (list Qc) :=
  match flips with
  | [] => Some acc
  | f :: flips' =>
      let? occu_f := set_site occu f in
      let? L := local_eval P (fst f) in
      let? d := delta_correlations (l_eval L) occu_f occu (l_ratios L) (l_tables L) in
      ce_change_loop P occu_f flips' (qvadd acc d)
  end.
Definition ce_change (P : proc) (occu : list nat) (flips : list (nat * nat)) : option (list Qc) :=
  let? v := ce_change_loop P occu flips (repeat (Q2Qc 0) (e_num_corr (p_eval P))) in Some (scale P v).
Fixpoint cd_change_loop (P : proc) (occu : list nat) (flips : list (nat * nat)) (acc : list Qc) : option (list Qc) :=
  match flips with
  | [] => Some acc
  | f :: flips' =>
      let? occu_f := set_site occu f in
      let? L := local_eval P (fst f) in
      let? d := delta_interactions (l_eval L) occu_f occu (l_ratios L) (l_tables L) in
      cd_change_loop P occu_f flips' (qvadd acc d)
  end.
Definition cd_change (P : proc) (occu : list nat) (flips : list (nat * nat)) : option (list Qc) :=
  let? v := cd_change_loop P occu flips (repeat (Q2Qc 0) (e_num_orbits (p_eval P))) in Some (scale P v).
