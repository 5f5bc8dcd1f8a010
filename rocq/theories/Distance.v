(** Model of the distance processors, [smol/moca/processor/distance.py], and of the distances of
    interaction vectors in [smol/utils/cluster/evaluator.pyx].

    Rounded diameters of the orbits are given. *)
From Verif Require Export Evaluator OccuUtils.
Set Implicit Arguments.
Open Scope nat_scope.

(** In [interaction_distances_from_occupancies], evaluator.pyx:416-433: one row of the result. *)
Definition idist_writes (occu : list nat) (ref : list Qc) (o : orbit) (inter : list Qc) (rows : ctable) : option (list (nat * Qc)) :=
  let? ws := inter_writes occu o inter rows in
  opt_map (fun w => let? r := nth_error ref (fst w) in Some (fst w, qabs (snd w - r)%Qc)) ws.
Definition idist_work (ev : evaluator) (occu : list nat) (ref : list Qc) (ts : list ctable) :=
  zip_orbits (fun oi rows => idist_writes occu ref (fst oi) (snd oi) rows) (combine (e_orbits ev) (e_inter ev)) ts.
Definition inter_distances ev occu ref ts := run_work (init_out (e_num_orbits ev) 0%Qc) (idist_work ev occu ref ts).

(** [sorted(orbits, key)], stable, and [groupby], clusterspace.py:367-381. *)
Fixpoint ins_key {A} (x : Qc * A) (l : list (Qc * A)) : list (Qc * A) :=
  match l with [] => [x] | y :: l' => if Qcleb (fst x) (fst y) then x :: l else y :: ins_key x l' end.
Definition sort_key {A} (l : list (Qc * A)) : list (Qc * A) := fold_right ins_key [] l.
Fixpoint group_key {A} (l : list (Qc * A)) : list (Qc * list A) :=
  match l with
  | [] => []
  | (d, a) :: l' => match group_key l' with
                    | (d', g) :: gs => if Qceqb d d' then (d, a :: g) :: gs else (d, [a]) :: (d', g) :: gs
                    | [] => [(d, [a])]
                    end
  end.
(** [exact_match_max_diameter], distance.py:294-318 and 433-453: the loop over groups of positions. *)
Fixpoint match_loop (tol : Qc) (dv : list Qc) (best : Qc) (groups : list (Qc * list (list nat))) : option Qc :=
  match groups with
  | [] => Some best
  | (d, idss) :: gs =>
      let? vs := opt_map (nth_error dv) (concat idss) in
      if forallb (fun v => Qcleb v tol) vs then match_loop tol dv d gs else Some best
  end.

(** A distance processor, distance.py:40-98: the processor it extends, target, tolerance, [coefs] and the rounded
    diameters of its orbits.  [d_inter] tells a [ClusterInteractionDistanceProcessor] from a
    [CorrelationDistanceProcessor]. *)
Record dproc := mkD { d_inter : bool; d_proc : proc; d_target : list Qc; d_tol : Qc; d_coefs : list Qc; d_diams : list Qc }.
(** The constructor, distance.py:73-96: a negative weight or weights of another length raise. *)
Definition new_dproc (inter : bool) (P : proc) (target : list Qc) (match_weight : Qc) (weights : list Qc) (tol : Qc) (diams : list Qc) : option dproc :=
  if Qcltb match_weight 0 then None
  else if negb (S (length weights) =? length target) then None
  else Some (mkD inter P target tol ((- match_weight)%Qc :: weights) diams).
(** Positions of the features of each orbit: [range(orb.bit_id, orb.bit_id + len(orb))] or [orb.id]. *)
Definition d_positions (D : dproc) : list (Qc * list nat) :=
  combine (d_diams D) (map (fun o => if d_inter D then [o_id o] else seq (o_bit o) (o_rows o)) (e_orbits (p_eval (d_proc D)))).
Definition exact_match (D : dproc) (dv : list Qc) : option Qc := match_loop (d_tol D) dv 0%Qc (group_key (sort_key (d_positions D))).
(** [coefs[0] != 0]. *)
Definition uses_match (D : dproc) : option bool := let? c := nth_error (d_coefs D) 0 in Some (negb (Qceqb c 0)).

(** [compute_feature_vector], distance.py:128-148; arrays of different lengths cannot be subtracted. *)
Definition dist_features (D : dproc) (occu : list nat) : option (list Qc) :=
  let? f := (if d_inter D then cd_features else ce_features) (d_proc D) occu in
  if negb (length f =? length (d_target D)) then None
  else
    let dv := qmap2 (fun x t => qabs (x / Qc_of_nat (p_size (d_proc D)) - t))%Qc f (d_target D) in
    let? u := uses_match D in
    let? m := if u then exact_match D dv else Some 0%Qc in
    Some (upd dv 0 m).
(** Assigning the flips in order, distance.py:279-281; a site outside of the array raises. *)
Definition assign_flips (occu : list nat) (flips : step) : option (list nat) :=
  fold_left (fun acc f => let? o := acc in if fst f <? length o then Some (upd o (fst f) (snd f)) else None) flips (Some occu).
(** [compute_feature_vector_distances], distance.py:259-287 and 405-431: the row of one occupancy. *)
Definition dist_row (D : dproc) (occu : list nat) : option (list Qc) :=
  (if d_inter D then inter_distances else corr_distances) (p_eval (d_proc D)) occu (d_target D) (p_tables (d_proc D)).
(** [compute_feature_vector_change], distance.py:150-175. *)
Definition dist_change (D : dproc) (occu : list nat) (flips : step) : option (list Qc) :=
  let? occu_f := assign_flips occu flips in
  let? r0 := dist_row D occu in
  let? r1 := dist_row D occu_f in
  let? u := uses_match D in
  if u then
    let? m0 := exact_match D r0 in
    let? m1 := exact_match D r1 in
    Some (qvsub (upd r1 0 m1) (upd r0 0 m0))
  else Some (qvsub r1 r0).

(** [as_dict] and [from_dict], distance.py:177-200: target and match weight are stored; [coefficients] are stored but
    dropped again, so weights and tolerance are the defaults of the constructor. *)
Definition default_tol : Qc := Q2Qc (1 # 100000).
Definition dist_round_trip (D : dproc) : option dproc :=
  let? c := nth_error (d_coefs D) 0 in
  new_dproc (d_inter D) (d_proc D) (d_target D) (- c)%Qc (repeat 1%Qc (length (d_target D) - 1)) default_tol (d_diams D).
