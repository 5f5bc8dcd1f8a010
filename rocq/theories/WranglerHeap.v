(** Entries, their data and the wranglers that hold them as objects (smol/cofe/wrangling/wrangler.py).

    Simplifications: the calls on a subspace are oracles; all their exceptions are match errors.  Structures,
    matrices, mappings, occupancies and features are values of any type.  Of the data of an entry only the matrix,
    the mapping, the correlations, the size and the properties are modelled (weights are handled like properties);
    the checks of the names of properties are in Wrangler.v.  [remove_entry] gets the position that it finds. *)
From Verif Require Export Wrangler.
Set Implicit Arguments.
Local Open Scope nat_scope.

Section Objects.
Variables (St Mx Mp Occ Fe : Type).
(** The calls on a subspace, wrangler.py:755-772: [scmatrix_from_structure], [num_prims_from_matrix],
    [structure_site_mapping], and [occupancy_from_structure] with [corr_from_occupancy], of which
    [corr_from_structure] consists (clusterspace.py:649-700). *)
Record subspace := mkSub { c_match : St -> option Mx; c_size : Mx -> Qc; c_map : Mx -> St -> option Mp; c_occu : St -> Mx -> Mp -> option Occ; c_corr : Occ -> Mx -> option Fe }.
Definition corr (sub : subspace) (s : St) (m : Mx) (p : Mp) : option Fe := let? o := c_occu sub s m p in c_corr sub o m.

(** The data dictionary of an entry, wrangler.py:783-795; the properties are a reference to a dictionary. *)
Record edata := mkData { d_matrix : Mx; d_mapping : Mp; d_corr : Fe; d_size : Qc }.
Record eobj := mkObj { o_struct : St; o_data : option edata; o_props : option nat }.
(** A wrangler: its subspace and references to entries, wrangler.py:60-63. *)
Record wobj := mkWO { wo_sub : subspace; wo_entries : list nat }.
Record world := mkWorld { wd_entries : list eobj; wd_dicts : list dict; wd_wranglers : list wobj }.

Definition put_entry (w : world) (e : nat) (o : eobj) : world := mkWorld (upd (wd_entries w) e o) (wd_dicts w) (wd_wranglers w).
Definition put_dict (w : world) (r : nat) (d : dict) : world := mkWorld (wd_entries w) (upd (wd_dicts w) r d) (wd_wranglers w).
Definition put_wrangler (w : world) (i : nat) (o : wobj) : world := mkWorld (wd_entries w) (wd_dicts w) (upd (wd_wranglers w) i o).

(** [process_entry], wrangler.py:749-797, for an entry object and an optional dictionary object of properties:
    the entry is changed in place.  The flag tells whether the entry was returned.  References to nothing are refused. *)
Definition known (w : world) (props : option nat) : bool := match props with Some q => q <? length (wd_dicts w) | None => true end.
Definition process (w : world) (sub : subspace) (e : nat) (props : option nat) (mx : option Mx) (mp : option Mp) : world * bool :=
  if negb (known w props) then (w, false) else
  match nth_error (wd_entries w) e with
  | None => (w, false)
  | Some o =>
      match (let? m := match mx with Some m => Some m | None => c_match sub (o_struct o) end in
             let? p := match mp with Some p => Some p | None => c_map sub m (o_struct o) end in
             let? f := corr sub (o_struct o) m p in Some (mkData m p f (c_size sub m))) with
      | None => (w, false)
      | Some data =>
          match o_props o with
          | Some r => (* property_dict.update(properties) *)
              let own := nth r (wd_dicts w) [] in
              let given := match props with Some q => nth q (wd_dicts w) [] | None => [] end in
              (put_entry (put_dict w r (dupdate own given)) e (mkObj (o_struct o) (Some data) (Some r)), true)
          | None => match props with
                    | Some q => (put_entry w e (mkObj (o_struct o) (Some data) (Some q)), true)
                    | None => (* properties = {} *)
                        (put_entry (mkWorld (wd_entries w) (wd_dicts w ++ [[]]) (wd_wranglers w)) e (mkObj (o_struct o) (Some data) (Some (length (wd_dicts w)))), true)
                    end
          end
      end
  end.

Inductive act :=
| NewEntry (s : St) | NewDict (d : dict) | NewWrangler (sub : subspace)
| Process (i e : nat) (props : option nat) (mx : option Mx) (mp : option Mp)
| Add (i e : nat) (props : option nat) (mx : option Mx) (mp : option Mp)
| AppendTo (i : nat) (es : list nat)
| SetProps (i k : nat) (v : list Qc)
| Change (i : nat) (sub : subspace) | Update (i : nat)
| RemoveAt (i j : nat) | Load (i : nat).

(** [update_features], wrangler.py:650-664: stops at the first exception. *)
Fixpoint update (w : world) (sub : subspace) (es : list nat) : world * bool :=
  match es with
  | [] => (w, true)
  | e :: es' =>
      match (let? o := nth_error (wd_entries w) e in let? d := o_data o in
             let? f := corr sub (o_struct o) (d_matrix d) (d_mapping d) in
             Some (mkObj (o_struct o) (Some (mkData (d_matrix d) (d_mapping d) f (d_size d))) (o_props o))) with
      | Some o => update (put_entry w e o) sub es'
      | None => (w, false)
      end
  end.
(** The loop of [add_properties], wrangler.py:608-609. *)
Fixpoint set_props (w : world) (k : nat) (vs : list Qc) (es : list nat) : world * bool :=
  match vs, es with
  | v :: vs', e :: es' =>
      match (let? o := nth_error (wd_entries w) e in o_props o) with
      | Some r => set_props (put_dict w r (dset k v (nth r (wd_dicts w) []))) k vs' es'
      | None => (w, false)
      end
  | _, _ => (w, true)
  end.
(** The entries of [append_entries], wrangler.py:540-567: those with data are kept as they are. *)
Fixpoint take_ready (w : world) (es : list nat) : list nat * bool :=
  match es with
  | [] => ([], true)
  | e :: es' => match (let? o := nth_error (wd_entries w) e in o_data o) with
                | Some _ => let (r, ok) := take_ready w es' in (e :: r, ok)
                | None => ([], false)
                end
  end.
(** [from_dict] of [as_dict], wrangler.py:816-885: every entry and every dictionary of properties is made anew. *)
Fixpoint copy_entries (w : world) (es : list nat) : option (world * list nat) :=
  match es with
  | [] => Some (w, [])
  | e :: es' =>
      let? o := nth_error (wd_entries w) e in
      let new := mkObj (o_struct o) (o_data o) (match o_props o with Some _ => Some (length (wd_dicts w)) | None => None end) in
      let dicts := match o_props o with Some r => wd_dicts w ++ [nth r (wd_dicts w) []] | None => wd_dicts w end in
      let? (w', r) := copy_entries (mkWorld (wd_entries w ++ [new]) dicts (wd_wranglers w)) es' in
      Some (w', length (wd_entries w) :: r)
  end.
(** One action; the flag tells whether it went through. *)
Definition act_step (w : world) (a : act) : world * bool :=
  let with_wrangler i f := match nth_error (wd_wranglers w) i with Some o => f o | None => (w, false) end in
  match a with
  | NewEntry s => (mkWorld (wd_entries w ++ [mkObj s None None]) (wd_dicts w) (wd_wranglers w), true)
  | NewDict d => (mkWorld (wd_entries w) (wd_dicts w ++ [d]) (wd_wranglers w), true)
  | NewWrangler sub => (mkWorld (wd_entries w) (wd_dicts w) (wd_wranglers w ++ [mkWO sub []]), true)
  | Process i e props mx mp => with_wrangler i (fun o => process w (wo_sub o) e props mx mp)
  (** [add_entry], wrangler.py:455-520. *)
  | Add i e props mx mp => with_wrangler i (fun o =>
      let (w', ok) := process w (wo_sub o) e props mx mp in
      if ok then (put_wrangler w' i (mkWO (wo_sub o) (wo_entries o ++ [e])), true) else (w', false))
  | AppendTo i es => with_wrangler i (fun o => let (r, ok) := take_ready w es in (put_wrangler w i (mkWO (wo_sub o) (wo_entries o ++ r)), ok))
  (** [add_properties], wrangler.py:591-609. *)
  | SetProps i k v => with_wrangler i (fun o => if Nat.eqb (length (wo_entries o)) (length v) then set_props w k v (wo_entries o) else (w, false))
  (** [change_subspace], wrangler.py:636-648. *)
  | Change i sub => with_wrangler i (fun o => update (put_wrangler w i (mkWO sub (wo_entries o))) sub (wo_entries o))
  | Update i => with_wrangler i (fun o => update w (wo_sub o) (wo_entries o))
  (** [remove_entry], wrangler.py:625-634. *)
  | RemoveAt i j => with_wrangler i (fun o => (put_wrangler w i (mkWO (wo_sub o) (firstn j (wo_entries o) ++ skipn (S j) (wo_entries o))), true))
  | Load i => with_wrangler i (fun o =>
      match copy_entries w (wo_entries o) with
      | Some (w', r) => (mkWorld (wd_entries w') (wd_dicts w') (wd_wranglers w' ++ [mkWO (wo_sub o) r]), true)
      | None => (w, false)
      end)
  end.
Fixpoint act_run (acts : list act) (w : world) : world := match acts with [] => w | a :: acts' => act_run acts' (fst (act_step w a)) end.
Definition nothing : world := mkWorld [] [] [].

(** [feature_matrix], wrangler.py:108-114, [sizes], 116-119, and [occupancy_strings], 121-132. *)
Definition entry_data (w : world) (e : nat) : option (St * edata) := let? o := nth_error (wd_entries w) e in let? d := o_data o in Some (o_struct o, d).
Definition feature_matrix (w : world) (i : nat) : option (list Fe) :=
  let? o := nth_error (wd_wranglers w) i in opt_map (fun e => let? (_, d) := entry_data w e in Some (d_corr d)) (wo_entries o).
Definition sizes (w : world) (i : nat) : option (list Qc) :=
  let? o := nth_error (wd_wranglers w) i in opt_map (fun e => let? (_, d) := entry_data w e in Some (d_size d)) (wo_entries o).
Definition occupancy_strings (w : world) (i : nat) : option (list Occ) :=
  let? o := nth_error (wd_wranglers w) i in opt_map (fun e => let? (s, d) := entry_data w e in c_occu (wo_sub o) s (d_matrix d) (d_mapping d)) (wo_entries o).
(** [get_property_vector] of a name in the properties, not normalised, wrangler.py:399-431. *)
Definition property_values (w : world) (i k : nat) : option (list Qc) :=
  let? o := nth_error (wd_wranglers w) i in
  opt_map (fun e => let? x := nth_error (wd_entries w) e in let? r := o_props x in dget k (nth r (wd_dicts w) [])) (wo_entries o).
End Objects.
Arguments NewEntry {_ _ _ _ _} _.
Arguments NewDict {_ _ _ _ _} _.
Arguments NewWrangler {_ _ _ _ _} _.
Arguments Process {_ _ _ _ _} _ _ _ _ _.
Arguments Add {_ _ _ _ _} _ _ _ _ _.
Arguments AppendTo {_ _ _ _ _} _ _.
Arguments SetProps {_ _ _ _ _} _ _ _.
Arguments Change {_ _ _ _ _} _ _.
Arguments Update {_ _ _ _ _} _.
Arguments RemoveAt {_ _ _ _ _} _ _.
Arguments Load {_ _ _ _ _} _.
Arguments nothing {_ _ _ _ _}.
