(** The data held by a StructureWrangler and the operations on it
    (smol/cofe/wrangling/wrangler.py).

    Simplifications: structures, supercell matrices and site mappings are left out; a successful
    or failed structure match is an argument.  Entries are separate objects, each with its own
    property and weight dictionary (the code keeps the dictionaries it is given, so a caller that
    passes the same dictionary or entry twice shares it).  Names are numbers. *)
From Verif Require Export QcLib.
Set Implicit Arguments.
Local Open Scope Qc_scope.

(** Dictionaries in insertion order. *)
Definition dict := list (nat * Qc).
Fixpoint dget (k : nat) (d : dict) : option Qc :=
  match d with [] => None | (k', v) :: d' => if (k' =? k)%nat then Some v else dget k d' end.
Fixpoint dset (k : nat) (v : Qc) (d : dict) : dict :=
  match d with [] => [(k, v)] | (k', v') :: d' => if (k' =? k)%nat then (k, v) :: d' else (k', v') :: dset k v d' end.
Definition ddel (k : nat) (d : dict) : dict := filter (fun p => negb (fst p =? k)%nat) d.
Definition dupdate (d e : dict) : dict := fold_left (fun d p => dset (fst p) (snd p) d) e d.
Definition dkeys (d : dict) : list nat := map fst d.

(** A ComputedStructureEntry: what its equality compares, its attributes, its size, and its
    [data]: whether the five required keys are there, the properties and the weights. *)
Record entry := mkEntry { en_key : nat; en_attr : nat -> option Qc; en_size : Qc; en_ready : bool;
                          en_props : option dict; en_wts : option dict }.
(** Entries and data index sets, wrangler.py:60-63. *)
Record wrangler := mkW { w_entries : list entry; w_inds : list (nat * list nat) }.
Definition w_empty := mkW [] [].

(** [set(a) == set(b)]. *)
Definition same_keys (a b : list nat) : bool :=
  forallb (fun x => existsb (Nat.eqb x) b) a && forallb (fun x => existsb (Nat.eqb x) a) b.

(** [available_properties] and [available_weights], wrangler.py:80-98: an entry without the
    dictionary is a [KeyError]. *)
Definition available (get : entry -> option dict) (es : list entry) : option (list nat) :=
  let? ds := opt_map get es in Some (nodup Nat.eq_dec (flat_map dkeys ds)).

(** [process_entry], wrangler.py:670-797.  [None] stands for a raised error, [Some None] for a
    structure that does not match and is thrown out. *)
Definition check_names (given : option dict) (present props : option (list nat)) : option bool :=
  match given with
  | None => Some true
  | Some d => let? p := props in
              match p with [] => Some true | _ => let? a := present in Some (same_keys (dkeys d) a) end
  end.
Definition or_empty (d : option dict) : dict := match d with Some d => d | None => [] end.
Definition merged (own : option dict) (given : option dict) : dict :=
  match own with Some d => dupdate d (or_empty given) | None => or_empty given end.
Definition process_entry (es : list entry) (e : entry) (props wts : option dict) (matches raise_failed : bool) : option (option entry) :=
  let? ok := match es with
             | [] => Some true
             | _ => let? a := check_names props (available en_props es) (available en_props es) in
                    if a then check_names wts (available en_wts es) (available en_props es) else Some false
             end in
  if negb ok then None else
  if negb matches then (if raise_failed then None else Some None)
  else Some (Some (mkEntry (en_key e) (en_attr e) (en_size e) true (Some (merged (en_props e) props)) (Some (merged (en_wts e) wts)))).

(** Operations; every result carries the state after it and whether it raised. *)
Inductive op :=
| AddEntry (e : entry) (props wts : option dict) (matches raise_failed : bool)
| Append (es : list entry)
| AddWeights (k : nat) (v : list Qc)
| AddProps (k : nat) (v : list Qc)
| RemoveProps (ks : list nat)
| RemoveEntry (key : nat)
| RemoveAll
| AddIndices (name : nat) (inds : list Z).

(** [append_entries], wrangler.py:522-567: entries before the first bad one stay. *)
Definition fits (es : list entry) (e : entry) : bool :=
  en_ready e &&
  match es with
  | [] => true
  | _ => match en_props e, en_wts e, available en_props es, available en_wts es with
         | Some p, Some w, Some ap, Some aw => same_keys (dkeys p) ap && same_keys (dkeys w) aw
         | _, _, _, _ => false
         end
  end.
Fixpoint append_entries (es : list entry) (new : list entry) : list entry * bool :=
  match new with
  | [] => (es, true)
  | e :: new' => if fits es e then append_entries (es ++ [e]) new' else (es, false)
  end.

(** [add_properties] and [add_weights], wrangler.py:569-609. *)
Definition set_prop (k : nat) (v : Qc) (e : entry) : option entry :=
  let? d := en_props e in Some (mkEntry (en_key e) (en_attr e) (en_size e) (en_ready e) (Some (dset k v d)) (en_wts e)).
Definition set_wt (k : nat) (v : Qc) (e : entry) : option entry :=
  let? d := en_wts e in Some (mkEntry (en_key e) (en_attr e) (en_size e) (en_ready e) (en_props e) (Some (dset k v d))).
(** The loop over entries stops at the first error and keeps what was done before. *)
Fixpoint each (f : Qc -> entry -> option entry) (vs : list Qc) (es : list entry) : list entry * bool :=
  match vs, es with
  | v :: vs', e :: es' => match f v e with
                          | Some e' => let '(r, ok) := each f vs' es' in (e' :: r, ok)
                          | None => (es, false)
                          end
  | _, _ => (es, true)
  end.
Definition add_vector (f : Qc -> entry -> option entry) (vs : list Qc) (es : list entry) : list entry * bool :=
  if (length es =? length vs)%nat then each f vs es else (es, false).

(** [remove_properties], wrangler.py:611-623: the first entry without the key ends the loop over
    entries with a warning. *)
Fixpoint remove_property (k : nat) (es : list entry) : list entry :=
  match es with
  | [] => []
  | e :: es' => match en_props e with
                | Some d => match dget k d with
                            | Some _ => mkEntry (en_key e) (en_attr e) (en_size e) (en_ready e) (Some (ddel k d)) (en_wts e) :: remove_property k es'
                            | None => es
                            end
                | None => es
                end
  end.
(** [remove_entry], wrangler.py:625-634: the first equal entry, or a warning. *)
Fixpoint remove_first (key : nat) (es : list entry) : list entry :=
  match es with [] => [] | e :: es' => if (en_key e =? key)%nat then es' else e :: remove_first key es' end.

(** [self._ind_sets[key] = ...]. *)
Fixpoint iset (k : nat) (v : list nat) (d : list (nat * list nat)) : list (nat * list nat) :=
  match d with [] => [(k, v)] | (k', v') :: d' => if (k' =? k)%nat then (k, v) :: d' else (k', v') :: iset k v d' end.

Definition w_step (w : wrangler) (o : op) : wrangler * bool :=
  match o with
  | AddEntry e props wts matches rf =>
      match process_entry (w_entries w) e props wts matches rf with
      | None => (w, false)
      | Some None => (w, true)
      | Some (Some e') => (mkW (w_entries w ++ [e']) (w_inds w), true)
      end
  | Append es => let '(r, ok) := append_entries (w_entries w) es in (mkW r (w_inds w), ok)
  | AddWeights k v => let '(r, ok) := add_vector (set_wt k) v (w_entries w) in (mkW r (w_inds w), ok)
  | AddProps k v => let '(r, ok) := add_vector (set_prop k) v (w_entries w) in (mkW r (w_inds w), ok)
  | RemoveProps ks => (mkW (fold_left (fun es k => remove_property k es) ks (w_entries w)) (w_inds w), true)
  | RemoveEntry key => (mkW (remove_first key (w_entries w)) (w_inds w), true)
  | RemoveAll => (mkW [] (w_inds w), true)
  (** [add_data_indices], wrangler.py:433-444. *)
  | AddIndices name inds =>
      if forallb (fun i => (0 <=? i)%Z && (i <? Z.of_nat (length (w_entries w)))%Z) inds
      then (mkW (w_entries w) (iset name (map Z.to_nat inds) (w_inds w)), true) else (w, false)
  end.
Definition w_run (ops : list op) : wrangler := fold_left (fun w o => fst (w_step w o)) ops w_empty.

(** [get_property_vector], wrangler.py:400-431, and [get_weights], 446-453. *)
Definition property_vector (es : list entry) (k : nat) (normalize : bool) : option (list Qc) :=
  let? av := available en_props es in
  let? vs := if existsb (Nat.eqb k) av
             then opt_map (fun e => let? d := en_props e in dget k d) es
             else opt_map (fun e => en_attr e k) es in
  Some (if normalize then map (fun p => fst p / snd p) (combine vs (map en_size es)) else vs).
Definition weight_vector (es : list entry) (k : nat) : option (list Qc) :=
  opt_map (fun e => let? d := en_wts e in dget k d) es.
