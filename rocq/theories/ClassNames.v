(** Model of [smol/utils/class_utils.py]: names of classes and their lookup.

    Strings are lists of ASCII characters; letters are the 52 ASCII letters, and only these have upper and lower case
    (Python's strings have further characters with case). *)
From Verif Require Export Lib.
From Coq Require Export Ascii.
Set Implicit Arguments.
Open Scope nat_scope.

Definition str := list ascii.
Definition is_upper (c : ascii) : bool := (65 <=? nat_of_ascii c) && (nat_of_ascii c <=? 90).
Definition is_lower (c : ascii) : bool := (97 <=? nat_of_ascii c) && (nat_of_ascii c <=? 122).
Definition is_letter (c : ascii) : bool := is_upper c || is_lower c.
(** [str.upper], [str.lower] of one character. *)
Definition to_upper (c : ascii) : ascii := if is_lower c then ascii_of_nat (nat_of_ascii c - 32) else c.
Definition to_lower (c : ascii) : ascii := if is_upper c then ascii_of_nat (nat_of_ascii c + 32) else c.
Definition dash : ascii := "-"%char.
(** [str.capitalize]. *)
Definition capitalize (s : str) : str := match s with [] => [] | c :: s' => to_upper c :: map to_lower s' end.
Definition lower (s : str) : str := map to_lower s.
(** [str.split("-")]; [cur] is the part read so far. *)
Fixpoint split_dash (cur s : str) : list str :=
  match s with
  | [] => [cur]
  | c :: s' => if Ascii.eqb c dash then cur :: split_dash [] s' else split_dash (cur ++ [c]) s'
  end.
Fixpoint join_dash (l : list str) : str :=
  match l with [] => [] | [s] => s | s :: l' => s ++ dash :: join_dash l' end.
(** [re.findall("X[^A-Z]*", s)] for a class [X] of characters that contains A-Z; [cur] is the match in progress. *)
Fixpoint find_all (start : ascii -> bool) (cur : option str) (s : str) : list str :=
  match s with
  | [] => match cur with Some w => [w] | None => [] end
  | c :: s' =>
      match cur with
      | None => if start c then find_all start (Some [c]) s' else find_all start None s'
      | Some w => if is_upper c then w :: find_all start (if start c then Some [c] else None) s' else find_all start (Some (w ++ [c])) s'
      end
  end.
(** [class_name_from_str], class_utils.py:10-34. *)
Definition class_name_from_str (s : str) : str := concat (map capitalize (flat_map (find_all is_letter None) (split_dash [] s))).

(** ** Classes *)
(** A class: its name, whether it is abstract, and the classes that [__subclasses__] lists. *)
Inductive cls := Cls (name : str) (abstract : bool) (subs : list cls).
Definition cls_name (c : cls) : str := match c with Cls n _ _ => n end.
Definition str_eqb (a b : str) : bool := if list_eq_dec ascii_dec a b then true else false.
(** Assignment to a dictionary and [dict.update]: the order is that of first insertion. *)
Fixpoint dict_set {V} (d : list (str * V)) (k : str) (v : V) : list (str * V) :=
  match d with [] => [(k, v)] | (k', v') :: d' => if str_eqb k k' then (k', v) :: d' else (k', v') :: dict_set d' k v end.
Definition dict_update {V} (d e : list (str * V)) : list (str * V) := fold_left (fun d kv => dict_set d (fst kv) (snd kv)) e d.
Fixpoint dict_get {V} (d : list (str * V)) (k : str) : option V :=
  match d with [] => None | (k', v) :: d' => if str_eqb k k' then Some v else dict_get d' k end.
(** [get_subclasses], class_utils.py:63-77. *)
Fixpoint get_subclasses (base : cls) : list (str * cls) :=
  match base with
  | Cls _ _ subs =>
      (fix each (d : list (str * cls)) (l : list cls) : list (str * cls) :=
         match l with
         | [] => d
         | s :: l' =>
             let d1 := dict_update d (get_subclasses s) in
             each (match s with Cls n abstract _ => if abstract then d1 else dict_set d1 n s end) l'
         end) [] subs
  end.
(** [get_subclasses_str], class_utils.py:80-100. *)
Definition get_subclasses_str (base : cls) (lower_names split : bool) : list str :=
  let names := map fst (get_subclasses base) in
  let names := if split then map (fun n => join_dash (find_all is_upper None n)) names else names in
  if lower_names then map lower names else names.
(** What a constructor may do, and what the factory does. *)
Inductive outcome (I : Type) := Made (i : I) | RaisesKeyError | RaisesOther | RaisesNotImplemented.
Arguments Made {I}. Arguments RaisesKeyError {I}. Arguments RaisesOther {I}. Arguments RaisesNotImplemented {I}.
(** [derived_class_factory], class_utils.py:37-60; [construct] calls the constructor. *)
Definition derived_class_factory {I} (class_name : str) (base : cls) (construct : cls -> outcome I) : outcome I :=
  match (match dict_get (get_subclasses base) class_name with Some c => construct c | None => RaisesKeyError end) with
  | RaisesKeyError => RaisesNotImplemented
  | r => r
  end.
