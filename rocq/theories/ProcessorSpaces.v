(** Model of how a processor finds the site spaces and sublattices of its supercell: [smol/moca/processor/base.py], with
    [smol/cofe/space/domain.py].  A structure is the list of the compositions of its sites. *)
From Verif Require Export Encoding.
Set Implicit Arguments.
Local Open Scope nat_scope.

(** A [SiteSpace]: its composition and its data, domain.py:129-161. *)
Notation space_obj := (composition * site_space)%type.
(** [get_site_spaces] with measure, domain.py:70-73 and 81-82. *)
Definition site_objects leb (comps : list composition) : option (list space_obj) :=
  opt_map (fun c => let? s := mk_site_space leb c in Some (c, s)) comps.
(** Adding to a [set], base.py:65: an element with the same hash ([SiteSpace.__hash__], domain.py:205-207: the hash of the
    composition, a parameter here) that compares equal ([__eq__], domain.py:192-199) is already there. *)
Definition set_add (h : composition -> nat) (x : space_obj) (l : list space_obj) : list space_obj :=
  if existsb (fun y => (h (fst y) =? h (fst x)) && site_space_eqb (snd y) (snd x)) l then l else l ++ [x].
Definition py_set (h : composition -> nat) (xs : list space_obj) : list space_obj := fold_left (fun l x => set_add h x l) xs [].
(** Python's [<] on lists of species, used by [SiteSpace.__lt__], domain.py:201-203. *)
Fixpoint sps_ltb (leb : species -> species -> bool) (a b : list species) : bool :=
  match a, b with
  | [], [] => false
  | [], _ :: _ => true
  | _ :: _, [] => false
  | x :: a', y :: b' => if sp_eqb x y then sps_ltb leb a' b' else negb (leb y x)
  end.
(** [unique_site_spaces], base.py:65-66; [iter] is the order in which the set is iterated. *)
Definition unique_spaces leb (h : composition -> nat) (iter : list space_obj -> list space_obj) (comps : list composition) : option (list site_space) :=
  let? objs := site_objects leb comps in
  Some (map snd (sort_by (fun a b => negb (sps_ltb leb (map fst (snd b)) (map fst (snd a)))) (iter (py_set h objs)))).
(** [active_site_spaces], base.py:68-70. *)
Definition active_spaces (spaces : list site_space) : list site_space := filter (fun s => 1 <? length s) spaces.
(** [allowed_species], base.py:72 with [get_allowed_species], domain.py:27-44. *)
Definition allowed_species leb (comps : list composition) : option (list (list species)) :=
  opt_map (fun c => let? s := uniform_site_space leb c in Some (map fst s)) comps.
(** [get_sublattices], base.py:222-255, of a new processor. *)
Definition proc_sublattices leb h iter (comps : list composition) : option (list sublattice) :=
  let? spaces := unique_spaces leb h iter comps in
  let? allowed := allowed_species leb comps in
  Some (get_sublattices allowed spaces).
