(** Model of [smol/cofe/space/domain.py]: site spaces. *)
From Verif Require Export QcLib.
Set Implicit Arguments.
Open Scope Qc_scope.

(** Allowed species.  [Sp n] stands for any pymatgen element, species or dummy
    species (n identifies it), [Vac] for [Vacancy()] (domain.py:238-290).
    Simplification: all vacancies are one species (no symbols, charges, spins). *)
Inductive species := Sp (n : nat) | Vac.

Definition sp_eqb (a b : species) : bool :=
  match a, b with
  | Sp n, Sp m => Nat.eqb n m
  | Vac, Vac => true
  | _, _ => false
  end.

Definition is_vac (a : species) : bool := match a with Vac => true | _ => false end.

(** A pymatgen composition: species with amounts; keys are unique in Python. *)
Definition composition := list (species * Qc).
(** The ordered [_data] of a SiteSpace (domain.py:157-161). *)
Definition site_space := list (species * Qc).

(** [composition.num_atoms]. *)
Definition num_atoms (c : composition) : Qc := qsum (map snd c).

(** Insertion sort: [sorted(...)] for the given order on keys. *)
Fixpoint insert_by {A} (leb : A -> A -> bool) (x : A) (l : list A) : list A :=
  match l with
  | [] => [x]
  | y :: l' => if leb x y then x :: l else y :: insert_by leb x l'
  end.
Definition sort_by {A} (leb : A -> A -> bool) (l : list A) : list A :=
  fold_right (insert_by leb) [] l.

Definition q099 : Qc := Qc_frac 99 100.

(** [SiteSpace.__init__], domain.py:129-161.  [leb] is pymatgen's order on
    species, left as a parameter.  [None] is the ValueError of lines 137-154
    (the duplicate-vacancy check is vacuous as keys are unique). *)
Definition mk_site_space (leb : species -> species -> bool) (c : composition)
  : option site_space :=
  let n := num_atoms c in
  if Qcltb n 0 || Qcltb 1 n then None
  else if existsb (fun p => is_vac (fst p)) c && negb (Qceqb n 1) then None
  else
    let data := sort_by (fun p q => leb (fst p) (fst q)) c in
    Some (if Qcltb n q099 then data ++ [(Vac, 1 - n)] else data).

(** [SiteSpace.__eq__], domain.py:192-199: all pairs of [zip] are equal. *)
Definition item_eqb (p q : species * Qc) : bool :=
  sp_eqb (fst p) (fst q) && Qceqb (snd p) (snd q).
Definition site_space_eqb (a b : site_space) : bool :=
  forallb (fun pq => item_eqb (fst pq) (snd pq)) (combine a b).

(** [get_site_spaces] without measure, domain.py:70-82: the uniform measure over
    the species of a site, counting one more for the vacancy when the site
    occupation is below 0.99. *)
Definition uniform_site_space leb (site : composition) : option site_space :=
  let k := (length site + if Qcltb (num_atoms site) q099 then 1 else 0)%nat in
  mk_site_space leb (map (fun p => (fst p, 1 / Qc_of_nat k)) site).
