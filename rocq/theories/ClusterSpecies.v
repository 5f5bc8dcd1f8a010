(** Model of the species of clusters: construction, copies and dictionaries
    ([smol/cofe/space/cluster.py], with [smol/cofe/space/domain.py]).  Coordinates are in
    [Cluster.v].  Exact rationals instead of floats. *)
From Verif Require Export QcLib.
From Verif Require Import Domain.
Set Implicit Arguments.
Open Scope nat_scope.

(** A species: whether it is a [Vacancy], its symbol, and its charge and spin together (as a
    number).  Other species with the symbol of a vacancy are dummy species. *)
Record kind := mkKind { k_vac : bool; k_symbol : nat; k_rest : nat }.
Definition kind_eqb (a b : kind) : bool := eqb (k_vac a) (k_vac b) && (k_symbol a =? k_symbol b) && (k_rest a =? k_rest b).
(** [Vacancy()], domain.py:241-246: the symbol "A" without charge and spin; both are 0 here. *)
Definition vacancy : kind := mkKind true 0 0.

(** Species of one site with amounts; keys are unique in Python. *)
Notation comp := (list (kind * Qc)) (only parsing).
Definition atoms (c : comp) : Qc := qsum (map snd c).

(** [SiteSpace.__init__], domain.py:129-161: [None] for the ValueErrors.  The sorting of the
    species is left out: a composition does not have it. *)
Definition space_ok (c : comp) : bool :=
  let n := atoms c in
  let vacs := filter (fun p => k_vac (fst p)) c in
  negb (Qcltb n 0 || Qcltb 1 n) && (match vacs with [] => true | _ => Qceqb n 1 && (length vacs <=? 1) end).
(** The species of a site space, domain.py:157-161, without their order. *)
Definition space_data (c : comp) : comp := if Qcltb (atoms c) q099 then c ++ [(vacancy, 1 - atoms c)%Qc] else c.

(** [get_site_spaces] without measure for one site, domain.py:74-82; the composition of the space. *)
Definition uniform (c : comp) : comp :=
  let k := length c + if Qcltb (atoms c) q099 then 1 else 0 in map (fun p => (fst p, 1 / Qc_of_nat k)%Qc) c.
Definition site_spaces (sites : list comp) : option (list comp) :=
  let us := map uniform sites in if forallb space_ok us then Some us else None.

(** The species of the sites of a cluster, cluster.py:59-64: the compositions of the site spaces. *)
Definition cluster_species (spaces : list comp) : list comp := spaces.
(** [from_sites], cluster.py:207-212. *)
Definition from_sites (sites : list comp) : option (list comp) := option_map cluster_species (site_spaces sites).
(** [copy], cluster.py:112-116. *)
Definition copy (sites : list comp) : option (list comp) := from_sites sites.

(** [as_dict], cluster.py:300-316: the dictionaries of the sites, with symbols of vacancies.  In
    the dictionary of a site a vacancy is a dummy species (pymatgen's [Site.as_dict]). *)
Definition plain (s : kind) : kind := mkKind false (k_symbol s) (k_rest s).
Record saved := mkSaved { d_sites : list comp; d_vacancies : list (list nat) }.
Definition as_dict (sites : list comp) : saved :=
  mkSaved (map (map (fun p => (plain (fst p), snd p))) sites)
    (map (fun c => map (fun p => k_symbol (fst p)) (filter (fun p => k_vac (fst p)) c)) sites).
(** [from_dict], cluster.py:280-298: the species whose symbols are those of vacancies are left
    out by the condition at the end of the comprehension, after which nothing is turned back. *)
Definition named (symbols : list nat) (p : kind * Qc) : bool := existsb (Nat.eqb (k_symbol (fst p))) symbols.
Definition restored (symbols : list nat) (c : comp) : comp :=
  map (fun p => (if named symbols p then mkKind true (k_symbol (fst p)) (k_rest (fst p)) else fst p, snd p))
    (filter (fun p => negb (named symbols p)) c).
Definition from_dict (d : saved) : option (list comp) :=
  from_sites (map (fun p => restored (fst p) (snd p)) (combine (d_vacancies d) (d_sites d))).
