(** Model of [smol/capp/generate/random.py]: random occupancies of a supercell.

    Simplifications: numbers are exact; the draws of the accept test of the neutral
    generator are real numbers given as arguments, all other draws have the documented
    distributions ([Prob.v]) or are given as positions. *)
From Verif Require Export Usher Cluster.
From Coq Require Import Reals.
Set Implicit Arguments.
Local Open Scope nat_scope.

(** [occu[sites] = values] of numpy, random.py:81, 174; [None] is the IndexError of a site
    beyond the array or the ValueError of different lengths.  Later values win. *)
Fixpoint put (occu sites values : list nat) : option (list nat) :=
  match sites, values with
  | [], [] => Some occu
  | s :: sites', v :: values' =>
      if s <? length occu then put (upd occu s v) sites' values' else None
  | _, _ => None
  end.

(** [rng.choice(l, size=k, replace=True)]: [k] independent uniform draws. *)
Fixpoint choose_repeat {A} (k : nat) (l : list A) : prog (list A) :=
  match k with
  | 0 => pret []
  | S k' => draw x <- uniform l; draw r <- choose_repeat k' l; pret (x :: r)
  end.

(** The loop over sublattices, random.py:80-84. *)
Fixpoint fill (sls : list sublattice) (occu : list nat) : prog (list nat) :=
  match sls with
  | [] => pret occu
  | sl :: sls' =>
      draw v <- choose_repeat (length (sl_sites sl)) (sl_encoding sl);
      draw o <- of_opt (put occu (sl_sites sl) v);
      fill sls' o
  end.

(** The array of zeros, random.py:77-78, 165. *)
Definition zeros (sls : list sublattice) : list nat :=
  repeat 0 (list_sum (map (fun sl => length (sl_sites sl)) sls)).

(** [_gen_unconstrained_ordered_occu], random.py:65-84. *)
Definition gen_unconstrained (sls : list sublattice) : prog (list nat) := fill sls (zeros sls).

(** ** [_gen_neutral_occu], random.py:87-142 *)

Section Neutral.
(** Oxidation state of a species; zero for elements. *)
Variable oxi : species -> Qc.

(** [get_charge], random.py:105-109. *)
Definition get_charge (sp : species) : Qc := match sp with Vac => 0%Qc | Sp _ => oxi sp end.

(** The charge of the site of a sublattice; [None] is the ValueError of [index] or an
    IndexError, random.py:114-116. *)
Definition site_charge (sl : sublattice) (occu : list nat) (site : nat) : option Qc :=
  let? c := nth_error occu site in
  let? i := index_of c (sl_encoding sl) in
  let? sp := nth_error (sl_species sl) i in
  Some (get_charge sp).

(** [charge], random.py:111-117. *)
Definition charge (occu : list nat) (sls : list sublattice) : option Qc :=
  let? cs := opt_map (fun sl => let? l := opt_map (site_charge sl occu) (sl_sites sl) in
                                Some (qsum l)) sls in
  Some (qsum cs).

(** The draws of one attempt: positions in the lists that are drawn from, random.py:121-123,
    and the uniform number of line 128. *)
Record attempt := mkAttempt { a_sl : nat; a_site : nat; a_code : nat; a_u : R }.

Definition Rltb (x y : R) : bool := if Rlt_dec x y then true else false.

(** [flip], random.py:119-132.  The codes of [set(encoding) - {code}] are drawn from in
    ascending order. *)
Definition flip (sls : list sublattice) (lam : R) (d : attempt) (occu : list nat)
  : option (list nat * Qc) :=
  let? sl := nth_error (filter is_active sls) (a_sl d) in
  let? site := nth_error (sl_sites sl) (a_site d) in
  let? cur := nth_error occu site in
  let? code := nth_error (filter (fun c => negb (c =? cur)) (np_unique (sl_encoding sl))) (a_code d) in
  let occu_next := upd occu site code in
  let? C := charge occu sls in
  let? C_next := charge occu_next sls in
  let accept := Rltb (ln (a_u d)) (- lam * Q2R (this (C_next * C_next - C * C)%Qc)) in
  Some (if accept && negb (Qceqb C 0) then (occu_next, C_next) else (occu, C)).

(** How the generator ends. *)
Inductive ending := Returned (occu : list nat) | TimedOut | Raised.

(** The loop over attempts, random.py:134-142; one element of the list per attempt. *)
Fixpoint attempts (sls : list sublattice) (lam : R) (ds : list attempt) (occu : list nat) : ending :=
  match ds with
  | [] => TimedOut
  | d :: ds' =>
      match flip sls lam d occu with
      | None => Raised
      | Some (o, C) => if Qceqb C 0 then Returned o else attempts sls lam ds' o
      end
  end.

(** The whole function.  The first occupancy does not use the generator that is passed,
    random.py:134 ([_gen_unconstrained_ordered_occu(sublattices)]): [initial] is drawn afresh
    even if a seed is given, [ds] are the draws of the seeded generator. *)
Definition gen_neutral (sls : list sublattice) (lam : R) (ds : list attempt) (initial : list nat) : ending :=
  attempts sls lam ds initial.
End Neutral.

(** ** [_gen_composition_ordered_occu], random.py:145-231 *)

(** The argument [composition]: one composition, a list or a tuple. *)
Inductive comp_arg := OneComp (c : composition) | CompList (cs : list composition) | CompTuple (cs : list composition).

(** [composition.fractional_composition]. *)
Definition fractional (c : composition) : composition :=
  map (fun p => (fst p, snd p / num_atoms c)%Qc) c.

(** [sp in site_space]. *)
Definition in_space (space : site_space) (sp : species) : bool := existsb (fun p => sp_eqb (fst p) sp) space.

(** First loop of [_composition_compatiblity], random.py:201-217; [mutable] is false for a
    tuple, whose item assignment raises.  Compositions beyond the sublattices stay. *)
Fixpoint normalise (mutable : bool) (comps : list composition) (sls : list sublattice)
  : option (list composition) :=
  match comps, sls with
  | c :: comps', sl :: sls' =>
      if existsb (fun p => negb (in_space (sl_space sl) (fst p))) c then None
      else if Qcltb 1 (num_atoms c) && negb mutable then None
      else let? r := normalise mutable comps' sls' in
           Some ((if Qcltb 1 (num_atoms c) then fractional c else c) :: r)
  | _, _ => Some comps
  end.

(** Number of sites for a concentration, before rounding: random.py:223. *)
Definition amount (n : nat) (x : Qc) : Qc := (Qc_of_nat n * x)%Qc.

(** Second loop, random.py:219-229, for one sublattice of [n] sites. *)
Definition size_ok (tol : Qc) (n : nat) (c : composition) : bool :=
  forallb (fun p => negb (Qcltb tol (qabs (Qc_of_Z (qround (amount n (snd p))) - amount n (snd p))))) c
  && negb (Qcltb (Qc_of_nat n + tol) (Qc_of_Z (zsum (map (fun p => qround (amount n (snd p))) c)))).

(** [_composition_compatiblity], random.py:180-231. *)
Definition compatibility (tol : Qc) (sls : list sublattice) (arg : comp_arg) : option (list composition) :=
  let? comps := match arg with
                | OneComp c => normalise true [c] sls
                | CompList cs => normalise true cs sls
                | CompTuple cs => normalise false cs sls
                end in
  if forallb (fun p => size_ok tol (length (sl_sites (snd p))) (fst p)) (combine comps sls)
  then Some comps else None.

(** [site_space[sp]], domain.py:173-182; [None] is the KeyError. *)
Fixpoint space_get (space : site_space) (sp : species) : option Qc :=
  match space with
  | [] => None
  | (s, x) :: space' => if sp_eqb s sp then Some x else space_get space' sp
  end.

(** The loop over the species of a sublattice of [n] sites, random.py:170-175.  With no site
    left numpy returns an array of floats, which cannot be an index. *)
Fixpoint place (space : site_space) (n : nat) (items : list (species * nat)) (free : list nat)
  (occu : list nat) : prog (list nat) :=
  match items with
  | [] => pret occu
  | (sp, code) :: items' =>
      draw x <- of_opt (space_get space sp);
      let k := qround (x * Qc_of_nat n)%Qc in
      if (k <? 0)%Z || (length free =? 0) then pfail else
      draw s <- choose_k (Z.to_nat k) free;
      draw o <- of_opt (put occu s (map (fun _ => code) s));
      place space n items' (filter (fun i => negb (memb i s)) free) o
  end.

(** The loop over sublattices, random.py:167-175; [zip] stops at the shorter list. *)
Fixpoint place_all leb (comps : list composition) (sls : list sublattice) (occu : list nat)
  : prog (list nat) :=
  match comps, sls with
  | c :: comps', sl :: sls' =>
      draw space <- of_opt (mk_site_space leb c);
      draw o <- place space (length (sl_sites sl)) (combine (sl_species sl) (sl_encoding sl)) (sl_sites sl) occu;
      place_all leb comps' sls' o
  | _, _ => pret occu
  end.

(** [_gen_composition_ordered_occu], random.py:145-177. *)
Definition gen_composition leb (tol : Qc) (sls : list sublattice) (arg : comp_arg) : prog (list nat) :=
  draw comps <- of_opt (compatibility tol sls arg);
  place_all leb comps sls (zeros sls).
