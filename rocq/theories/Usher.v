(** Model of the step proposals of [smol/moca/kernel/mcusher.py]: Flip, Swap,
    MultiStep and Composite (TableFlip is in TableFlip.v). *)
From Verif Require Export OccuUtils Prob.
Set Implicit Arguments.
Open Scope nat_scope.

(** A lookup that may raise an IndexError. *)
Definition of_opt {A} (o : option A) : prog A :=
  match o with Some x => pret x | None => pfail end.

(** State kept by [MCUsher], mcusher.py:40-82: the active sublattices and their
    probabilities. *)
Record usher := mkUsher { us_active : list sublattice; us_probs : list Qc }.

(** [MCUsher.__init__], mcusher.py:56-75.  [None] models ZeroDivisionError,
    AttributeError and ValueError.  Float addition is exact here. *)
Definition mk_usher (sls : list sublattice) (given : option (list Qc)) : option usher :=
  let act := filter is_active sls in
  match given with
  | None => if length act =? 0 then None
            else Some (mkUsher act (repeat (1 / Qc_of_nat (length act))%Qc (length act)))
  | Some p => if negb (length p =? length act) then None
              else if negb (Qceqb (qsum p) 1) then None
              else Some (mkUsher act p)
  end.

(** [sublattice_probabilities] setter, mcusher.py:89-102. *)
Definition set_probabilities (u : usher) (p : list Qc) : option usher :=
  if negb (length p =? length (us_active u)) then None
  else if negb (Qceqb (qsum p) 1) then None
  else Some (mkUsher (us_active u) p).

(** [get_random_sublattice], mcusher.py:146-148. *)
Definition get_random_sublattice (u : usher) : prog sublattice :=
  choice_p (us_active u) (us_probs u).

(** [Flip.propose_step], mcusher.py:154-170.  [set(encoding)] is listed in
    increasing order; the draw is uniform so the order does not matter. *)
Definition flip_choices (sl : sublattice) (c0 : nat) : list nat :=
  filter (fun c => negb (c =? c0)) (np_unique (sl_encoding sl)).
Definition flip_propose (u : usher) (occu : list nat) : prog step :=
  draw sl <- get_random_sublattice u;
  draw site <- uniform (sl_active sl);
  draw c0 <- of_opt (nth_error occu site);
  draw c <- uniform (flip_choices sl c0);
  pret [(site, c)].

(** [Swap.propose_step], mcusher.py:176-200. *)
Definition swap_options (active socc : list nat) (species1 : nat) : list nat :=
  map fst (filter (fun q => negb (snd q =? species1)) (combine active socc)).
Definition swap_propose (u : usher) (occu : list nat) : prog step :=
  draw sl <- get_random_sublattice u;
  draw site1 <- uniform (sl_active sl);
  draw species1 <- of_opt (nth_error occu site1);
  draw socc <- of_opt (opt_map (nth_error occu) (sl_active sl));
  match swap_options (sl_active sl) socc species1 with
  | [] => pret []
  | options =>
      draw site2 <- uniform options;
      draw species2 <- of_opt (nth_error occu site2);
      pret [(site1, species2); (site2, species1)]
  end.

(** ** MultiStep *)

(** [MultiStep.__init__], mcusher.py:241-274, restricted to the step lengths and
    their probabilities.  When probabilities are given they are stored as [step_p]
    (line 257) but [_step_p] is read (line 274): AttributeError.  [step_lengths] as a
    single int is the one-element list. *)
Definition mk_multistep (lens : list nat) (given : option (list Qc))
  : option (list nat * list Qc) :=
  match given with
  | Some _ => None
  | None => if length lens =? 0 then Some (lens, [])
            else Some (lens, repeat (1 / Qc_of_nat (length lens))%Qc (length lens))
  end.

(** The overlap test of line 298. *)
Definition sites_of (st : step) : list nat := map fst st.
Definition fresh_sites (st : step) (steps : list step) : bool :=
  forallb (fun s => negb (memb s (sites_of (concat steps)))) (sites_of st).

(** [MultiStep.propose_step], mcusher.py:286-304. *)
Fixpoint multi_loop (propose : list nat -> prog step) (n : nat)
  (steps : list step) (occu : list nat) : prog (list step) :=
  match n with
  | 0 => pret steps
  | S n' =>
      draw st <- propose occu;
      if fresh_sites st steps
      then multi_loop propose n' (steps ++ [st]) (apply_step occu st)
      else multi_loop propose n' steps occu
  end.
Definition multi_propose (propose : list nat -> prog step) (lens : list nat) (p : list Qc)
  (occu : list nat) : prog step :=
  draw len <- choice_p lens p;
  draw st <- propose occu;
  draw steps <- multi_loop propose (len - 1) [st] (apply_step occu st);
  pret (concat steps).

(** ** Composite *)

(** State of the composite usher: ushers (given by their proposals), weights and
    probabilities, mcusher.py:340-342. *)
Record composite := mkComposite {
  co_ushers : list (list nat -> prog step);
  co_weights : list Qc;
  co_p : list Qc
}.
Definition empty_composite := mkComposite [] [] [].

(** [add_mcusher] and [_update_p], mcusher.py:372-390.  The Boolean tells whether the
    call returned; the division by a zero total raises after the usher and the weight
    were stored. *)
Definition add_mcusher (c : composite) (propose : list nat -> prog step) (w : Qc)
  : composite * bool :=
  let ushers := co_ushers c ++ [propose] in
  let weights := co_weights c ++ [w] in
  let total := qsum weights in
  if Qceqb total 0 then (mkComposite ushers weights (co_p c), false)
  else (mkComposite ushers weights (map (fun x => x / total)%Qc weights), true).

(** [Composite.__init__], mcusher.py:345-357: stops at the first exception. *)
Fixpoint add_all (c : composite) (l : list (Qc * (list nat -> prog step))) : option composite :=
  match l with
  | [] => Some c
  | (w, u) :: l' => let (c', ok) := add_mcusher c u w in if ok then add_all c' l' else None
  end.
Definition mk_composite (ushers : list (list nat -> prog step)) (weights : option (list Qc))
  : option composite :=
  add_all empty_composite
    (combine (match weights with Some w => w | None => repeat 1%Qc (length ushers) end) ushers).

(** [Composite.propose_step], mcusher.py:392-394. *)
Definition composite_propose (c : composite) (occu : list nat) : prog step :=
  draw u <- choice_p (co_ushers c) (co_p c); u occu.
