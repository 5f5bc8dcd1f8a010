(** Specification vocabulary for sublattices (C03, C04). *)
From Verif Require Export Sublattice.
From Coq Require Export Sorted.
Set Implicit Arguments.
Open Scope nat_scope.

(** Sites restricted since the last reset in a history of operations. *)
Definition restricted_since_reset (ops : list sl_op) : list nat :=
  fold_left (fun r o => match o with Restrict s => r ++ s | Reset => [] end) ops [].

Definition was_reset (ops : list sl_op) : bool :=
  existsb (fun o => match o with Reset => true | _ => false end) ops.

(** The sites of [l] not in [r]. *)
Definition without (l r : list nat) : list nat := filter (fun i => negb (memb i r)) l.

(** Site [s] carries a code of the group. *)
Definition carries_one_of (occu : list nat) (g : list nat) (s : nat) : bool :=
  match nth_error occu s with Some c => memb c g | None => false end.

(** Species order inside a site space: non-vacancy species strictly increasing,
    the vacancy last. *)
Definition sp_before (leb : species -> species -> bool) (a b : species) : Prop :=
  match a, b with
  | Vac, _ => False
  | Sp _, Vac => True
  | Sp _, Sp _ => leb a b = true /\ a <> b
  end.

(** Well-formed sublattices: as built by the constructor, kept by restriction. *)
Record wf_sublattice leb (sl : sublattice) : Prop := {
  wf_sites : StronglySorted lt (sl_sites sl);
  wf_active_sub : forall s, In s (sl_active sl) -> In s (sl_sites sl);
  wf_active_nodup : NoDup (sl_active sl);
  wf_enc : StronglySorted lt (sl_encoding sl);
  wf_enc_len : length (sl_encoding sl) = length (sl_space sl);
  wf_space : StronglySorted (sp_before leb) (map fst (sl_space sl));
  wf_amounts : Forall (fun p => (0 < snd p)%Qc) (sl_space sl)
}.

(** Species and amount of a code. *)
Definition item_of_code (sl : sublattice) (c : nat) : option (species * Qc) :=
  let? i := index_of c (sl_encoding sl) in nth_error (sl_space sl) i.

(** The vacancy of the group, if any, weighs more than 1% of the group. *)
Definition vacancy_weighty (sl : sublattice) (g : list nat) : Prop :=
  forall c x, In c g -> item_of_code sl c = Some (Vac, x) ->
    forall items, opt_map (item_of_code sl) g = Some items ->
    (qsum (map snd items) < Qc_of_nat 100 * x)%Qc.

(** [part] is the part of [sl] for group [g] at occupancy [occu]. *)
Definition is_part_of (sl : sublattice) (occu g : list nat) (part : sublattice) : Prop :=
  sl_encoding part = sort_by Nat.leb g /\
  sl_sites part = filter (carries_one_of occu g) (sl_sites sl) /\
  Permutation (sl_active part)
    (if length g =? 1 then [] else filter (carries_one_of occu g) (sl_active sl)).
