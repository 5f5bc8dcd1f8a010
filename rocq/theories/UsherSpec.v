(** Vocabulary for the properties of proposals. *)
From Verif Require Export Usher OccuUtilsSpec.
Set Implicit Arguments.
Open Scope nat_scope.

(** Probability that a proposal made at [o] leads to occupancy [o']. *)
Definition occu_eqb (o o' : list nat) : bool :=
  if list_eq_dec Nat.eq_dec o o' then true else false.
Definition transition (propose : list nat -> prog step) (o o' : list nat) : Qc :=
  prob (propose o) (fun st => occu_eqb (apply_step o st) o').

(** An active site of the layout with its sublattice. *)
Definition active_site (sls : list sublattice) (sl : sublattice) (s : nat) : Prop :=
  In sl sls /\ In s (sl_active sl).

(** A legal flip of the current occupancy. *)
Definition legal_flip (sls : list sublattice) (occu : list nat) (site code : nat) : Prop :=
  exists sl, active_site sls sl site /\ In code (sl_encoding sl) /\
             nth_error occu site <> Some code.

(** Two different active sites of one sublattice with different species. *)
Definition legal_swap (sls : list sublattice) (occu : list nat) (s1 s2 c1 c2 : nat) : Prop :=
  exists sl, active_site sls sl s1 /\ active_site sls sl s2 /\
             nth_error occu s1 = Some c1 /\ nth_error occu s2 = Some c2 /\ c1 <> c2.

(** A sequence of sub-steps, each proposed for the occupancy left by the earlier ones. *)
Inductive chained (propose : list nat -> prog step) : list nat -> list step -> Prop :=
| chained_nil : forall occu, chained propose occu []
| chained_cons : forall occu st sts,
    outcome (propose occu) st -> chained propose (apply_step occu st) sts ->
    chained propose occu (st :: sts).

(** No site occurs in two different sub-steps. *)
Definition share_no_site (sts : list step) : Prop :=
  forall i j si sj s, i <> j -> nth_error sts i = Some si -> nth_error sts j = Some sj ->
    In s (map fst si) -> ~ In s (map fst sj).

(** Proposers made from some basic ones. *)
Inductive built (base : (list nat -> prog step) -> Prop) : (list nat -> prog step) -> Prop :=
| built_base p : base p -> built base p
| built_multi p lens ps : built base p -> built base (multi_propose p lens ps)
| built_composite c : (forall p, In p (co_ushers c) -> built base p) -> built base (composite_propose c).

(** Flips and swaps of a layout, with any probabilities of the sublattices. *)
Definition flips (sls : list sublattice) (p : list nat -> prog step) : Prop :=
  exists given u, mk_usher sls given = Some u /\ (forall q x, given = Some q -> In x q -> (0 <= x)%Qc) /\ p = flip_propose u.
Definition swaps (sls : list sublattice) (p : list nat -> prog step) : Prop :=
  exists given u, mk_usher sls given = Some u /\ (forall q x, given = Some q -> In x q -> (0 <= x)%Qc) /\ p = swap_propose u.
(** Proposers in which no multi-step has both flips and swaps. *)
Inductive unmixed (sls : list sublattice) : (list nat -> prog step) -> Prop :=
| unmixed_flips p : built (flips sls) p -> unmixed sls p
| unmixed_swaps p : built (swaps sls) p -> unmixed sls p
| unmixed_composite c : (forall p, In p (co_ushers c) -> unmixed sls p) -> unmixed sls (composite_propose c).
