(** Specification vocabulary for occupancies, layouts and species counts. *)
From Verif Require Export OccuUtils.
From Coq Require Export Permutation Sorted.
Set Implicit Arguments.
Open Scope nat_scope.

(** Counted sites and codes of a sublattice. *)
Definition counted (active_only : bool) (sl : sublattice) : list nat :=
  if active_only then sl_active sl else sl_sites sl.

Definition n_dims_of (sls : list sublattice) : nat :=
  list_sum (map (fun sl => length (sl_encoding sl)) sls).

(** Well-formed supercell layout: what [Processor.get_sublattices] (base.py:232-255)
    produces and restriction / splitting preserve. *)
Record layout (sls : list sublattice) (N : nat) : Prop := {
  lay_nonempty : sls <> [];
  lay_sites : Permutation (concat (map sl_sites sls)) (seq 0 N);
  lay_active : forall sl s, In sl sls -> In s (sl_active sl) -> In s (sl_sites sl);
  lay_active_nodup : forall sl, In sl sls -> NoDup (sl_active sl);
  lay_codes : forall sl, In sl sls -> NoDup (sl_encoding sl) /\ sl_encoding sl <> []
}.

(** Valid occupancies for a layout: one code per site, each allowed on its site. *)
Definition valid_occu (sls : list sublattice) (N : nat) (occu : list nat) : Prop :=
  length occu = N /\
  forall sl s, In sl sls -> In s (sl_sites sl) ->
    exists c, nth_error occu s = Some c /\ In c (sl_encoding sl).

(** Sites of [0..N-1] that are counted for a sublattice and carry a code,
    in increasing order. *)
Definition sites_carrying (N : nat) (sites : list nat) (occu : list nat) (code : nat) : list nat :=
  filter (fun s => memb s sites &&
            match nth_error occu s with Some c => c =? code | None => false end) (seq 0 N).

(** First dimension of the [k]-th sublattice. *)
Definition dim_offset (sls : list sublattice) (k : nat) : nat := n_dims_of (firstn k sls).
