(** Vocabulary for values that depend on the species at every site. *)
From Verif Require Export Bias Ensemble OccuUtilsSpec TableFlipSpec.
Set Implicit Arguments.
Open Scope nat_scope.

(** Site [s] of sublattice [sl] carries species [sp]. *)
Definition carries (sl : sublattice) (occu : list nat) (s : nat) (sp : species) : Prop :=
  In s (sl_sites sl) /\
  exists c p, nth_error occu s = Some c /\ nth_error (sl_encoding sl) p = Some c /\ nth_error (sl_species sl) p = Some sp.

(** Every flip of the step puts an allowed code on a site (sites may repeat). *)
Definition allowed_step (sls : list sublattice) (st : step) : Prop :=
  forall s c, In (s, c) st -> exists sl, In sl sls /\ In s (sl_sites sl) /\ In c (sl_encoding sl).
