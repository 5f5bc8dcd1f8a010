(** Vocabulary for containers. *)
From Verif Require Export Container.
Set Implicit Arguments.
Open Scope nat_scope.

(** A container that holds exactly the samples [xs]. *)
Definition holds {W} (c : container W) (xs : list (sample W)) (steps : nat) : Prop :=
  c_rows c = map Some xs /\ c_n c = length xs /\ c_steps c = steps.
(** A file that holds exactly the samples [xs] (it may have unused space). *)
Definition file_holds {W} (b : backend W) (xs : list (sample W)) (steps : nat) : Prop :=
  firstn (b_n b) (b_rows b) = map Some xs /\ b_n b = length xs /\ b_steps b = steps.
