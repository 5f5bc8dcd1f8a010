(** Vocabulary for the kernel properties. *)
From Verif Require Export Kernel UsherSpec.
Set Implicit Arguments.
Open Scope nat_scope.

(** The code a step assigns to a site: that of its last flip of the site, if any. *)
Fixpoint last_flip (st : step) (s : nat) : option nat :=
  match st with
  | [] => None
  | (s', c) :: st' => match last_flip st' s with
                      | Some c' => Some c'
                      | None => if s' =? s then Some c else None
                      end
  end.

(** Probability that a Metropolis step moves from [o] to a different [o']: every
    proposal is weighted with the length of the interval of uniform draws that accept it. *)
Definition accept_prob (e : R) : R := Rmin 1 (exp e).
Definition move_prob (K : mckernel) (rule : Qc -> R -> option R -> R) (o o' : list nat) : R :=
  rsum (map (fun p => match snd p with
     | Some st =>
         if occu_eqb (apply_step o st) o' then
           match k_logp K o st with
           | Some lf => let d := compute_step_trace K o st in
                        (Qc2R (fst p) * accept_prob (rule (d_enth d) lf (d_bias d)))%R
           | None => 0%R
           end
         else 0%R
     | None => 0%R
     end) (k_propose K o)).

(** The change functions are exact at [o] for step [st]. *)
Definition exact_changes (K : mckernel) (o : list nat) (st : step) : Prop :=
  length (k_dfeat K o st) = length (k_feat K o) /\
  k_feat K (apply_step o st) = qvadd (k_feat K o) (k_dfeat K o st) /\
  (forall b, k_bias K = Some b -> b_change b o st = (b_value b (apply_step o st) - b_value b o)%R).

(** The enthalpy and bias of an occupancy, from scratch. *)
Definition enthalpy (K : mckernel) (o : list nat) : Qc := qdot (k_params K) (k_feat K o).
Definition bias_of (K : mckernel) (o : list nat) : R :=
  match k_bias K with Some b => b_value b o | None => 0%R end.
