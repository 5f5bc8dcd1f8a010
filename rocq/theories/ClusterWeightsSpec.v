(** Specification for C103: random occupancies. *)
From Verif Require Export QcLib.
Set Implicit Arguments.
Open Scope nat_scope.

(** Expectation of [f] over the codes of independent sites; the measure of site [i] gives
    code [c] the probability [nth c (nth i mus)]. *)
Fixpoint expect (mus : list (list Qc)) (f : list nat -> Qc) : Qc :=
  match mus with
  | [] => f []
  | mu :: mus' => qsum (map (fun c => nth c mu 0 * expect mus' (fun cs => f (c :: cs)))%Qc (seq 0 (length mu)))
  end.
(** Mean of a function of the species of one site. *)
Definition site_mean (mu : list Qc) (g : nat -> Qc) : Qc := qsum (map (fun c => nth c mu 0 * g c)%Qc (seq 0 (length mu))).
(** Site functions that are orthonormal to each other and to the constant under a measure
    of total one. *)
Record orthonormal (mu : list Qc) (B : list (list Qc)) : Prop := {
  on_total : qsum mu = 1%Qc;
  on_mean : forall b r, nth_error B b = Some r -> site_mean mu (fun c => nth c r 0%Qc) = 0%Qc;
  on_prod : forall b b' r r', nth_error B b = Some r -> nth_error B b' = Some r' ->
     site_mean mu (fun c => nth c r 0 * nth c r' 0)%Qc = if b =? b' then 1%Qc else 0%Qc
}.
(** Clusters with different sets of sites. *)
Definition different_sites (row row' : list nat) : Prop :=
  exists s, (In s row /\ ~ In s row') \/ (~ In s row /\ In s row').
