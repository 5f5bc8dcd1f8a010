(** Properties C58 and C62: site spaces. *)
From Verif Require Import DomainProofs.
Open Scope Qc_scope.

(** C58.  Two site spaces built from compositions with positive amounts that are
    full (total 1) or leave more than 1% for the vacancy compare equal iff they have
    the same species and measure in the same order. *)
Theorem C58_equality_exact_partial :
  forall leb c1 c2 s1 s2,
    mk_site_space leb c1 = Some s1 -> mk_site_space leb c2 = Some s2 ->
    Forall (fun p => 0 < snd p) c1 -> Forall (fun p => 0 < snd p) c2 ->
    num_atoms c1 < q099 \/ num_atoms c1 = 1 -> num_atoms c2 < q099 \/ num_atoms c2 = 1 ->
    (site_space_eqb s1 s2 = true <-> s1 = s2).
Proof. exact eqb_constructed. Qed.
Print Assumptions C58_equality_exact_partial.

(** In general the comparison only compares up to the shorter one. *)
Theorem C58_prefix :
  forall a b, site_space_eqb a b = true <-> exists c, (a = b ++ c \/ b = a ++ c).
Proof. exact eqb_prefix. Qed.
Print Assumptions C58_prefix.

(** Outside these conditions different site spaces may compare equal: totals
    between 0.99 and 1 are accepted but get no vacancy. *)
Theorem C58_equality_refuted :
  exists leb c1 c2 s1 s2,
    mk_site_space leb c1 = Some s1 /\ mk_site_space leb c2 = Some s2 /\
    Forall (fun p => 0 < snd p) c1 /\ Forall (fun p => 0 < snd p) c2 /\
    site_space_eqb s1 s2 = true /\ s1 <> s2.
Proof.
  exists (fun _ _ => true), [(Sp 0, Qc_frac 995 1000)],
    [(Sp 0, Qc_frac 995 1000); (Sp 1, Qc_frac 5 1000)].
  do 2 eexists. split; [reflexivity|]. split; [reflexivity|].
  split; [repeat constructor|]. split; [repeat constructor|].
  split; [reflexivity|discriminate].
Qed.
Print Assumptions C58_equality_refuted.

Example C58_example :
  exists s1 s2,
    mk_site_space (fun _ _ => true) [(Sp 0, Qc_frac 1 2)] = Some s1 /\
    mk_site_space (fun _ _ => true) [(Sp 0, Qc_frac 1 2); (Sp 1, Qc_frac 1 2)] = Some s2 /\
    num_atoms [(Sp 0, Qc_frac 1 2)] < q099 /\
    num_atoms [(Sp 0, Qc_frac 1 2); (Sp 1, Qc_frac 1 2)] = 1 /\
    site_space_eqb s1 s2 = false.
Proof.
  do 2 eexists. split; [reflexivity|]. split; [reflexivity|]. split; [reflexivity|].
  split; [apply Qc_is_canon; reflexivity|reflexivity].
Qed.

(** C62.  Species of a site space built from a composition without explicit
    vacancies are in strictly increasing order and the vacancy is last; the total is 1
    when the composition is full or leaves more than 1% vacancies; uniform spaces
    (below 99 species) always have total 1. *)
Theorem C62_order_partial :
  forall leb,
    (forall a b, leb a b = true \/ leb b a = true) ->
    (forall a b c, leb a b = true -> leb b c = true -> leb a c = true) ->
    forall c s, mk_site_space leb c = Some s -> NoDup (map fst c) ->
      (forall p, In p c -> fst p <> Vac) ->
      StronglySorted (sp_before leb) (map fst s).
Proof. exact mk_ordered. Qed.
Print Assumptions C62_order_partial.

Theorem C62_total_partial :
  forall leb c s,
    mk_site_space leb c = Some s -> num_atoms c < q099 \/ num_atoms c = 1 ->
    qsum (map snd s) = 1.
Proof. exact mk_total. Qed.
Print Assumptions C62_total_partial.

Theorem C62_uniform_total :
  forall leb site s,
    site <> [] -> (length site < 99)%nat ->
    uniform_site_space leb site = Some s -> qsum (map snd s) = 1.
Proof. exact uniform_total. Qed.
Print Assumptions C62_uniform_total.

(** The class documentation says the vacancy is always last and the total is
    always 1; with an explicit vacancy the position is the one of the species order,
    and totals in [0.99, 1) are kept. *)
Theorem C62_vacancy_last_refuted :
  exists leb c s,
    (forall a b, leb a b = true \/ leb b a = true) /\
    mk_site_space leb c = Some s /\ map fst s = [Vac; Sp 0].
Proof.
  exists (fun a b => match a, b with Vac, _ => true | _, Vac => false | Sp n, Sp m => Nat.leb n m end),
    [(Sp 0, Qc_frac 1 2); (Vac, Qc_frac 1 2)].
  eexists. split.
  - intros [n|] [m|]; auto. destruct (Nat.leb_spec n m); auto. right. apply Nat.leb_le. lia.
  - split; [reflexivity|]. reflexivity.
Qed.
Print Assumptions C62_vacancy_last_refuted.

Theorem C62_total_refuted :
  exists leb c s, mk_site_space leb c = Some s /\ qsum (map snd s) <> 1.
Proof.
  exists (fun _ _ => true), [(Sp 0, Qc_frac 995 1000)]. eexists. split; [reflexivity|].
  intros H. apply Qc_eq_iff in H. discriminate.
Qed.
Print Assumptions C62_total_refuted.

Example C62_example :
  option_map (map fst) (mk_site_space
    (fun a b => match a, b with Sp n, Sp m => Nat.leb n m | Sp _, Vac => true | Vac, Vac => true | _, _ => false end)
    [(Sp 5, Qc_frac 1 4); (Sp 2, Qc_frac 1 4)]) = Some [Sp 2; Sp 5; Vac].
Proof. vm_compute. reflexivity. Qed.
