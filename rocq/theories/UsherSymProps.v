(** Properties C63 and C129 (vocabulary in UsherSpec.v and OccuUtilsSpec.v). *)
From Verif Require Import UsherSymProofs UsherProofs OccuUtilsProps LawProofs.
Local Open Scope nat_scope.

(** ** C63: proposals with zero a-priori factor are symmetric *)
Theorem C63_symmetric :
  forall sls N p o o',
    layout sls N -> unmixed sls p -> valid_occu sls N o -> valid_occu sls N o' ->
    transition p o o' = transition p o' o.
Proof.
  intros sls N p o o' L H V V'. induction H as [p H|p H|c _ IH].
  - apply (@flips_symmetric sls N (flips sls)); auto. intros q (given & u & M & P & ->). exists u. split; auto. exact (usher_ok_mk M P).
  - apply (@swaps_symmetric sls N L (swaps sls)); auto. intros q (given & u & M & P & ->). exists u. split; auto. exact (usher_ok_mk M P).
  - apply composite_symmetric. exact IH.
Qed.
Print Assumptions C63_symmetric.

(** A composite of any symmetric proposers is symmetric. *)
Theorem C63_composite :
  forall c o o',
    (forall u, In u (co_ushers c) -> transition u o o' = transition u o' o) ->
    transition (composite_propose c) o o' = transition (composite_propose c) o' o.
Proof. exact composite_symmetric. Qed.
Print Assumptions C63_composite.

(** ** C129: multi-steps of mixed steps *)

(** With one sub-step they are as symmetric as it. *)
Theorem C129_single_partial :
  forall p lens ps o o',
    (forall len, In len lens -> len <= 1) -> transition p o o' = transition p o' o ->
    transition (multi_propose p lens ps) o o' = transition (multi_propose p lens ps) o' o.
Proof.
  intros p lens ps o o' Hl H. unfold transition, multi_propose. rewrite !prob_bind. apply qsum_map_ext.
  intros [w [len|]] Hin; cbn [fst snd]; auto. f_equal.
  assert (Hlen : len - 1 = 0).
  { assert (X : In len lens) by (apply (outcome_choice_p (p := ps)); exists w; auto). apply Hl in X. lia. }
  rewrite Hlen. cbn [multi_loop].
  assert (R : forall a b, prob (draw st <- p a; draw steps <- pret [st]; pret (concat steps)) (fun st => occu_eqb (apply_step a st) b) = transition p a b).
  { intros a b. unfold transition. rewrite prob_bind. unfold prob at 2. apply qsum_map_ext. intros [w' [st|]] _; cbn [fst snd]; auto.
    rewrite <- (same_ret [st] (fun steps : list step => pret (concat steps)) _), prob_ret. cbn [concat]. rewrite app_nil_r.
    destruct (occu_eqb (apply_step a st) b); ring. }
  rewrite !R. exact H.
Qed.
Print Assumptions C129_single_partial.

(** A multi-step usher over a composite of flips and swaps is not: three sites with
    two species, two sub-steps. *)
Definition ex3_space : site_space := [(Sp 0, Qc_frac 1 2); (Sp 1, Qc_frac 1 2)].
Definition ex3_layout := [mkSL ex3_space [0; 1; 2] [0; 1; 2] [0; 1]].
Theorem C129_mixed_refuted :
  exists u c o o',
    mk_usher ex3_layout None = Some u /\
    mk_composite [flip_propose u; swap_propose u] None = Some c /\
    valid_occu ex3_layout 3 o /\ valid_occu ex3_layout 3 o' /\
    this (transition (multi_propose (composite_propose c) [2] [1%Qc]) o o') = (7 # 36)%Q /\
    this (transition (multi_propose (composite_propose c) [2] [1%Qc]) o' o) = (1 # 9)%Q.
Proof.
  exists (mkUsher ex3_layout [1 / Qc_of_nat 1]%Qc).
  set (u := mkUsher _ _).
  exists (match mk_composite [flip_propose u; swap_propose u] None with Some c => c | None => empty_composite end).
  exists [0; 0; 0], [1; 0; 0].
  split; [reflexivity|]. split; [reflexivity|].
  assert (V : forall a b d, a < 2 -> b < 2 -> d < 2 -> valid_occu ex3_layout 3 [a; b; d]).
  { intros a b d Ha Hb Hd. split; [reflexivity|]. intros sl s [<-|[]] Hs; simpl in *.
    destruct Hs as [<-|[<-|[<-|[]]]]; simpl; eexists; split; eauto; lia. }
  split; [apply V; lia|]. split; [apply V; lia|].
  split; vm_compute; reflexivity.
Qed.
Print Assumptions C129_mixed_refuted.

(** Concrete cases: multi-steps of two flips and of two swaps on four sites with three species.  The numbers depend on what was touched before. *)
Definition ex4_space : site_space := [(Sp 0, Qc_frac 1 3); (Sp 1, Qc_frac 1 3); (Sp 2, Qc_frac 1 3)].
Definition ex4_layout := [mkSL ex4_space [0; 1; 2; 3] [0; 1; 2; 3] [0; 1; 2]].
Definition ex4_usher := mkUsher ex4_layout [1 / Qc_of_nat 1]%Qc.
Lemma ex4_layout_ok : layout ex4_layout 4.
Proof.
  constructor.
  - discriminate.
  - cbn. apply Permutation_refl.
  - intros sl s [<-|[]] H; exact H.
  - intros sl [<-|[]]. cbn. repeat constructor; cbn; intuition discriminate.
  - intros sl [<-|[]]. cbn. split; [repeat constructor; cbn; intuition discriminate|discriminate].
Qed.
Example C63_case :
  layout ex4_layout 4 /\ mk_usher ex4_layout None = Some ex4_usher /\
  unmixed ex4_layout (multi_propose (flip_propose ex4_usher) [1; 2] [Qc_frac 1 2; Qc_frac 1 2]) /\
  unmixed ex4_layout (multi_propose (swap_propose ex4_usher) [2] [1%Qc]) /\
  this (transition (multi_propose (flip_propose ex4_usher) [1; 2] [Qc_frac 1 2; Qc_frac 1 2]) [0; 1; 2; 0] [0; 2; 2; 0]) = (5 # 64)%Q /\
  this (transition (multi_propose (swap_propose ex4_usher) [2] [1%Qc]) [0; 1; 2; 0] [1; 0; 0; 2]) = (25 # 288)%Q /\
  this (transition (multi_propose (swap_propose ex4_usher) [2] [1%Qc]) [1; 0; 0; 2] [0; 1; 2; 0]) = (25 # 288)%Q.
Proof.
  assert (M : mk_usher ex4_layout None = Some ex4_usher) by reflexivity.
  split; [exact ex4_layout_ok|]. split; [exact M|].
  split. { apply unmixed_flips, built_multi, built_base. exists None, ex4_usher. split; [exact M|]. split; [discriminate|reflexivity]. }
  split. { apply unmixed_swaps, built_multi, built_base. exists None, ex4_usher. split; [exact M|]. split; [discriminate|reflexivity]. }
  split; [vm_compute; reflexivity|]. split; vm_compute; reflexivity.
Qed.
