(** Properties C126-C128: samplers with seeds, and the recorded steps of composites. *)
From Verif Require Export SeededRunProofs.
From Verif Require Import LawProofs ProbProofs.
Set Implicit Arguments.
Local Open Scope nat_scope.

(** ** C126: the samples of a sampler are determined by the seeds of its walkers *)
Section C126.
Variable G : Type.
Variable seeded : nat -> G.
Variable pick : list Qc -> G -> nat * G.
Variable unif : G -> R * G.
Variable A : Type.
Variable Ru : rules A.

Lemma plain_behaves p : forall ent a (w : world G), a < length (heap w) ->
  behaves pick p (fun _ => True) (fst (make_steps seeded ent (Single (Plain p)) (Some a) w)) a /\
  exists l, heap (snd (make_steps seeded ent (Single (Plain p)) (Some a) w)) = heap w ++ l.
Proof.
  intros ent a w Ha. cbn. split; [|exists []; rewrite app_nil_r; reflexivity].
  intros occu h g _ Hg. cbn [propose]. unfold draw_at. rewrite Hg. reflexivity.
Qed.
Lemma plain_session p ent E given seeds n qs (w : world G) :
  default_steps E given = Single (Plain p) -> length seeds = n ->
  session seeded pick unif ent Ru E given (Some seeds) n qs w = lone_session seeded pick unif Ru p (e_sites E) seeds qs.
Proof.
  intros Hd Hn. apply (@session_given G seeded pick unif A Ru p (fun _ => True) (fun _ _ _ _ => I) (Single (Plain p)) (@plain_behaves p)); auto.
  apply Forall_forall. intros q _. unfold good_request. destruct (q_occus q) as [[o|l]|]; auto. apply Forall_forall. auto.
Qed.

Theorem C126_reproducible : forall E given p seeds n qs ent ent' (w w' : world G),
  default_steps E given = Single (Plain p) ->
  session seeded pick unif ent Ru E given (Some seeds) n qs w =
  session seeded pick unif ent' Ru E given (Some seeds) n qs w'.
Proof.
  intros E given p seeds n qs ent ent' w w' Hd. destruct (Nat.eq_dec (length seeds) n) as [Hn|Hn].
  - rewrite !(@plain_session p); auto.
  - unfold session, from_ensemble. apply Nat.eqb_neq in Hn. rewrite Hn. reflexivity.
Qed.

Theorem C126_recorded : forall E given p n qs ent ent' (w w' : world G) s w1,
  default_steps E given = Single (Plain p) ->
  from_ensemble seeded pick unif ent Ru E given None n w = Some (s, w1) ->
  session seeded pick unif ent Ru E given None n qs w =
  session seeded pick unif ent' Ru E given (Some (recorded s)) n qs w'.
Proof.
  intros E given p n qs ent ent' w w' s w1 Hd Hf.
  destruct (@session_recorded G seeded pick unif A Ru p (fun _ => True) (fun _ _ _ _ => I) (Single (Plain p)) (@plain_behaves p) ent E given n qs w s w1 Hd) as [E1 E2]; auto.
  { apply Forall_forall. intros q _. unfold good_request. destruct (q_occus q) as [[o|l]|]; auto. apply Forall_forall. auto. }
  rewrite E1. symmetry. apply plain_session; auto.
Qed.

(** The rows of walker [i], and the requests with its occupancies. *)
Theorem C126_walkers : forall E given p seeds n qs ent ent' (w w' : world G) rows i x,
  default_steps E given = Single (Plain p) ->
  session seeded pick unif ent Ru E given (Some seeds) n qs w = Some rows ->
  nth_error seeds i = Some x ->
  exists rows', opt_map (walker i) rows = Some rows' /\
    session seeded pick unif ent' Ru E given (Some [x]) 1 (map (only i) qs) w' = Some rows'.
Proof.
  intros E given p seeds n qs ent ent' w w' rows i x Hd Hs Hx.
  assert (Hn : length seeds = n).
  { destruct (Nat.eq_dec (length seeds) n) as [Hn|Hn]; auto. unfold session, from_ensemble in Hs.
    apply Nat.eqb_neq in Hn. rewrite Hn in Hs. discriminate. }
  rewrite (@plain_session p) in Hs by auto.
  destruct (@lone_session_one G seeded pick unif A Ru p (e_sites E) seeds qs rows i x Hs Hx) as [rows' [E1 E2]]. exists rows'. split; auto.
  rewrite (@plain_session p); auto.
Qed.

(** ** C127: other step types *)
Variable Good : list nat -> Prop.
(** The table has a flip for every good occupancy, which leads to a good occupancy. *)
Definition stays (q : list nat -> prog (option step)) : Prop := forall occu, Good occu ->
  (forall w, ~ In (w, Some None) (q occu)) /\
  (forall st, outcome (q occu) (Some st) -> Good (apply_step occu st)).
Definition good_occus (q : request) : Prop :=
  match q_occus q with None => True | Some (One o) => Good o | Some (Rows l) => Forall Good l end.
Definition strip (q : list nat -> prog (option step)) (occu : list nat) : prog step :=
  map (fun x => (fst x, match snd x with Some (Some st) => Some st | _ => None end)) (q occu).
Lemma table_behaves q r : stays q -> forall ent a (w : world G), a < length (heap w) ->
  behaves pick (strip q) Good (fst (make_steps seeded ent (Single (Table q r)) (Some a) w)) a /\
  exists l, heap (snd (make_steps seeded ent (Single (Table q r)) (Some a) w)) = heap w ++ l.
Proof.
  intros Hq ent a w Ha. cbn. split; [|eexists; reflexivity].
  intros occu h g Hi Hg. cbn [propose]. unfold draw_at, exec, strip. rewrite Hg. cbn [option_bind].
  rewrite map_map. cbn [fst].
  destruct (pick (map fst (q occu)) g) as [i g']. rewrite nth_error_map.
  destruct (nth_error (q occu) i) as [[wt [[st|]|]]|] eqn:E; cbn; auto.
  exfalso. destruct (Hq occu Hi) as [Hn _]. eapply Hn. eapply nth_error_In; eauto.
Qed.
(** A table flip that never falls back to swaps draws from the generator of its kernel only. *)
Theorem C127_table_partial : forall E q r seeds n qs ent ent' (w w' : world G),
  stays q -> Good (repeat 0 (e_sites E)) -> Forall good_occus qs ->
  session seeded pick unif ent Ru E (Some (Single (Table q r))) (Some seeds) n qs w =
  session seeded pick unif ent' Ru E (Some (Single (Table q r))) (Some seeds) n qs w'.
Proof.
  intros E q r seeds n qs ent ent' w w' Hq Hz Hqs. destruct (Nat.eq_dec (length seeds) n) as [Hn|Hn].
  - assert (Hk : forall o st, Good o -> outcome (strip q o) st -> Good (apply_step o st)).
    { intros o st Ho [wt Hin]. unfold strip in Hin. apply in_map_iff in Hin as [[w0 x] [E1 E2]]. cbn in E1.
      destruct x as [[st'|]|]; inversion E1; subst. apply (proj2 (Hq o Ho)). exists wt. auto. }
    rewrite !(@session_given G seeded pick unif A Ru (strip q) Good Hk (Single (Table q r)) (@table_behaves q r Hq)); auto.
  - unfold session, from_ensemble. apply Nat.eqb_neq in Hn. rewrite Hn. reflexivity.
Qed.
End C126.

(** The two parts of a table flip make up its proposals (TableFlip.v). *)

(** The proposals of a table flip are those of TableFlip.v: its own draws, then the swapper. *)
Theorem C127_table_proposals_partial tf occu :
  same (table_propose tf occu)
       (draw r <- table_draw tf occu; match r with Some st => pret st | None => swap_propose (tf_swapper tf) occu end).
Proof.
  set (k := fun r : option step => match r with Some st => pret st | None => swap_propose (tf_swapper tf) occu end).
  unfold table_propose, table_draw. apply same_step. intros [|]; [exact (same_ret None k)|].
  apply same_step; intros t. apply same_step; intros t_full. apply same_step; intros L. apply same_step; intros L_full.
  apply same_step; intros mask.
  destruct (existsb (fun x : Qc => Qcltb x 0) (masked (tf_weights tf) mask)).
  { intros P. rewrite prob_bind, prob_fail0. cbn. ring. }
  destruct (forallb (fun x : Qc => Qceqb x 0) (masked (tf_weights tf) mask)); [exact (same_ret None k)|].
  apply same_step; intros idx. apply same_step; intros v.
  eapply same_trans; [|apply same_assoc]. intros P. rewrite prob_bind. unfold prob at 1.
  apply qsum_map_ext. intros [w [x|]] _; cbn [fst snd]; auto.
  rewrite <- (same_ret (Some x) k P). cbn [k]. rewrite prob_ret. destruct (P x); ring.
Qed.

(** Two sites with two species; a generator that counts. *)
Definition sr_layout : list sublattice :=
  [mkSL [(Sp 0, Qc_frac 1 2); (Sp 1, Qc_frac 1 2)] [0; 1; 2] [0; 1; 2] [0; 1]].
Definition sr_usher : usher := mkUsher sr_layout [1%Qc].
Definition sr_kernel : mckernel :=
  mkKernel [] (fun _ => []) (fun _ _ => []) None (flip_propose sr_usher) (fun _ _ => Some 0%R).
(** The rules of an UniformlyRandom kernel for this usher, which accepts every step. *)
Definition sr_rules : rules unit :=
  mkRules tt (fun _ _ => Some tt) (fun _ _ _ => Some (Settled true)) (fun _ _ _ _ => Some tt).
Definition sr_seeded (s : nat) : nat := s.
Definition sr_pick (ws : list Qc) (g : nat) : nat * nat := (g mod length ws, (g * 5 + 3) mod 16).
Definition sr_unif (g : nat) : R * nat := ((1 / 2)%R, (g * 5 + 3) mod 16).
Definition sr_ens (mu : bool) : ens := mkEns 3 mu (Plain (flip_propose sr_usher)) (Plain (swap_propose sr_usher)).
Definition sr_world : world nat := mkWorld [] 0.
Definition sr_reqs : list request := [mkReq 4 2 (Some (Rows [[0; 0; 1]; [1; 0; 1]])); mkReq 2 1 None].
Lemma weigh_0 : weigh 0 = Settled true.
Proof. unfold weigh. destruct (Rle_dec 0 0); [reflexivity|exfalso; lra]. Qed.
Lemma sr_rules_ok : r_init sr_rules = r_init (plain_rules sr_kernel random_rule) /\
  (forall a o, r_start sr_rules a o = r_start (plain_rules sr_kernel random_rule) a o) /\
  (forall a o st, r_verdict sr_rules a o st = r_verdict (plain_rules sr_kernel random_rule) a o st) /\
  (forall a o st b, r_post sr_rules a o st b = r_post (plain_rules sr_kernel random_rule) a o st b).
Proof. repeat split; auto. intros a o st. cbn. unfold random_rule, add_bias. cbn. rewrite weigh_0. reflexivity. Qed.
Definition sr_session (ent : nat -> nat) (given : option step_type) (seeds : list nat) (w : world nat) : option (list row) :=
  session sr_seeded sr_pick sr_unif ent sr_rules (sr_ens true) given (Some seeds) (length seeds) sr_reqs w.
Definition sr_comp : step_type := CompOf [1%Qc] [Name (Plain (flip_propose sr_usher))].
Definition sr_multi : step_type := MultiOf [1] [1%Qc] (Name (Plain (flip_propose sr_usher))).
Definition sr_tf (swap_weight : Qc) : tableflip :=
  mkTF sr_layout sr_usher [[-1; 1]%Z] [1; 1]%Qc swap_weight [[1; 1]%Z] [1%Z] 3%Z.
Definition sr_table (swap_weight : Qc) : step_type :=
  Single (Table (table_draw (sr_tf swap_weight)) (swap_propose sr_usher)).

(** Steps made by name for a composite or a multi-step, and the swaps of a table flip, draw
    from a generator of their own: the samples depend on the process even if seeds are given. *)
Definition process_matters (s : step_type) : Prop :=
  exists ent ent' x x', sr_session ent (Some s) [7; 8] sr_world = Some x /\
    sr_session ent' (Some s) [7; 8] sr_world = Some x' /\ x <> x'.
Theorem C127_composite_refuted : process_matters sr_comp.
Proof.
  exists (fun n => n), (fun n => S n). eexists. eexists. split; [vm_compute; reflexivity|].
  split; [vm_compute; reflexivity|discriminate].
Qed.
Theorem C127_multistep_refuted : process_matters sr_multi.
Proof.
  exists (fun n => n), (fun n => S n). eexists. eexists. split; [vm_compute; reflexivity|].
  split; [vm_compute; reflexivity|discriminate].
Qed.
Theorem C127_swaps_refuted : process_matters (sr_table 1%Qc).
Proof.
  exists (fun n => n), (fun n => S n). eexists. eexists. split; [vm_compute; reflexivity|].
  split; [vm_compute; reflexivity|discriminate].
Qed.
(** The recorded seeds do not give the samples back either. *)
Theorem C127_recorded_refuted : exists s w rows rows',
  from_ensemble sr_seeded sr_pick sr_unif (fun n => n) sr_rules (sr_ens true) (Some sr_comp) None 2 sr_world = Some (s, w) /\
  session sr_seeded sr_pick sr_unif (fun n => n) sr_rules (sr_ens true) (Some sr_comp) None 2 sr_reqs sr_world = Some rows /\
  sr_session (fun n => S (S n)) (Some sr_comp) (recorded s) sr_world = Some rows' /\ rows <> rows'.
Proof.
  eexists. eexists. eexists. eexists. split; [vm_compute; reflexivity|]. split; [vm_compute; reflexivity|].
  split; [vm_compute; reflexivity|discriminate].
Qed.

(** Samples of flips: the same in two processes, and different for other seeds. *)
Example C126_case :
  default_steps (sr_ens true) None = Single (Plain (flip_propose sr_usher)) /\
  default_steps (sr_ens false) None = Single (Plain (swap_propose sr_usher)) /\
  sr_session (fun n => n) None [7; 8] sr_world =
    Some [[([1; 1; 1], true); ([1; 1; 0], true)]; [([1; 1; 1], true); ([0; 1; 1], true)];
          [([1; 0; 1], true); ([1; 1; 1], true)]; [([1; 0; 0], true); ([1; 1; 0], true)]] /\
  sr_session (fun n => S n) None [7; 8] (mkWorld [1; 2] 5) = sr_session (fun n => n) None [7; 8] sr_world /\
  sr_session (fun n => n) None [7; 9] sr_world <> sr_session (fun n => n) None [7; 8] sr_world /\
  session sr_seeded sr_pick sr_unif (fun n => n) sr_rules (sr_ens true) None (Some [8]) 1 (map (only 1) sr_reqs) sr_world =
    Some [[([1; 1; 0], true)]; [([0; 1; 1], true)]; [([1; 1; 1], true)]; [([1; 1; 0], true)]] /\
  (exists s w, from_ensemble sr_seeded sr_pick sr_unif (fun n => n + 7) sr_rules (sr_ens true) None None 2 sr_world = Some (s, w) /\
     recorded s = [7; 8]).
Proof.
  split; [reflexivity|]. split; [reflexivity|]. split; [vm_compute; reflexivity|]. split; [vm_compute; reflexivity|].
  split; [intros X; vm_compute in X; discriminate X|]. split; [vm_compute; reflexivity|].
  eexists. eexists. split; vm_compute; reflexivity.
Qed.
Definition sr_good (o : list nat) : Prop := length o = 3 /\ forall c, In c o -> c < 2.
Lemma sr_occus o : sr_good o -> In o [[0;0;0];[0;0;1];[0;1;0];[0;1;1];[1;0;0];[1;0;1];[1;1;0];[1;1;1]].
Proof.
  intros [Hl Hc]. destruct o as [|a [|b [|c [|d o]]]]; try discriminate.
  assert (Ha := Hc a ltac:(simpl; auto)). assert (Hb := Hc b ltac:(simpl; auto)). assert (Hd := Hc c ltac:(simpl; auto)).
  destruct a as [|[|a]], b as [|[|b]], c as [|[|c]]; simpl; auto 10; lia.
Qed.
Definition sr_check (o : list nat) : bool :=
  forallb (fun x : Qc * option (option step) => match snd x with
    | None => true | Some None => false
    | Some (Some st) => (length (apply_step o st) =? 3) && forallb (fun c => c <? 2) (apply_step o st) end)
    (table_draw (sr_tf 0%Qc) o).
Example C127_case : stays sr_good (table_draw (sr_tf 0%Qc)) /\ sr_good (repeat 0 3) /\ Forall (good_occus sr_good) sr_reqs /\
  exists a b l, sr_session (fun n => n) (Some (sr_table 0%Qc)) [7; 8] sr_world = Some (a :: b :: l) /\ a <> b.
Proof.
  split.
  { intros o Ho. assert (E : sr_check o = true).
    { assert (Ha : forallb sr_check [[0;0;0];[0;0;1];[0;1;0];[0;1;1];[1;0;0];[1;0;1];[1;1;0];[1;1;1]] = true) by (vm_compute; reflexivity).
      rewrite forallb_forall in Ha. apply Ha. apply sr_occus; auto. }
    unfold sr_check in E. rewrite forallb_forall in E. split.
    - intros w Hin. specialize (E _ Hin). discriminate E.
    - intros st [w Hin]. specialize (E _ Hin). cbn [snd] in E. apply andb_true_iff in E as [E1 E2].
      split; [apply Nat.eqb_eq; auto|]. rewrite forallb_forall in E2. intros c Hc. apply Nat.ltb_lt. auto. }
  assert (G : forall a b c, a < 2 -> b < 2 -> c < 2 -> sr_good [a; b; c]).
  { intros a b c Ha Hb Hc. split; [reflexivity|]. intros x [<-|[<-|[<-|[]]]]; auto. }
  split; [apply G; lia|]. split.
  { constructor; [|constructor; [exact I|constructor]]. cbn.
    constructor; [apply G; lia|]. constructor; [apply G; lia|constructor]. }
  eexists. eexists. eexists. split; [vm_compute; reflexivity|discriminate].
Qed.

(** ** C128: the recorded steps of a composite *)

(** Each step with its weight, in the order they were given. *)
Definition recorded_once (l : list (Qc * nat)) (c : comp_spec) : Prop := combine (cs_weights c) (cs_steps c) = l /\ length (cs_steps c) = length (cs_weights c).
Lemma spec_fold : forall l c, cs_weights (fold_left spec_given l c) = cs_weights c ++ map fst l /\
  cs_steps (fold_left spec_given l c) = cs_steps c ++ flat_map (fun p => [snd p; snd p]) l.
Proof.
  induction l as [|p l IH]; intros c; cbn [fold_left map flat_map].
  - rewrite !app_nil_r. auto.
  - destruct (IH (spec_given c p)) as [E1 E2]. rewrite E1, E2.
    cbn [cs_steps cs_weights spec_given spec_add]. rewrite <- !app_assoc. auto.
Qed.
(** Adding steps to an empty composite records each once. *)
Theorem C128_added_partial l : recorded_once l (fold_left (fun c p => spec_add c (snd p) (fst p)) l (mkCS [] [])).
Proof.
  assert (H : forall l c, cs_weights (fold_left (fun c p => spec_add c (snd p) (fst p)) l c) = cs_weights c ++ map fst l /\
    cs_steps (fold_left (fun c p => spec_add c (snd p) (fst p)) l c) = cs_steps c ++ map snd l).
  { clear. induction l as [|p l IH]; intros c; cbn [fold_left map].
    - rewrite !app_nil_r. auto.
    - destruct (IH (spec_add c (snd p) (fst p))) as [E1 E2]. rewrite E1, E2. cbn. rewrite <- !app_assoc. auto. }
  destruct (H l (mkCS [] [])) as [E1 E2]. cbn [cs_weights cs_steps app] in *. unfold recorded_once. rewrite E1, E2, !map_length.
  split; auto. clear. induction l as [|[a b] l IH]; cbn; congruence.
Qed.
(** A composite built from a list records the weights, and every step twice. *)
Theorem C128_init_refuted l : cs_weights (spec_init l) = map fst l /\
  cs_steps (spec_init l) = flat_map (fun p => [snd p; snd p]) l /\ (l <> [] -> ~ recorded_once l (spec_init l)).
Proof.
  destruct (spec_fold l (mkCS [] [])) as [E1 E2]. cbn [cs_weights cs_steps app] in *. unfold spec_init.
  split; [exact E1|]. split; [exact E2|]. intros Hl [_ Hn]. rewrite E1, E2, map_length in Hn.
  assert (Hf : length (flat_map (fun p : Qc * nat => [snd p; snd p]) l) = 2 * length l).
  { clear. induction l as [|a l IH]; [reflexivity|]. cbn [flat_map length app]. rewrite IH. cbn. lia. }
  rewrite Hf in Hn. destruct l; [congruence|]. cbn in Hn. lia.
Qed.
Example C128_case : cs_steps (spec_init [(1%Qc, 3); (Qc_frac 1 2, 4)]) = [3; 3; 4; 4] /\
  cs_weights (spec_init [(1%Qc, 3); (Qc_frac 1 2, 4)]) = [1%Qc; Qc_frac 1 2].
Proof. split; reflexivity. Qed.

Print Assumptions C126_reproducible.
Print Assumptions C126_recorded.
Print Assumptions C126_walkers.
Print Assumptions C127_table_partial.
Print Assumptions C127_table_proposals_partial.
Print Assumptions C127_composite_refuted.
Print Assumptions C127_multistep_refuted.
Print Assumptions C127_swaps_refuted.
Print Assumptions C127_recorded_refuted.
Print Assumptions C128_added_partial.
Print Assumptions C128_init_refuted.
