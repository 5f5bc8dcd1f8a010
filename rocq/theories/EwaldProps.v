(** C28: Ewald energy changes equal differences of Ewald energies.  C30: composite processors
    add their parts. *)
From Verif Require Import LibProofs KernelProofs EvaluatorSpec EvaluatorProofs EvaluatorProps ExpansionProps Ewald.
Set Implicit Arguments.
Unset Strict Implicit.
Open Scope nat_scope.

(** ** Specification *)
(** Ewald sites: one per species that is not a vacancy, counted through the sites in order. *)
Definition ions (space : list bool) : nat := length (filter negb space).
Definition ewald_sites (spaces : list (list bool)) : nat := length (filter negb (concat spaces)).
Definition ewald_site (spaces : list (list bool)) (k c : nat) : option nat :=
  if nth c (nth k spaces []) true then None
  else Some (ewald_sites (firstn k spaces) + ions (firstn c (nth k spaces []))).
Definition coupling (M : nat -> nat -> Qc) (a b : option nat) : Qc :=
  match a, b with Some i, Some j => M i j | _, _ => 0%Qc end.
(** Interactions of all ordered pairs of sites, also of a site with itself. *)
Definition energy (M : nat -> nat -> Qc) (spaces : list (list bool)) (occu : list nat) : Qc :=
  qsum (map (fun k => qsum (map (fun l =>
    coupling M (ewald_site spaces k (nth k occu 0)) (ewald_site spaces l (nth l occu 0)))
    (seq 0 (length spaces)))) (seq 0 (length spaces))).
Definition dims (spaces : list (list bool)) (s : nat) : nat := length (nth s spaces []).
Definition symmetric (n : nat) (M : nat -> nat -> Qc) : Prop := forall i j, i < n -> j < n -> M i j = M j i.

(** ** Table of indices *)
Definition toZ (o : option nat) : Z := match o with None => (-1)%Z | Some i => Z.of_nat i end.
Fixpoint chosen (start : nat) (spaces : list (list bool)) (occu : list nat) : list (option nat) :=
  match spaces, occu with
  | s :: ss, c :: cs => (if nth c s true then None else Some (start + ions (firstn c s))) :: chosen (start + ions s) ss cs
  | _, _ => []
  end.

Lemma site_inds_ok s : forall start r n, site_inds start s = (r, n) ->
  length r = length s /\ n = start + ions s /\
  forall c, c < length s -> nth_error r c = Some (toZ (if nth c s true then None else Some (start + ions (firstn c s)))).
Proof.
  induction s as [|b s IH]; intros start r n H; cbn [site_inds] in H.
  - injection H as <- <-. unfold ions; simpl. repeat split; try lia. 
  - destruct b.
    + destruct (site_inds start s) as [r' n'] eqn:E. injection H as <- <-. destruct (IH _ _ _ E) as (H1 & H2 & H3).
      simpl. split; [lia|]. split; [unfold ions in *; simpl; lia|]. intros [|c] Hc; [reflexivity|]. simpl. rewrite H3 by lia. reflexivity.
    + destruct (site_inds (S start) s) as [r' n'] eqn:E. injection H as <- <-. destruct (IH _ _ _ E) as (H1 & H2 & H3).
      simpl. split; [lia|]. split; [unfold ions in *; simpl; lia|]. intros [|c] Hc; [simpl; f_equal; unfold ions; simpl; f_equal; lia|].
      simpl. rewrite H3 by lia. f_equal. destruct (nth c s true); [reflexivity|]. unfold ions. simpl. f_equal. lia.
Qed.

Lemma spaces_inds_ok width : forall spaces start inds n, spaces_inds width start spaces = (inds, n) ->
  n = start + ewald_sites spaces /\
  forall occu, length occu = length spaces -> (forall k c, nth_error occu k = Some c -> c < dims spaces k) ->
    occu_inds inds occu = Some (map toZ (chosen start spaces occu)).
Proof.
  induction spaces as [|s ss IH]; intros start inds n H; cbn [spaces_inds] in H.
  - injection H as <- <-. unfold ewald_sites; simpl. split; [lia|]. intros [|]; simpl; [reflexivity|discriminate].
  - destruct (site_inds start s) as [r m] eqn:E1. destruct (spaces_inds width m ss) as [rs m'] eqn:E2. injection H as <- <-.
    destruct (site_inds_ok E1) as (L1 & -> & V1). destruct (IH _ _ _ E2) as (-> & V2).
    split. { unfold ewald_sites, ions. simpl. rewrite filter_app, app_length. lia. }
    intros [|c occu] L Hc; [discriminate|]. cbn [occu_inds chosen map].
    assert (c < length s) as Hc0 by (apply (Hc 0 c); reflexivity).
    rewrite nth_error_app1 by lia. rewrite V1 by exact Hc0. cbn [option_bind].
    rewrite V2; [reflexivity|simpl in L; lia|]. intros k c' E. apply (Hc (S k) c' E).
Qed.

Lemma chosen_length : forall spaces occu start, length occu = length spaces -> length (chosen start spaces occu) = length spaces.
Proof. induction spaces as [|s ss IH]; intros [|c cs] start L; simpl in *; try discriminate; auto. Qed.
Lemma chosen_nth : forall spaces occu start k, length occu = length spaces -> k < length spaces ->
  nth k (chosen start spaces occu) None =
  match ewald_site spaces k (nth k occu 0) with None => None | Some i => Some (start + i) end.
Proof.
  unfold ewald_site. induction spaces as [|s ss IH]; intros [|c cs] start k L Hk; simpl in L, Hk; try lia.
  destruct k as [|k]; cbn [chosen nth firstn].
  - destruct (nth c s true); auto. 
  - rewrite IH by lia. destruct (nth (nth k cs 0) (nth k ss []) true); auto. f_equal. unfold ewald_sites. simpl. rewrite filter_app, app_length. unfold ions. lia.
Qed.
Lemma map_seq_nth {A} (d : A) (l : list A) : l = map (fun k => nth k l d) (seq 0 (length l)).
Proof.
  induction l as [|x l IH]; simpl; auto. f_equal. rewrite <- seq_shift, map_map. exact IH.
Qed.
Definition E_of (M : nat -> nat -> Qc) (L : list (option nat)) : Qc :=
  qsum (map (fun a => qsum (map (coupling M a) L)) L).
Lemma energy_chosen M spaces occu : length occu = length spaces -> energy M spaces occu = E_of M (chosen 0 spaces occu).
Proof.
  intros L. unfold energy, E_of.
  assert (chosen 0 spaces occu = map (fun k => ewald_site spaces k (nth k occu 0)) (seq 0 (length spaces))) as ->.
  { rewrite (map_seq_nth None (chosen 0 spaces occu)) at 1. rewrite chosen_length by exact L. apply map_ext_in. intros k Hk. apply in_seq in Hk.
    rewrite chosen_nth by (auto; lia). destruct (ewald_site _ _ _); reflexivity. }
  rewrite map_map. apply qsum_map_ext. intros k _. rewrite map_map. reflexivity.
Qed.

(** ** Distinct indices *)
Fixpoint somes (L : list (option nat)) : list nat :=
  match L with [] => [] | Some i :: L' => i :: somes L' | None :: L' => somes L' end.
Lemma in_somes i L : In i (somes L) <-> In (Some i) L.
Proof.
  induction L as [|[j|] L IH]; simpl; [tauto| |].
  - rewrite IH. split; [intros [->|]; auto|intros [H|]; [left; congruence|auto]].
  - rewrite IH. split; [auto|intros [H|]; [discriminate|auto]].
Qed.
Lemma ions_le s c : ions (firstn c s) <= ions s.
Proof. rewrite <- (firstn_skipn c s) at 2. unfold ions. rewrite filter_app, app_length. lia. Qed.
Lemma ions_lt s c : nth c s true = false -> ions (firstn c s) < ions s.
Proof.
  revert c. induction s as [|b s IH]; intros [|c] H; simpl in *; try discriminate.
  - subst b. unfold ions; simpl. lia.
  - specialize (IH _ H). unfold ions in *. destruct b; simpl; lia.
Qed.
Lemma chosen_bound : forall spaces occu start i, In i (somes (chosen start spaces occu)) -> start <= i < start + ewald_sites spaces.
Proof.
  induction spaces as [|s ss IH]; intros [|c cs] start i H; simpl in H; try contradiction.
  assert (ewald_sites (s :: ss) = ions s + ewald_sites ss) as E by (unfold ewald_sites, ions; simpl; rewrite filter_app, app_length; lia).
  destruct (nth c s true) eqn:Hc.
  - apply IH in H. lia.
  - destruct H as [<-|H]; [apply ions_lt in Hc; lia|apply IH in H; lia].
Qed.
Lemma chosen_NoDup : forall spaces occu start, NoDup (somes (chosen start spaces occu)).
Proof.
  induction spaces as [|s ss IH]; intros [|c cs] start; simpl; try constructor.
  destruct (nth c s true) eqn:Hc; [apply IH|]. constructor; [|apply IH]. intro H. apply chosen_bound in H.
  apply ions_lt in Hc. lia.
Qed.

(** ** Selected rows *)
Lemma np_set_all_ok n : forall L b, length b = n + 1 -> (forall i, In (Some i) L -> i < n) ->
  exists b', np_set_all b (map toZ L) = Some b' /\ length b' = n + 1 /\
    forall i, i < n -> nth i b' false = orb (nth i b false) (if in_dec Nat.eq_dec i (somes L) then true else false).
Proof.
  induction L as [|o L IH]; intros b Lb HL.
  - exists b. simpl. repeat split; auto. intros. rewrite orb_false_r. reflexivity.
  - cbn [map np_set_all].
    assert (exists j, np_set b (toZ o) = Some (upd b j true) /\ j < n + 1 /\ (forall i, i < n -> (j = i <-> o = Some i))) as (j & Ej & Hj & Hji).
    { unfold np_set. rewrite Lb. destruct o as [i|]; cbn [toZ].
      - specialize (HL i (or_introl eq_refl)). cbv zeta.
        assert ((Z.of_nat i <? 0)%Z = false) as E0 by (apply Z.ltb_ge; lia). rewrite !E0.
        assert ((Z.of_nat (n + 1) <=? Z.of_nat i)%Z = false) as -> by (apply Z.leb_gt; lia). cbn [orb]. exists i. rewrite Nat2Z.id.
        split; [reflexivity|]. split; [lia|]. intros; split; congruence.
      - change (-1 <? 0)%Z with true. cbv zeta iota.
        assert ((-1 + Z.of_nat (n + 1) <? 0)%Z = false) as -> by (apply Z.ltb_ge; lia).
        assert ((Z.of_nat (n + 1) <=? -1 + Z.of_nat (n + 1))%Z = false) as -> by (apply Z.leb_gt; lia). cbn [orb].
        exists n. replace (Z.to_nat (-1 + Z.of_nat (n + 1))) with n by lia. split; [reflexivity|]. split; [lia|].
        intros i Hi. split; [lia|discriminate]. }
    rewrite Ej. cbn [option_bind]. destruct (IH (upd b j true)) as (b' & E1 & L1 & V1); [rewrite length_upd; exact Lb|intros; apply HL; right; auto|].
    exists b'. split; [exact E1|]. split; [exact L1|]. intros i Hi. rewrite V1 by exact Hi. specialize (Hji i Hi).
    destruct (Nat.eq_dec j i) as [->|Hne].
    + assert (o = Some i) as -> by (apply Hji; reflexivity).
      assert (nth i (upd b i true) false = true) as -> by (apply nth_error_nth; apply nth_error_upd_eq; lia).
      cbn [orb]. destruct (in_dec Nat.eq_dec i (somes (Some i :: L))) as [|Hn]; [rewrite orb_true_r; reflexivity|].
      exfalso. apply Hn. simpl; auto.
    + assert (nth i (upd b j true) false = nth i b false) as ->.
      { apply nth_error_nth. rewrite nth_error_upd_neq by exact Hne. apply nth_error_nth'. lia. }
      f_equal. destruct (in_dec Nat.eq_dec i (somes L)) as [Hin|Hn]; destruct (in_dec Nat.eq_dec i (somes (o :: L))) as [Hin'|Hn']; auto; exfalso.
      * apply Hn'. apply in_somes. right. apply in_somes, Hin.
      * apply in_somes in Hin' as [Ho|Hin']; [apply Hne, Hji, Ho|apply Hn, in_somes, Hin'].
Qed.
Lemma removelast_nth {A} (d : A) (l : list A) i : i < length l - 1 -> nth i (removelast l) d = nth i l d.
Proof.
  revert i. induction l as [|x [|y l] IH]; intros i H; simpl in H; try lia.
  cbn [removelast]. destruct i; [reflexivity|]. cbn [nth]. rewrite IH; [reflexivity|]. simpl. lia.
Qed.
Lemma removelast_length {A} (l : list A) : length (removelast l) = length l - 1.
Proof. induction l as [|x [|y l] IH]; auto. cbn [removelast length] in *. rewrite IH. lia. Qed.

Lemma E_somes M L : E_of M L = qsum (map (fun i => qsum (map (M i) (somes L))) (somes L)).
Proof.
  assert (forall (g : nat -> Qc) L, qsum (map (fun a => match a with Some i => g i | None => 0%Qc end) L) = qsum (map g (somes L))) as H.
  { intros g L0. induction L0 as [|[i|] L0 IH]; cbn [map somes qsum]; auto; rewrite IH; [reflexivity|apply Qcplus_0_l]. }
  unfold E_of. rewrite <- (H (fun i => qsum (map (M i) (somes L))) L). apply qsum_map_ext. intros [i|] _.
  - rewrite <- (H (M i) L). apply qsum_map_ext. intros [j|] _; reflexivity.
  - apply qsum_map_0. reflexivity.
Qed.
Lemma E_perm M L L' : Permutation L L' -> E_of M L = E_of M L'.
Proof.
  intros P. unfold E_of. rewrite (qsum_perm (Permutation_map _ P)). apply qsum_map_ext. intros a _. apply qsum_perm, Permutation_map, P.
Qed.

Section EwaldProofs.
Variables (spaces : list (list bool)) (M : nat -> nat -> Qc).
Let inds := fst (ewald_structure spaces).
Let n := snd (ewald_structure spaces).

Lemma n_eq : n = ewald_sites spaces.
Proof. unfold n, ewald_structure. destruct (spaces_inds _ 0 spaces) as [i m] eqn:E. apply spaces_inds_ok in E as (-> & _). reflexivity. Qed.
Lemma inds_ok occu : codes_ok (dims spaces) (length spaces) occu -> occu_inds inds occu = Some (map toZ (chosen 0 spaces occu)).
Proof.
  intros (L & H). unfold inds, ewald_structure. destruct (spaces_inds _ 0 spaces) as [i m] eqn:E. apply spaces_inds_ok in E as (_ & V). apply V; auto.
Qed.
Lemma feature_ok occu : codes_ok (dims spaces) (length spaces) occu -> ew_feature n M inds occu = Some (E_of M (chosen 0 spaces occu)).
Proof.
  intros HC. unfold ew_feature, ewald_occu. rewrite inds_ok by exact HC. cbn [option_bind].
  set (L := chosen 0 spaces occu).
  assert (forall i, In (Some i) L -> i < n) as HL.
  { intros i Hi. apply in_somes, chosen_bound in Hi. rewrite n_eq. lia. }
  destruct (@np_set_all_ok n L (repeat false (n + 1))) as (b & Eb & Lb & Vb); [apply repeat_length|exact HL|].
  rewrite Eb. cbn [option_bind]. f_equal. rewrite E_somes.
  assert (Permutation (true_at (removelast b)) (somes L)) as P.
  { apply NoDup_Permutation.
    - unfold true_at. apply NoDup_filter, seq_NoDup.
    - apply chosen_NoDup.
    - intro i. unfold true_at. rewrite filter_In, in_seq, removelast_length, Lb. split.
      + intros (Hi & Hb). rewrite removelast_nth in Hb by lia. rewrite Vb in Hb by lia. rewrite nth_repeat in Hb. cbn [orb] in Hb.
        destruct (in_dec _ _ _); [assumption|discriminate].
      + intros Hi. assert (i < n) by (apply HL, in_somes, Hi). split; [lia|]. rewrite removelast_nth by lia. rewrite Vb by lia.
        rewrite nth_repeat. cbn [orb]. destruct (in_dec _ _ _); [reflexivity|contradiction]. }
  rewrite (qsum_perm (Permutation_map _ P)). apply qsum_map_ext. intros i _. apply qsum_perm, Permutation_map, P.
Qed.

(** ** One flip *)
Lemma flip_part_ok a b : (a <> None -> a <> b) -> flip_part M (toZ b) (toZ a) = (coupling M b a + coupling M b a)%Qc.
Proof.
  intros H. unfold flip_part. destruct a as [i|], b as [j|]; cbn [toZ coupling].
  - rewrite (proj2 (Z.eqb_neq _ _)) by lia. rewrite (proj2 (Z.eqb_neq _ _)) by lia. cbn [orb].
    rewrite (proj2 (Z.eqb_neq _ _)); [rewrite !Nat2Z.id; reflexivity|]. intro E. apply H; [discriminate|]. f_equal. lia.
  - cbn [Z.eqb Pos.eqb orb]. ring.
  - rewrite orb_true_r. ring.
  - cbn [Z.eqb Pos.eqb orb]. ring.
Qed.
Lemma flip_part_self a : flip_part M (toZ a) (toZ a) = coupling M a a.
Proof.
  unfold flip_part. destruct a as [i|]; cbn [toZ coupling]; [|reflexivity]. rewrite (proj2 (Z.eqb_neq _ _)) by lia. cbn [orb].
  rewrite Z.eqb_refl, Nat2Z.id. reflexivity.
Qed.
(** Removing one site. *)
Lemma E_remove l1 a l2 : NoDup (somes (l1 ++ a :: l2)) ->
  (forall i j, In (Some i) (l1 ++ a :: l2) -> In (Some j) (l1 ++ a :: l2) -> M i j = M j i) ->
  qsum (map (fun b => flip_part M (toZ b) (toZ a)) (l1 ++ a :: l2)) = (E_of M (l1 ++ a :: l2) - E_of M (l1 ++ None :: l2))%Qc.
Proof.
  intros Hn Hs. set (R := l1 ++ l2).
  assert (Permutation (l1 ++ a :: l2) (a :: R)) as P by (symmetry; apply Permutation_middle).
  assert (Permutation (l1 ++ None :: l2) (None :: R)) as P' by (symmetry; apply Permutation_middle).
  rewrite (E_perm M P), (E_perm M P'), (qsum_perm (Permutation_map _ P)).
  assert (a <> None -> ~ In a R) as Ha.
  { intros Hne Hin. assert (Permutation (somes (l1 ++ a :: l2)) (somes (a :: R))) as Ps.
    { clear - P. induction P as [|x l l' P IH|x y l|l l' l'' P1 IH1 P2 IH2]; cbn [somes].
      - constructor.
      - destruct x; auto.
      - destruct x, y; auto. apply perm_swap.
      - eapply Permutation_trans; eauto. }
    apply (Permutation_NoDup Ps) in Hn. destruct a as [i|]; [|congruence]. cbn [somes] in Hn. inversion Hn as [|? ? Hni _]. apply Hni, in_somes, Hin. }
  cbn [map qsum]. rewrite flip_part_self.
  rewrite (@qsum_map_ext _ (fun b => flip_part M (toZ b) (toZ a)) (fun b => (coupling M b a + coupling M b a)%Qc) R).
  2:{ intros b Hb. apply flip_part_ok. intros Hne <-. exact (Ha Hne Hb). }
  rewrite qsum_map_add. unfold E_of. cbn [map qsum].
  rewrite qsum_map_add.
  rewrite (@qsum_map_ext _ (fun b => (coupling M b None + qsum (map (coupling M b) R))%Qc) (fun b => qsum (map (coupling M b) R)) R).
  2:{ intros [b|] _; cbn [coupling]; ring. }
  rewrite (@qsum_map_ext _ (coupling M a) (fun b => coupling M b a) R).
  2:{ intros b Hb. destruct a as [i|], b as [j|]; cbn [coupling]; auto. apply Hs; [apply in_elt|].
      apply (Permutation_in _ (Permutation_sym P)). right. exact Hb. }
  rewrite (@qsum_map_0 _ (coupling M None) R) by reflexivity. cbn [coupling]. ring.
Qed.

Lemma chosen_upd : forall spaces occu start k c, length occu = length spaces -> k < length spaces ->
  exists l1 a a' l2, chosen start spaces occu = l1 ++ a :: l2 /\ chosen start spaces (upd occu k c) = l1 ++ a' :: l2 /\ length l1 = k.
Proof.
  clear. induction spaces as [|s ss IH]; intros [|c0 cs] start k c L Hk; simpl in L, Hk; try lia.
  destruct k as [|k]; cbn [upd chosen].
  - exists [], (if nth c0 s true then None else Some (start + ions (firstn c0 s))), (if nth c s true then None else Some (start + ions (firstn c s))), (chosen (start + ions s) ss cs). auto.
  - destruct (IH cs (start + ions s) k c) as (l1 & a & a' & l2 & -> & -> & Hl); [lia|lia|].
    eexists (_ :: l1), a, a', l2. simpl. repeat split; auto.
Qed.
Lemma combine_app {A B} (l1 l2 : list A) (k1 k2 : list B) : length l1 = length k1 -> combine (l1 ++ l2) (k1 ++ k2) = combine l1 k1 ++ combine l2 k2.
Proof. revert k1. induction l1 as [|x l1 IH]; intros [|y k1] H; simpl in *; try discriminate; auto. f_equal. auto. Qed.

Lemma delta1_ok occu k c : symmetric n M -> codes_ok (dims spaces) (length spaces) occu -> k < length spaces -> c < dims spaces k ->
  ew_delta1 M inds (upd occu k c) occu k = Some (E_of M (chosen 0 spaces (upd occu k c)) - E_of M (chosen 0 spaces occu))%Qc.
Proof.
  intros HM HC Hk Hc. destruct (set_site_ok HC Hk Hc) as (_ & HC'). unfold ew_delta1. rewrite !inds_ok by assumption. cbn [option_bind].
  assert (forall occu i j, In (Some i) (chosen 0 spaces occu) -> In (Some j) (chosen 0 spaces occu) -> M i j = M j i) as Hs.
  { intros o i j Hi Hj. apply in_somes, chosen_bound in Hi. apply in_somes, chosen_bound in Hj. rewrite <- n_eq in *. apply HM; lia. }
  destruct (@chosen_upd spaces occu 0 k c (proj1 HC) Hk) as (l1 & a & a' & l2 & E1 & E2 & Hl).
  pose proof (chosen_NoDup spaces occu 0) as N1. pose proof (chosen_NoDup spaces (upd occu k c) 0) as N2.
  pose proof (Hs occu) as S1. pose proof (Hs (upd occu k c)) as S2. rewrite E1 in *. rewrite E2 in *.
  assert (forall x, nth_error (map toZ (l1 ++ x :: l2)) k = Some (toZ x)) as Hn.
  { intro x. apply map_nth_error. rewrite nth_error_app2 by lia. replace (k - length l1) with 0 by lia. reflexivity. }
  rewrite !Hn. cbn [option_bind]. f_equal.
  transitivity (qsum (map (fun b => flip_part M (toZ b) (toZ a')) (l1 ++ a' :: l2)) - qsum (map (fun b => flip_part M (toZ b) (toZ a)) (l1 ++ a :: l2)))%Qc.
  - assert (forall u v : list (option nat), length u = length v -> qsum (map (fun p => (flip_part M (fst p) (toZ a') - flip_part M (snd p) (toZ a))%Qc) (combine (map toZ u) (map toZ v)))
       = (qsum (map (fun b => flip_part M (toZ b) (toZ a')) u) - qsum (map (fun b => flip_part M (toZ b) (toZ a)) v))%Qc) as Hc2.
    { induction u as [|x u IH]; intros [|y v] Hl2; simpl in Hl2; try discriminate; cbn [map combine qsum fst snd]; [ring|]. rewrite IH by lia. ring. }
    apply Hc2. rewrite !app_length. reflexivity.
  - rewrite (E_remove N1 S1), (E_remove N2 S2). ring.
Qed.

Lemma change_ok : symmetric n M -> forall flips occu, codes_ok (dims spaces) (length spaces) occu ->
  (forall s c, In (s, c) flips -> s < length spaces /\ c < dims spaces s) ->
  codes_ok (dims spaces) (length spaces) (apply_step occu flips) /\
  ew_change M inds occu flips = Some (E_of M (chosen 0 spaces (apply_step occu flips)) - E_of M (chosen 0 spaces occu))%Qc.
Proof.
  intros HM. induction flips as [|[s c] flips IH]; intros occu HC HF.
  - split; [exact HC|]. cbn. f_equal. ring.
  - destruct (HF s c (or_introl eq_refl)) as (Hs & Hc). destruct (set_site_ok HC Hs Hc) as (E1 & HC').
    destruct (IH (upd occu s c) HC') as (HC2 & E2); [intros; apply HF; right; auto|].
    assert (apply_step occu ((s, c) :: flips) = apply_step (upd occu s c) flips) as Ea by reflexivity. rewrite Ea.
    split; [exact HC2|]. cbn [ew_change]. rewrite E1. cbn [option_bind fst]. rewrite delta1_ok by assumption. cbn [option_bind].
    rewrite E2. cbn [option_bind]. f_equal. ring.
Qed.

(** The feature is the energy of all pairs of ions. *)
Theorem C28_value occu : codes_ok (dims spaces) (length spaces) occu -> ew_feature n M inds occu = Some (energy M spaces occu).
Proof. intros HC. rewrite feature_ok by exact HC. rewrite energy_chosen by apply HC. reflexivity. Qed.

(** Changes are differences of energies, for every list of flips. *)
Theorem C28_change occu flips : symmetric n M -> codes_ok (dims spaces) (length spaces) occu ->
  (forall s c, In (s, c) flips -> s < length spaces /\ c < dims spaces s) ->
  exists before after, ew_feature n M inds occu = Some before /\ ew_feature n M inds (apply_step occu flips) = Some after /\
    ew_change M inds occu flips = Some (after - before)%Qc.
Proof.
  intros HM HC HF. destruct (change_ok HM HC HF) as (HC' & E). exists (E_of M (chosen 0 spaces occu)), (E_of M (chosen 0 spaces (apply_step occu flips))).
  rewrite !feature_ok by assumption. auto.
Qed.
End EwaldProofs.

(** Symmetry is needed: only one of the two off-diagonal entries is used. *)
Theorem C28_symmetry_needed : exists spaces M occu flips before after,
  codes_ok (dims spaces) (length spaces) occu /\
  ew_feature (snd (ewald_structure spaces)) M (fst (ewald_structure spaces)) occu = Some before /\
  ew_feature (snd (ewald_structure spaces)) M (fst (ewald_structure spaces)) (apply_step occu flips) = Some after /\
  ew_change M (fst (ewald_structure spaces)) occu flips <> Some (after - before)%Qc.
Proof.
  exists [[false; true]; [false]], (fun i j => if (i =? 0) && (j =? 1) then Q2Qc 1 else Q2Qc 0), [0; 0], [(0, 1)], (Q2Qc 1), (Q2Qc 0).
  split; [split; [reflexivity|]; intros [|[|[|s]]] c E; simpl in E; try discriminate E; injection E as <-; cbv; lia|].
  split; [reflexivity|]. split; [reflexivity|]. intro E. vm_compute in E. discriminate E.
Qed.

(** Two sites with an ion, another ion and a vacancy, and one inactive ion. *)
Definition case_spaces := [[false; false; true]; [false; true]; [false]].
Definition case_M (i j : nat) : Qc := Qc_of_nat (i * j + i + j).
Example C28_case :
  symmetric 4 case_M /\ snd (ewald_structure case_spaces) = 4 /\ codes_ok (dims case_spaces) 3 [0; 1; 0] /\
  fst (ewald_structure case_spaces) = [[0; 1; -1]; [2; -1; -1]; [3; -1; -1]]%Z /\
  ew_feature 4 case_M (fst (ewald_structure case_spaces)) [0; 1; 0] = Some (Qc_of_nat 21) /\
  ew_change case_M (fst (ewald_structure case_spaces)) [0; 1; 0] [(0, 1); (1, 0); (0, 2)] = Some (Qc_of_nat 24).
Proof.
  split; [intros i j _ _; unfold case_M; f_equal; lia|]. split; [reflexivity|].
  split; [split; [reflexivity|]; intros [|[|[|[|s]]]] c E; simpl in E; try discriminate E; injection E as <-; cbv; lia|].
  split; [reflexivity|]. split; vm_compute; reflexivity.
Qed.

(** ** Composite processors *)
Lemma qdot_app a b c d : length a = length c -> qdot (a ++ b) (c ++ d) = (qdot a c + qdot b d)%Qc.
Proof. revert c. induction a as [|x a IH]; intros [|y c] H; simpl in *; try discriminate; [ring|]. rewrite IH by lia. ring. Qed.

Definition flat_ok (p : part) (f : arr) (x : Qc) : Prop := length (part_coefs p) = length (ravel f) /\ x = qdot (part_coefs p) (ravel f).
Lemma flat_sum : forall ps fs xs, Forall2 (fun p fx => flat_ok p (fst fx) (snd fx)) ps (combine fs xs) -> length fs = length ps -> length xs = length ps ->
  qsum xs = qdot (composite_coefs ps) (concat (map ravel fs)) /\ length (composite_coefs ps) = length (concat (map ravel fs)).
Proof.
  induction ps as [|p ps IH]; intros [|f fs] [|x xs] H L1 L2; simpl in L1, L2; try discriminate.
  - split; reflexivity.
  - inversion H as [|? ? ? ? (Hl & Hx) H']; subst. destruct (IH fs xs H') as (E & L); [lia|lia|]. unfold composite_coefs in *. simpl in *.
    rewrite qdot_app by exact Hl. rewrite !app_length. rewrite E. split; [congruence|lia].
Qed.
Lemma append_flat fs : fs <> [] -> (forall f g fs', fs = f :: g :: fs' -> forallb (same_shape g) fs' = true) -> np_append fs = Some (concat (map ravel fs)).
Proof.
  intros Hne H. destruct fs as [|f [|g fs]]; [congruence|simpl; rewrite app_nil_r; reflexivity|].
  cbn [np_append]. rewrite (H f g fs eq_refl). reflexivity.
Qed.

(** Shapes of the features of a part: [None] for a number. *)
Definition shape (a : arr) : option nat := match a with Vec v => Some (length v) | Scalar _ => None end.
Lemma same_shape_iff a b : same_shape a b = true <-> shape a = shape b.
Proof. destruct a, b; simpl; [rewrite Nat.eqb_eq| | |]; split; intros; try congruence. Qed.

Lemma opt_map2 {A B C} (f : A -> option B) (g : A -> option C) (R : A -> B -> C -> Prop) l :
  (forall x, In x l -> exists y z, f x = Some y /\ g x = Some z /\ R x y z) ->
  exists ys zs, opt_map f l = Some ys /\ opt_map g l = Some zs /\ length ys = length l /\ length zs = length l /\
    Forall2 (fun x yz => R x (fst yz) (snd yz)) l (combine ys zs).
Proof.
  induction l as [|x l IH]; intros H; [exists [], []; repeat split; constructor|].
  destruct (H x (or_introl eq_refl)) as (y & z & Ey & Ez & HR). destruct IH as (ys & zs & E1 & E2 & L1 & L2 & F); [intros; apply H; right; auto|].
  exists (y :: ys), (z :: zs). simpl. rewrite Ey, Ez, E1, E2. repeat split; auto.
Qed.

(** Values: coefficients dot features and the sum over the parts, if the features of all
    parts after the first have the same shape. *)
Theorem C30_value_partial ps occu sh : ps <> [] ->
  (forall p, In p ps -> exists x, part_property p occu = Some x) ->
  (forall p f, In p (tl ps) -> part_feature p occu = Some f -> shape f = sh) ->
  exists fs xs, composite_features ps occu = Some fs /\ opt_map (fun p => part_property p occu) ps = Some xs /\
    composite_property ps occu = Some (qsum xs) /\ length (composite_coefs ps) = length fs /\ qsum xs = qdot (composite_coefs ps) fs.
Proof.
  intros Hne Hp Hsh.
  destruct (@opt_map2 _ _ _ (fun p => part_feature p occu) (fun p => part_property p occu) flat_ok ps) as (fs & xs & E1 & E2 & L1 & L2 & F).
  { intros p Hin. destruct (Hp p Hin) as (x & Ex). destruct p as [c f g|c f g]; cbn [part_feature part_property] in *; destruct (f occu) as [v|] eqn:Ev; try discriminate; cbn [option_bind] in *.
    - unfold np_dot in Ex. destruct (Nat.eqb_spec (length c) (length v)) as [Hl|]; [|discriminate]. injection Ex as <-.
      exists (Vec v), (qdot c v). repeat split; auto. unfold np_dot. rewrite Hl, Nat.eqb_refl. reflexivity.
    - injection Ex as <-. exists (Scalar v), (c * v)%Qc. repeat split; auto. cbn. ring. }
  destruct (flat_sum F L1 L2) as (E & L). exists (concat (map ravel fs)), xs.
  unfold composite_features, composite_property. rewrite E1, E2. cbn [option_bind].
  assert (np_append fs = Some (concat (map ravel fs))) as Ea.
  { apply append_flat; [destruct fs, ps; simpl in *; congruence|]. intros f g fs' Hfs. apply forallb_forall. intros h Hh. apply same_shape_iff.
    destruct ps as [|p ps]; [congruence|]. cbn [tl] in Hsh.
    assert (forall h, In h (g :: fs') -> shape h = sh) as Hall.
    { intros h' Hh'. rewrite Hfs in E1. cbn [opt_map] in E1. destruct (part_feature p occu); [|discriminate].
      destruct (opt_map (fun p => part_feature p occu) ps) as [gs|] eqn:Eg; [|discriminate]. injection E1 as _ Egs. subst gs.
      apply In_nth_error in Hh' as (i & Hi). destruct (nth_error ps i) as [q|] eqn:Eq.
      - destruct (opt_map_nth _ _ _ Eg Eq) as (y & Ey & Hy). rewrite Hi in Hy. injection Hy as <-. apply (Hsh q h'); [eapply nth_error_In; eauto|exact Ey].
      - apply nth_error_None in Eq. pose proof (opt_map_length _ _ Eg) as Ll. assert (nth_error (g :: fs') i = None) by (apply nth_error_None; lia). congruence. }
    rewrite (Hall g), (Hall h); [reflexivity|right; exact Hh|left; reflexivity]. }
  repeat split; auto.
Qed.
(** Changes likewise. *)
Theorem C30_change_partial ps occu flips sh : ps <> [] ->
  (forall p, In p ps -> exists x, part_property_change p occu flips = Some x) ->
  (forall p f, In p (tl ps) -> part_feature_change p occu flips = Some f -> shape f = sh) ->
  exists fs xs, composite_features_change ps occu flips = Some fs /\ opt_map (fun p => part_property_change p occu flips) ps = Some xs /\
    composite_property_change ps occu flips = Some (qsum xs) /\ length (composite_coefs ps) = length fs /\ qsum xs = qdot (composite_coefs ps) fs.
Proof.
  intros Hne Hp Hsh.
  (* the change of a part is the value of the part that has it as its feature *)
  set (q := fun p : part => match p with Dot c _ g => Dot c (fun o => g o flips) (fun o _ => None) | Scale c _ g => Scale c (fun o => g o flips) (fun o _ => None) end).
  assert (forall p, part_property (q p) occu = part_property_change p occu flips) as Q1 by (intros []; reflexivity).
  assert (forall p, part_feature (q p) occu = part_feature_change p occu flips) as Q2 by (intros []; reflexivity).
  assert (forall p, part_coefs (q p) = part_coefs p) as Q3 by (intros []; reflexivity).
  assert (composite_coefs (map q ps) = composite_coefs ps) as Q4.
  { unfold composite_coefs. rewrite map_map. f_equal. apply map_ext. exact Q3. }
  assert (forall X (f g : part -> option X), (forall p, f (q p) = g p) -> opt_map f (map q ps) = opt_map g ps) as Q5.
  { intros X f g Hfg. clear - Hfg. induction ps as [|p ps IH]; simpl; auto. rewrite Hfg, IH. reflexivity. }
  destruct (@C30_value_partial (map q ps) occu sh) as (fs & xs & E1 & E2 & E3 & E4 & E5).
  - destruct ps; simpl; congruence.
  - intros p Hin. apply in_map_iff in Hin as (p0 & <- & Hin). rewrite Q1. auto.
  - intros p f Hin. destruct ps as [|p1 ps]; [congruence|]. cbn [map tl] in Hin, Hsh.
    apply in_map_iff in Hin as (p0 & <- & Hin); rewrite Q2; apply Hsh; exact Hin.
  - exists fs, xs. unfold composite_features_change, composite_property_change, composite_features, composite_property in *.
    rewrite (Q5 _ _ _ Q1) in E2, E3. rewrite (Q5 _ _ _ Q2) in E1. rewrite Q4 in *. auto.
Qed.

(** Parts whose change is a difference of values: expansion, decomposition and Ewald processors. *)
Inductive good_part (sd : nat -> nat) (N : nat) (flips : step) : part -> Prop :=
| good_ce P c : proc_ok sd N P -> flips_ok sd N P flips -> length c = e_num_corr (p_eval P) -> good_part sd N flips (ce_part P c)
| good_cd P c : proc_ok sd N P -> flips_ok sd N P flips -> length c = e_num_orbits (p_eval P) -> good_part sd N flips (cd_part P c)
| good_ewald spaces M c : N = length spaces -> (forall s, s < N -> sd s = dims spaces s) -> symmetric (snd (ewald_structure spaces)) M ->
    (forall s k, In (s, k) flips -> s < N /\ k < sd s) ->
    good_part sd N flips (ewald_part (snd (ewald_structure spaces)) M (fst (ewald_structure spaces)) c).

Lemma scale_length P v : length (scale P v) = length v. Proof. apply map_length. Qed.
Lemma good_part_change sd N occu flips p : codes_ok sd N occu -> good_part sd N flips p ->
  exists b a, part_property p occu = Some b /\ part_property p (apply_step occu flips) = Some a /\ part_property_change p occu flips = Some (a - b)%Qc.
Proof.
  intros HC [P c HP HF HL|P c HP HF HL|spaces M c HN Hsd HM HF]; cbn [ce_part cd_part ewald_part part_property part_property_change].
  - destruct (C26_change HP HC HF) as (b & a & Eb & Ea & Ed). rewrite Eb, Ea, Ed. cbn [option_bind].
    assert (length b = length c /\ length a = length c) as (Lb & La).
    { destruct (@ce_loop sd N P occu flips (repeat (Q2Qc 0) (e_num_corr (p_eval P))) HP HC HF (repeat_length _ _)) as (HC' & _).
      destruct (correlations_total HP HC) as (v & Ev & Lv & _). destruct (correlations_total HP HC') as (v' & Ev' & Lv' & _).
      unfold ce_features in *. rewrite Ev in Eb. rewrite Ev' in Ea. injection Eb as <-. injection Ea as <-. rewrite !scale_length. lia. }
    exists (qdot c b), (qdot c a). unfold np_dot, qvsub, qmap2. rewrite map_length, combine_length, La, Lb, Nat.min_id, Nat.eqb_refl.
    repeat split; auto. f_equal. apply qdot_qvsub. lia.
  - destruct (C27_change HP HC HF) as (b & a & Eb & Ea & Ed). rewrite Eb, Ea, Ed. cbn [option_bind].
    assert (length b = length c /\ length a = length c) as (Lb & La).
    { destruct (@ce_loop sd N P occu flips (repeat (Q2Qc 0) (e_num_corr (p_eval P))) HP HC HF (repeat_length _ _)) as (HC' & _).
      destruct (interactions_total HP HC) as (v & Ev & Lv & _). destruct (interactions_total HP HC') as (v' & Ev' & Lv' & _).
      unfold cd_features in *. rewrite Ev in Eb. rewrite Ev' in Ea. injection Eb as <-. injection Ea as <-. rewrite !scale_length. lia. }
    exists (qdot c b), (qdot c a). unfold np_dot, qvsub, qmap2. rewrite map_length, combine_length, La, Lb, Nat.min_id, Nat.eqb_refl.
    repeat split; auto. f_equal. apply qdot_qvsub. lia.
  - assert (codes_ok (dims spaces) (length spaces) occu) as HC'.
    { destruct HC as (L & HC). split; [lia|]. intros s k E. assert (s < length occu) by (apply nth_error_Some; congruence). rewrite <- Hsd by lia. eauto. }
    destruct (@C28_change spaces M occu flips HM HC') as (b & a & Eb & Ea & Ed).
    { intros s k Hin. destruct (HF s k Hin) as (H1 & H2). rewrite Hsd in H2 by exact H1. split; [lia|exact H2]. }
    rewrite Eb, Ea, Ed. cbn [option_bind]. exists (c * b)%Qc, (c * a)%Qc. repeat split; auto. f_equal. ring.
Qed.

(** For any list of such processors the change of the composite is the difference of its values. *)
Theorem C30_difference sd N occu flips ps : codes_ok sd N occu -> (forall p, In p ps -> good_part sd N flips p) ->
  exists before after, composite_property ps occu = Some before /\ composite_property ps (apply_step occu flips) = Some after /\
    composite_property_change ps occu flips = Some (after - before)%Qc.
Proof.
  intros HC. unfold composite_property, composite_property_change. induction ps as [|p ps IH]; intros Hp.
  - exists 0%Qc, 0%Qc. cbn. repeat split; auto.
  - destruct (good_part_change HC (Hp p (or_introl eq_refl))) as (b & a & Eb & Ea & Ed).
    destruct IH as (B & A & EB & EA & ED); [intros; apply Hp; right; auto|].
    cbn [opt_map]. rewrite Eb, Ea, Ed.
    destruct (opt_map _ ps) as [x1|]; [|discriminate]. destruct (opt_map (fun p => part_property p (apply_step occu flips)) ps) as [x2|]; [|discriminate].
    destruct (opt_map (fun p => part_property_change p occu flips) ps) as [x3|]; [|discriminate].
    cbn [option_bind qsum] in *. injection EB as EB. injection EA as EA. injection ED as ED.
    exists (b + B)%Qc, (a + A)%Qc. rewrite EB, EA, ED. repeat split; auto. f_equal. ring.
Qed.

(** With parts of different shapes after the first one, the features raise although the
    property does not. *)
Theorem C30_shapes_refuted : ~ (forall ps occu, ps <> [] -> (forall p, In p ps -> exists x, part_property p occu = Some x) ->
  exists fs, composite_features ps occu = Some fs).
Proof.
  intros H. pose (v := fun k => Dot (repeat (Q2Qc 1) k) (fun _ => Some (repeat (Q2Qc 1) k)) (fun _ _ => Some (repeat (Q2Qc 1) k))).
  destruct (H [v 2; v 3; Scale (Q2Qc 1) (fun _ => Some (Q2Qc 1)) (fun _ _ => None)] []) as (fs & E); [discriminate| |].
  - intros p [<-|[<-|[<-|[]]]]; eexists; reflexivity.
  - discriminate E.
Qed.
(** Without processors the property is zero and the features raise. *)
Theorem C30_empty_refuted occu : composite_property [] occu = Some 0%Qc /\ composite_features [] occu = None.
Proof. split; reflexivity. Qed.

Example C30_case : let p := ewald_part 4 case_M (fst (ewald_structure case_spaces)) (Qc_of_nat 2) in
  let sd := dims case_spaces in
  good_part sd 3 [(0, 1)] p /\ codes_ok sd 3 [0; 1; 0] /\
  composite_features [p; p; p] [0; 1; 0] = Some [Qc_of_nat 21; Qc_of_nat 21; Qc_of_nat 21] /\
  composite_property [p; p; p] [0; 1; 0] = Some (Qc_of_nat 126).
Proof.
  assert (symmetric 4 case_M) as HM by (intros i j _ _; unfold case_M; f_equal; lia).
  split; [|split; [|split; vm_compute; reflexivity]].
  - apply (@good_ewald _ 3 _ case_spaces case_M); auto. intros s k [E|[]]. injection E as <- <-. cbv. lia.
  - split; [reflexivity|]. intros [|[|[|[|s]]]] c E; simpl in E; try discriminate E; injection E as <-; cbv; lia.
Qed.

Print Assumptions C28_value.
Print Assumptions C28_change.
Print Assumptions C28_symmetry_needed.
Print Assumptions C30_value_partial.
Print Assumptions C30_change_partial.
Print Assumptions C30_difference.
Print Assumptions C30_shapes_refuted.
Print Assumptions C30_empty_refuted.
