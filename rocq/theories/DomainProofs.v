(** Proofs about [Domain]: equality and construction of site spaces. *)
From Verif Require Export LibProofs SublatticeProofs.
Set Implicit Arguments.
Unset Strict Implicit.
Open Scope Qc_scope.

Lemma sp_eqb_spec a b : reflect (a = b) (sp_eqb a b).
Proof.
  destruct a, b; simpl; try (constructor; congruence).
  destruct (Nat.eqb_spec n n0); constructor; congruence.
Qed.

Lemma item_eqb_spec p q : reflect (p = q) (item_eqb p q).
Proof.
  destruct p as [a x], q as [b y]; unfold item_eqb; simpl.
  destruct (sp_eqb_spec a b), (Qceqb_spec x y); simpl; constructor; congruence.
Qed.

Lemma eqb_prefix a b : site_space_eqb a b = true <->
  exists c, (a = b ++ c \/ b = a ++ c).
Proof.
  revert b; induction a as [|x a IH]; intros [|y b].
  - split; auto. exists []; auto.
  - split; auto. intros _; exists (y :: b); auto.
  - split; auto. intros _; exists (x :: a); auto.
  - unfold site_space_eqb in *; simpl. rewrite andb_true_iff, IH. split.
    + intros [E [c [-> | ->]]]; destruct (item_eqb_spec x y); try discriminate; subst;
        exists c; auto.
    + assert (R : forall z, item_eqb z z = true) by (intros z; destruct (item_eqb_spec z z); congruence).
      intros [c [E|E]]; inversion E; subst; rewrite R; eauto.
Qed.

(** Two site spaces with positive amounts and the same total are equal iff the
    code says so. *)
Lemma eqb_exact a b :
  Forall (fun p => 0 < snd p) a -> Forall (fun p => 0 < snd p) b ->
  qsum (map snd a) = qsum (map snd b) ->
  (site_space_eqb a b = true <-> a = b).
Proof.
  intros Ha Hb Hs. rewrite eqb_prefix. split.
  - assert (K : forall l c : site_space, Forall (fun p => 0 < snd p) c ->
              qsum (map snd (l ++ c)) = qsum (map snd l) -> c = []).
    { intros l c Hc E. rewrite map_app, qsum_app in E.
      destruct c as [|x c]; auto. exfalso.
      destruct (qsum_pos_items Hc) as [_ Hp].
      assert (Hp' : 0 < qsum (map snd (x :: c))) by (apply Hp; discriminate).
      set (u := qsum (map snd l)) in *. set (w := qsum (map snd (x :: c))) in *.
      clearbody u w. qclra. }
    intros [c [E|E]]; rewrite E in *.
    + apply Forall_app in Ha. rewrite (K b c), app_nil_r; tauto.
    + apply Forall_app in Hb. rewrite (K a c), app_nil_r; try tauto. auto.
  - intros ->. exists []. left. symmetry; apply app_nil_r.
Qed.

Lemma mk_total leb c s :
  mk_site_space leb c = Some s -> num_atoms c < q099 \/ num_atoms c = 1 ->
  qsum (map snd s) = 1.
Proof.
  unfold mk_site_space. intros H Hn.
  destruct (_ || _); [discriminate|]. destruct (_ && _); [discriminate|].
  assert (Hs : qsum (map snd (sort_by (fun p q => leb (fst p) (fst q)) c)) = num_atoms c).
  { unfold num_atoms. apply qsum_perm, Permutation_map, Permutation_sym, sort_by_perm. }
  inversion H; subst; clear H. destruct (Qcltb_spec (num_atoms c) q099) as [Hl|Hl].
  - rewrite map_app, qsum_app. rewrite Hs. simpl. ring.
  - rewrite Hs. destruct Hn; auto. tauto.
Qed.

Lemma mk_positive leb c s :
  mk_site_space leb c = Some s -> Forall (fun p => 0 < snd p) c -> Forall (fun p => 0 < snd p) s.
Proof.
  unfold mk_site_space. intros H Hc.
  destruct (_ || _); [discriminate|]. destruct (_ && _); [discriminate|].
  assert (Hs : Forall (fun p => 0 < snd p) (sort_by (fun p q => leb (fst p) (fst q)) c)).
  { apply Forall_forall. intros x Hx. rewrite Forall_forall in Hc. apply Hc.
    eapply Permutation_in; [apply Permutation_sym, sort_by_perm|exact Hx]. }
  inversion H; subst; clear H. destruct (Qcltb_spec (num_atoms c) q099) as [Hl|Hl]; auto.
  apply Forall_app. split; auto. constructor; auto. simpl.
  assert (q099 < 1) by reflexivity. qclra.
Qed.

Lemma eqb_constructed leb c1 c2 s1 s2 :
  mk_site_space leb c1 = Some s1 -> mk_site_space leb c2 = Some s2 ->
  Forall (fun p => 0 < snd p) c1 -> Forall (fun p => 0 < snd p) c2 ->
  num_atoms c1 < q099 \/ num_atoms c1 = 1 -> num_atoms c2 < q099 \/ num_atoms c2 = 1 ->
  (site_space_eqb s1 s2 = true <-> s1 = s2).
Proof.
  intros H1 H2 P1 P2 N1 N2. apply eqb_exact; eauto using mk_positive.
  rewrite (mk_total H1 N1), (mk_total H2 N2); auto.
Qed.

(** Uniform site spaces: the total is always 1 (below 99 species). *)
Lemma uniform_total leb site s :
  site <> [] -> (length site < 99)%nat ->
  uniform_site_space leb site = Some s -> qsum (map snd s) = 1.
Proof.
  unfold uniform_site_space. intros Hne Hlen H. eapply mk_total; eauto. clear H.
  unfold num_atoms at 1 3. rewrite map_map. simpl. rewrite qsum_const.
  set (n := length site) in *.
  assert (Hn : (n <> 0)%nat) by (unfold n; destruct site; simpl; congruence).
  clearbody n. destruct (Qcltb (num_atoms site) q099).
  - left. rewrite Nat.add_comm. change (1 + n)%nat with (S n).
    assert (Hp : 0 < Qc_of_nat (S n)) by (apply Qc_of_nat_pos; lia).
    replace (Qc_of_nat n * (1 / Qc_of_nat (S n))) with (Qc_of_nat n / Qc_of_nat (S n))
      by (unfold Qcdiv; ring).
    apply Qcdiv_lt_iff; auto. rewrite Qc_of_nat_S in *.
    assert (H99 : Qc_of_nat n <= Qc_of_nat 98) by (apply (Qc_of_Z_le (Z.of_nat n) (Z.of_nat 98)); lia).
    set (x := Qc_of_nat n) in *. clearbody x.
    unfold q099, Qc_frac. change (Qc_of_nat 98) with (Q2Qc (98#1)) in H99. qclra.
  - right. rewrite Nat.add_0_r. unfold Qcdiv.
    rewrite Qcmult_1_l. apply Qcmult_inv_r. apply Qc_of_nat_nz; auto.
Qed.

(** ** Order *)
Section Order.
Variable leb : species -> species -> bool.
Hypothesis leb_total : forall a b, leb a b = true \/ leb b a = true.
Hypothesis leb_trans : forall a b c, leb a b = true -> leb b c = true -> leb a c = true.

Lemma insert_sorted (x : species * Qc) l :
  StronglySorted (fun p q => leb (fst p) (fst q) = true) l ->
  StronglySorted (fun p q => leb (fst p) (fst q) = true)
    (insert_by (fun p q => leb (fst p) (fst q)) x l).
Proof.
  induction 1 as [|z l Hs IH Hz]; simpl; [repeat constructor|].
  destruct (leb (fst x) (fst z)) eqn:E.
  - constructor; [constructor; auto|]. constructor; auto.
    rewrite Forall_forall in *. intros y Hy. eapply leb_trans; eauto.
  - constructor; auto. rewrite Forall_forall in *. intros y Hy.
    apply insert_by_In in Hy. destruct Hy as [->|Hy]; auto.
    destruct (leb_total (fst x) (fst z)); congruence.
Qed.

Lemma sort_sorted (l : list (species * Qc)) :
  StronglySorted (fun p q => leb (fst p) (fst q) = true) (sort_by (fun p q => leb (fst p) (fst q)) l).
Proof. induction l; simpl; [constructor|]. apply insert_sorted; auto. Qed.

Lemma mk_ordered c s :
  mk_site_space leb c = Some s -> NoDup (map fst c) ->
  (forall p, In p c -> fst p <> Vac) ->
  StronglySorted (sp_before leb) (map fst s).
Proof.
  unfold mk_site_space. intros H Hnd Hv.
  destruct (_ || _); [discriminate|]. destruct (_ && _); [discriminate|].
  set (d := sort_by (fun p q => leb (fst p) (fst q)) c) in *.
  assert (Hd : StronglySorted (sp_before leb) (map fst d)).
  { assert (Hs : StronglySorted (fun p q : species * Qc => leb (fst p) (fst q) = true) d)
      by apply sort_sorted.
    assert (Hn : NoDup (map fst d)).
    { eapply Permutation_NoDup; [apply Permutation_map, sort_by_perm|]; auto. }
    assert (Hv' : forall p, In p d -> fst p <> Vac).
    { intros p Hp. apply Hv. eapply Permutation_in; [apply Permutation_sym, sort_by_perm|exact Hp]. }
    clear H. clearbody d. induction Hs as [|x l Hs IH Hx]; simpl in *; [constructor|].
    inversion Hn as [|? ? Hnx Hnl]; subst. constructor; [apply IH; auto|].
    rewrite Forall_forall in *. intros sp Hsp. apply in_map_iff in Hsp.
    destruct Hsp as (q & <- & Hq). specialize (Hx _ Hq).
    assert (V1 := Hv' x (or_introl eq_refl)). assert (V2 := Hv' q (or_intror Hq)).
    assert (Hne : fst x <> fst q) by (intros E; apply Hnx; rewrite E; apply in_map; auto).
    destruct (fst x), (fst q); simpl; try congruence; auto. }
  inversion H; subst; clear H. destruct (Qcltb (num_atoms c) q099); auto.
  rewrite map_app. simpl.
  assert (Hv' : forall p, In p d -> fst p <> Vac).
  { intros p Hp. apply Hv. eapply Permutation_in; [apply Permutation_sym, sort_by_perm|exact Hp]. }
  clearbody d. clear Hnd Hv. induction d as [|x d IH]; simpl in *; [repeat constructor|].
  inversion Hd; subst. constructor; [apply IH; auto|].
  apply Forall_app. split; auto. constructor; auto.
  assert (V1 := Hv' x (or_introl eq_refl)). destruct (fst x); simpl; auto; congruence.
Qed.
End Order.
