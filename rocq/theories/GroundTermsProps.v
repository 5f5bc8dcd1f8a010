(** C51: linearised terms of the ground-state problem. *)
From Verif Require Export GroundState.
From Verif Require Import LibProofs SublatticeSpec SublatticeProofs.
Set Implicit Arguments.
Unset Strict Implicit.
Open Scope nat_scope.

(** ** Specification *)
(** Product of the values of the variables (a variable that does not exist counts as zero). *)
Definition monomial (x : list Qc) (vs : list nat) : Qc := fold_right Qcmult 1%Qc (map (fun v => nth v x 0%Qc) vs).
(** Two products of the same variables. *)
Definition same_vars (a b : list nat) : bool := forallb (fun v => count_occ Nat.eq_dec a v =? count_occ Nat.eq_dec b v) (a ++ b).
(** Total coefficient of a product over all its terms. *)
Definition total_of (ts : list term) (vs : list nat) : Qc := qsum (map (fun t => if same_vars (t_inds t) vs then (t_f1 t * t_f2 t)%Qc else 0%Qc) ts).
Definition kept (ts : list term) (cutoff : Qc) (vs : list nat) : bool := Qcleb cutoff (Cluster.qabs (total_of ts vs)).
(** The sum of the terms, and of those whose product is kept. *)
Definition sum_terms (ts : list term) (x : list Qc) : Qc := qsum (map (fun t => (t_f1 t * t_f2 t * monomial x (t_inds t))%Qc) ts).
Definition sum_kept (ts : list term) (cutoff : Qc) (x : list Qc) : Qc :=
  qsum (map (fun t => if kept ts cutoff (t_inds t) then (t_f1 t * t_f2 t * monomial x (t_inds t))%Qc else 0%Qc) ts).
Definition zero_one (x : list Qc) : Prop := forall q, In q x -> q = 0%Qc \/ q = 1%Qc.

(** ** Proofs *)
Lemma same_vars_perm a b : same_vars a b = true <-> Permutation a b.
Proof.
  unfold same_vars. rewrite forallb_forall. rewrite (Permutation_count_occ Nat.eq_dec). split.
  - intros H v. destruct (in_dec Nat.eq_dec v (a ++ b)) as [I|I]; [apply Nat.eqb_eq, H, I|]. assert (~ In v a /\ ~ In v b) as [Ia Ib] by (split; intros J; apply I, in_or_app; auto).
    apply (count_occ_not_In Nat.eq_dec) in Ia, Ib. congruence.
  - intros H v _. apply Nat.eqb_eq, H.
Qed.
Lemma list_eqb_eq a : forall b, list_eqb a b = true <-> a = b.
Proof.
  induction a as [|x a IH]; intros [|y b]; simpl; try (split; [discriminate|discriminate]); [tauto|]. rewrite andb_true_iff, Nat.eqb_eq, IH. split; [intros [-> ->]; auto|intros [= -> ->]; auto].
Qed.
Notation nsort := (sort_by Nat.leb).
Lemma nsort_perm a b : Permutation a b <-> nsort a = nsort b.
Proof.
  pose proof sort_leb_sorted as S.
  split; intros H.
  - assert (P : Permutation (nsort a) (nsort b)) by (rewrite <- (sort_by_perm Nat.leb a), <- (sort_by_perm Nat.leb b); auto).
    pose proof (S a) as Sa. pose proof (S b) as Sb. revert P Sa Sb. generalize (nsort a) (nsort b). clear. intros l. induction l as [|x l IH]; intros l' P Sa Sb; [apply Permutation_nil in P; auto|].
    destruct l' as [|y l']; [apply Permutation_sym, Permutation_nil in P; discriminate|]. assert (x = y).
    { apply Nat.le_antisymm.
      - assert (I : In y (x :: l)) by (apply (Permutation_in _ (Permutation_sym P)); left; auto). destruct I as [->|I]; auto. apply StronglySorted_inv in Sa as [_ Sa]. rewrite Forall_forall in Sa. auto.
      - assert (I : In x (y :: l')) by (apply (Permutation_in _ P); left; auto). destruct I as [->|I]; auto. apply StronglySorted_inv in Sb as [_ Sb]. rewrite Forall_forall in Sb. auto. }
    subst y. f_equal. apply IH; [eapply Permutation_cons_inv; eauto|apply StronglySorted_inv in Sa; tauto|apply StronglySorted_inv in Sb; tauto].
  - rewrite (sort_by_perm Nat.leb a), (sort_by_perm Nat.leb b), H. auto.
Qed.
Lemma same_vars_sort a b : same_vars a b = list_eqb (nsort a) (nsort b).
Proof. apply Bool.eq_iff_eq_true. rewrite same_vars_perm, list_eqb_eq. apply nsort_perm. Qed.
Lemma nsort_idem a : nsort (nsort a) = nsort a.
Proof. apply nsort_perm. apply Permutation_sym, sort_by_perm. Qed.
Lemma monomial_perm x a b : Permutation a b -> monomial x a = monomial x b.
Proof. intros P. unfold monomial. induction P; simpl; try congruence; auto. ring. Qed.
Lemma monomial_sort x a : monomial x (nsort a) = monomial x a.
Proof. apply monomial_perm, Permutation_sym, sort_by_perm. Qed.

(** *** The dictionary *)
Definition val (d : list (list nat * Qc)) (k : list nat) : Qc := qsum (map (fun p => if list_eqb (fst p) k then snd p else 0%Qc) d).
Lemma val_add key c d k : val (add_term key c d) k = (val d k + if list_eqb key k then c else 0)%Qc.
Proof.
  unfold val. induction d as [|[i c'] d IH]; cbn [add_term map qsum fst snd].
  - ring.
  - destruct (list_eqb i key) eqn:E; cbn [map qsum fst snd].
    + apply list_eqb_eq in E. subst i. destruct (list_eqb key k); ring.
    + rewrite IH. ring.
Qed.
Lemma keys_add key c d : map fst (add_term key c d) = if existsb (fun k => list_eqb k key) (map fst d) then map fst d else map fst d ++ [key].
Proof.
  induction d as [|[i c'] d IH]; cbn [add_term map fst existsb]; auto. destruct (list_eqb i key) eqn:E; cbn [map fst orb]; auto. rewrite IH. destruct (existsb _ (map fst d)); auto.
Qed.
Lemma wsum_add h key c d : qsum (map (fun p : list nat * Qc => (snd p * h (fst p))%Qc) (add_term key c d)) = (qsum (map (fun p : list nat * Qc => (snd p * h (fst p))%Qc) d) + c * h key)%Qc.
Proof.
  induction d as [|[i c'] d IH]; cbn [add_term map qsum fst snd]; [ring|]. destruct (list_eqb i key) eqn:E; cbn [map qsum fst snd].
  - apply list_eqb_eq in E. subst i. ring.
  - rewrite IH. ring.
Qed.
Definition dict_of (ts : list term) (d : list (list nat * Qc)) := fold_left (fun d t => add_term (nsort (t_inds t)) (t_f1 t * t_f2 t)%Qc d) ts d.
Lemma dict_keys ts : forall d, NoDup (map fst d) -> NoDup (map fst (dict_of ts d)) /\ forall k, In k (map fst (dict_of ts d)) <-> In k (map fst d) \/ exists t, In t ts /\ k = nsort (t_inds t).
Proof.
  induction ts as [|t ts IH]; intros d N; simpl; [split; auto; intros k; split; auto; intros [H|(t & [] & _)]; auto|].
  assert (K : NoDup (map fst (add_term (nsort (t_inds t)) (t_f1 t * t_f2 t)%Qc d)) /\ forall k, In k (map fst (add_term (nsort (t_inds t)) (t_f1 t * t_f2 t)%Qc d)) <-> In k (map fst d) \/ k = nsort (t_inds t)).
  { rewrite keys_add. destruct (existsb _ (map fst d)) eqn:E.
    - split; auto. apply existsb_exists in E as (k' & Hk & Ek). apply list_eqb_eq in Ek. subst k'. intros k. split; auto. intros [H| ->]; auto.
    - assert (~ In (nsort (t_inds t)) (map fst d)) by (intros I; assert (existsb (fun k => list_eqb k (nsort (t_inds t))) (map fst d) = true) by (apply existsb_exists; eexists; split; [exact I|]; apply list_eqb_eq; auto); congruence).
      split; [apply NoDup_app_intro; auto; [repeat constructor; simpl; auto|intros x Hx [<-|[]]; contradiction]|]. intros k. rewrite in_app_iff. simpl. intuition. }
  destruct K as [K1 K2]. destruct (IH _ K1) as [I1 I2]. split; auto. intros k. rewrite I2, K2. split.
  - intros [[H| ->]|(t' & H & ->)]; eauto 6.
  - intros [H|(t' & [<-|H] & ->)]; eauto 6.
Qed.
Lemma dict_val ts : forall d k, val (dict_of ts d) (nsort k) = (val d (nsort k) + total_of ts k)%Qc.
Proof.
  induction ts as [|t ts IH]; intros d k; simpl; [unfold total_of; cbn [map qsum]; ring|]. rewrite IH, val_add. unfold total_of. cbn [map qsum]. rewrite (same_vars_sort (t_inds t) k). ring.
Qed.
Lemma dict_wsum h ts : forall d, qsum (map (fun p : list nat * Qc => (snd p * h (fst p))%Qc) (dict_of ts d)) =
  (qsum (map (fun p : list nat * Qc => (snd p * h (fst p))%Qc) d) + qsum (map (fun t => (t_f1 t * t_f2 t * h (nsort (t_inds t)))%Qc) ts))%Qc.
Proof. induction ts as [|t ts IH]; intros d; simpl; [ring|]. rewrite IH, wsum_add. ring. Qed.
Lemma val_nodup d p : NoDup (map fst d) -> In p d -> val d (fst p) = snd p.
Proof.
  unfold val. induction d as [|q d IH]; intros N I; [contradiction|]. cbn [map] in N. apply NoDup_cons_iff in N as [N0 N]. cbn [map qsum]. destruct I as [->|I].
  - assert (E : list_eqb (fst p) (fst p) = true) by (apply list_eqb_eq; auto). rewrite E.
    assert (Q : qsum (map (fun q => if list_eqb (fst q) (fst p) then snd q else 0%Qc) d) = 0%Qc); [|rewrite Q; ring].
    clear - N0. induction d as [|q d IH]; auto. cbn [map qsum]. destruct (list_eqb (fst q) (fst p)) eqn:E; [apply list_eqb_eq in E; exfalso; apply N0; left; auto|]. rewrite IH; [ring|]. intros I. apply N0. right. auto.
  - rewrite (IH N I). destruct (list_eqb (fst q) (fst p)) eqn:E; [|ring]. apply list_eqb_eq in E. exfalso. apply N0. rewrite E. apply in_map; auto.
Qed.
Lemma dict_entry ts p : In p (dict_of ts []) -> snd p = total_of ts (fst p) /\ nsort (fst p) = fst p /\ exists t, In t ts /\ fst p = nsort (t_inds t).
Proof.
  intros H. destruct (dict_keys ts (d := [])) as [N K]; [constructor|]. assert (Kp : In (fst p) (map fst (dict_of ts []))) by (apply in_map; auto). apply K in Kp as [[]|(t & Ht & E)].
  assert (I : nsort (fst p) = fst p) by (rewrite E; apply nsort_idem). split; [|eauto]. rewrite <- (val_nodup N H). rewrite <- I at 1. rewrite dict_val. unfold val. cbn [map qsum]. ring.
Qed.
Lemma total_perm ts a b : Permutation a b -> total_of ts a = total_of ts b.
Proof. intros P. unfold total_of. f_equal. apply map_ext. intros t. rewrite !same_vars_sort. apply nsort_perm in P. rewrite P. auto. Qed.
Lemma kept_perm ts c a b : Permutation a b -> kept ts c a = kept ts c b.
Proof. intros P. unfold kept. rewrite (total_perm ts P). auto. Qed.
Lemma simplified_dict ts c : simplified ts c = filter (fun p => kept ts c (fst p)) (dict_of ts []).
Proof. unfold simplified. fold (dict_of ts []). apply filter_ext_in. intros p Hp. unfold kept. destruct (dict_entry Hp) as [-> _]. auto. Qed.
Lemma qsum_filter {A} (f : A -> bool) (g : A -> Qc) l : qsum (map g (filter f l)) = qsum (map (fun p => if f p then g p else 0%Qc) l).
Proof. induction l as [|x l IH]; simpl; auto. destruct (f x); cbn [map qsum]; rewrite IH; auto. ring. Qed.
Lemma simplified_sum ts c x : qsum (map (fun p => (snd p * monomial x (fst p))%Qc) (simplified ts c)) = sum_kept ts c x.
Proof.
  rewrite simplified_dict, qsum_filter. transitivity (qsum (map (fun p => (snd p * (if kept ts c (fst p) then monomial x (fst p) else 0))%Qc) (dict_of ts []))).
  - f_equal. apply map_ext. intros p. destruct (kept ts c (fst p)); [auto|ring].
  - rewrite (dict_wsum (fun k => if kept ts c k then monomial x k else 0%Qc)). cbn [map qsum]. unfold sum_kept. rewrite Qcplus_0_l. f_equal. apply map_ext. intros t.
    rewrite (kept_perm ts c (a := nsort (t_inds t)) (b := t_inds t)) by (apply Permutation_sym, sort_by_perm). rewrite monomial_sort. destruct (kept ts c (t_inds t)); [auto|ring].
Qed.

(** *** Splitting by length *)
Lemma sorted_lens st : StronglySorted (fun a b : list nat * Qc => term_leb a b = true) st ->
  st = filter (has_len 0) st ++ filter (has_len 1) st ++ filter (fun p => 1 <? length (fst p)) st.
Proof.
  induction st as [|p st IH]; intros S; auto. apply StronglySorted_inv in S as [S F]. rewrite Forall_forall in F. assert (LE : forall q, In q st -> length (fst p) <= length (fst q)).
  { intros q Hq. specialize (F q Hq). unfold term_leb in F. apply orb_true_iff in F as [F|F]; [apply Nat.ltb_lt in F; lia|]. apply andb_true_iff in F as [F _]. apply Nat.eqb_eq in F. lia. }
  assert (NIL : forall f, (forall q, In q st -> f q = false) -> filter f st = []).
  { clear. intros f H. induction st as [|q st IH]; auto. simpl. rewrite (H q (or_introl eq_refl)). apply IH. intros; apply H; right; auto. }
  assert (ALL : forall f, (forall q, In q st -> f q = true) -> filter f st = st).
  { clear. intros f H. induction st as [|q st IH]; auto. simpl. rewrite (H q (or_introl eq_refl)). f_equal. apply IH. intros; apply H; right; auto. }
  assert (G : forall k, has_len k p = (length (fst p) =? k)) by reflexivity.
  remember (fun q : list nat * Qc => 1 <? length (fst q)) as F0 eqn:EF. assert (GF : F0 p = (1 <? length (fst p))) by (subst; auto). cbn [filter]. rewrite !G, GF. destruct (length (fst p)) as [|[|k]] eqn:E; cbn [Nat.eqb Nat.ltb Nat.leb app].
  - f_equal. apply IH; auto.
  - rewrite (NIL (has_len 0)) in *; simpl in *; [f_equal; apply IH; auto|..]; intros q Hq; unfold has_len; apply Nat.eqb_neq; specialize (LE q Hq); lia.
  - rewrite (NIL (has_len 0)), (NIL (has_len 1)), (ALL F0); simpl; auto; intros q Hq; specialize (LE q Hq); rewrite ?EF; unfold has_len; [apply Nat.ltb_lt; lia|apply Nat.eqb_neq; lia|apply Nat.eqb_neq; lia].
Qed.
Lemma sort_by_sorted {A} (leb : A -> A -> bool) (l : list A) : (forall x y, leb x y = true \/ leb y x = true) -> (forall x y z, leb x y = true -> leb y z = true -> leb x z = true) ->
  StronglySorted (fun a b => leb a b = true) (sort_by leb l).
Proof.
  intros TOT TR. induction l as [|x l IH]; simpl; [constructor|]. revert IH. generalize (sort_by leb l). clear l. intros l S. induction S as [|y l S IH F]; simpl; [repeat constructor|].
  destruct (leb x y) eqn:E.
  - constructor; [constructor; auto|]. constructor; auto. eapply Forall_impl; [|exact F]. eauto.
  - constructor; auto. rewrite Forall_forall in *. intros z Hz. apply (Permutation_in _ (Permutation_sym (insert_by_perm leb x l))) in Hz. destruct Hz as [<-|Hz]; auto. destruct (TOT x y); congruence.
Qed.
Lemma term_sorted l : StronglySorted (fun a b => term_leb a b = true) (sort_by term_leb l).
Proof.
  apply sort_by_sorted; unfold term_leb.
  - intros x y. destruct (Nat.ltb_spec (length (fst x)) (length (fst y))); simpl; auto. destruct (Nat.ltb_spec (length (fst y)) (length (fst x))); simpl; auto.
    assert (E : length (fst x) = length (fst y)) by lia. rewrite E, Nat.eqb_refl. simpl. destruct (Qcleb_spec (snd x) (snd y)) as [|A]; auto. destruct (Qcleb_spec (snd y) (snd x)) as [|A']; auto. exfalso. apply Qcnot_le_lt in A, A'. qclra.
  - intros x y z H1 H2. apply orb_true_iff in H1, H2. apply orb_true_iff. rewrite andb_true_iff in *. rewrite Nat.ltb_lt, Nat.eqb_eq in *.
    destruct H1 as [H1|[H1 G1]], H2 as [H2|[H2 G2]]; [left; lia..|right]. split; [lia|]. revert G1 G2. destruct (Qcleb_spec (snd x) (snd y)), (Qcleb_spec (snd y) (snd z)), (Qcleb_spec (snd x) (snd z)) as [|A]; auto; try discriminate. exfalso. apply Qcnot_le_lt in A. qclra.
Qed.
Lemma skipn_exact {A} (a b : list A) : skipn (length a) (a ++ b) = b.
Proof. rewrite skipn_app, skipn_all, Nat.sub_diag. auto. Qed.
Lemma firstn_exact {A} (a b : list A) : firstn (length a) (a ++ b) = a.
Proof. rewrite firstn_app, firstn_all, Nat.sub_diag. simpl. apply app_nil_r. Qed.

(** The parts of the objective. *)
Lemma linearize_parts ts c o : linearize ts c = Some o ->
  let st := sort_by term_leb (simplified ts c) in
  ob_points o = map (fun p => (hd 0 (fst p), snd p)) (filter (has_len 1) st) /\ ob_many o = filter (fun p => 1 <? length (fst p)) st /\
  ob_const o = qsum (map snd (filter (has_len 0) st)) /\
  ob_cons o = concat (map (fun p => map (AuxLe (fst p)) (fst (snd p)) ++ [AuxGe (fst p) (fst (snd p))]) (combine (seq 0 (length (ob_many o))) (ob_many o))).
Proof.
  unfold linearize. set (st := sort_by term_leb (simplified ts c)). cbn zeta. intros H.
  pose proof (sorted_lens (term_sorted (simplified ts c))) as E. fold st in E. set (s0 := filter (has_len 0) st) in *. set (s1 := filter (has_len 1) st) in *. set (s2 := filter (fun p => 1 <? length (fst p)) st) in *.
  assert (E1 : firstn (length s1) (skipn (length s0) st) = s1) by (rewrite E, skipn_exact, firstn_exact; auto).
  assert (E2 : skipn (length s0 + length s1) st = s2) by (rewrite E, app_assoc, <- app_length; apply skipn_exact).
  rewrite E1, E2 in H. destruct ((length (map (fun p => (hd 0 (fst p), snd p)) s1) =? 0) && (length s2 =? 0)); [discriminate|]. injection H as <-. cbn. repeat split; auto.
  assert (L0 : length s0 <= 1).
  { assert (N : NoDup (map fst s0)).
    { assert (P : Permutation (simplified ts c) st) by apply sort_by_perm. assert (N : NoDup (map fst st)).
      { apply (Permutation_NoDup (Permutation_map fst P)). rewrite simplified_dict. destruct (dict_keys ts (d := [])) as [N _]; [constructor|]. clear - N. induction (dict_of ts []) as [|p d IH]; simpl; [constructor|]. apply NoDup_cons_iff in N as [N0 N].
        destruct (kept ts c (fst p)); auto. simpl. constructor; auto. intros I. apply N0. apply in_map_iff in I as (q & <- & I). apply filter_In in I. apply in_map; tauto. }
      unfold s0. clear - N. induction st as [|p d IH]; simpl; [constructor|]. apply NoDup_cons_iff in N as [N0 N].
      destruct (has_len 0 p); auto. simpl. constructor; auto. intros I. apply N0. apply in_map_iff in I as (q & <- & I). apply filter_In in I. apply in_map; tauto. }
    assert (A : forall k, In k (map fst s0) -> k = []).
    { intros k H. apply in_map_iff in H as (p & <- & H). apply filter_In in H as [_ H]. unfold has_len in H. apply Nat.eqb_eq in H. destruct (fst p); auto. discriminate. }
    rewrite <- (map_length fst). destruct (map fst s0) as [|a [|b l]]; simpl; auto. exfalso. apply NoDup_cons_iff in N as [N _]. apply N. left. rewrite (A a), (A b); simpl; auto. }
  destruct s0 as [|p [|q s0']]; simpl in L0; [|..|lia].
  - destruct st; auto.
  - rewrite E. simpl. ring.
Qed.
Lemma qdot_maps {A} (f h : A -> Qc) l : qdot (map f l) (map h l) = qsum (map (fun p => (f p * h p)%Qc) l).
Proof. induction l as [|p l IH]; simpl; auto. rewrite IH. auto. Qed.
Lemma qsum_app_ a b : qsum (a ++ b) = (qsum a + qsum b)%Qc.
Proof. induction a as [|x a IH]; simpl; [ring|]. rewrite IH. ring. Qed.

(** ** C51 *)
(** C51.  With the products in the auxiliary variables the objective is the sum of the kept terms, for all values of the variables. *)
Theorem C51_value : forall ts cutoff o x, linearize ts cutoff = Some o -> obj_value o x (aux_values x (map fst (ob_many o))) = sum_kept ts cutoff x.
Proof.
  intros ts c o x H. destruct (linearize_parts H) as (HP & HM & HC & _). set (st := sort_by term_leb (simplified ts c)) in *.
  rewrite <- simplified_sum. rewrite (qsum_perm (Permutation_map _ (sort_by_perm term_leb (simplified ts c)))). fold st.
  transitivity (qsum (map (fun p => (snd p * monomial x (fst p))%Qc) (filter (has_len 0) st ++ filter (has_len 1) st ++ filter (fun p => 1 <? length (fst p)) st))); [|unfold st; rewrite <- (sorted_lens (term_sorted (simplified ts c))); auto].
  rewrite !map_app, !qsum_app_. unfold obj_value. rewrite Qcplus_assoc. f_equal; [f_equal|].
  - rewrite HC. f_equal. apply map_ext_in. intros p Hp. apply filter_In in Hp as [_ Hp]. unfold has_len in Hp. apply Nat.eqb_eq in Hp. destruct (fst p); [|discriminate]. unfold monomial. simpl. ring.
  - rewrite HP, map_map. f_equal. apply map_ext_in. intros p Hp. apply filter_In in Hp as [_ Hp]. unfold has_len in Hp. apply Nat.eqb_eq in Hp. destruct (fst p) as [|v [|]]; try discriminate. unfold monomial. simpl. ring.
  - rewrite <- HM. unfold aux_values. rewrite map_map. rewrite (qdot_maps (fun p => fold_right Qcmult 1%Qc (map (fun v => nth v x 0%Qc) (fst p))) snd). f_equal. apply map_ext. intros p. unfold monomial. ring.
Qed.
Print Assumptions C51_value.

(** Nothing is dropped without a positive cutoff. *)
Theorem C51_exact : forall ts cutoff o x, (cutoff <= 0)%Qc -> linearize ts cutoff = Some o -> obj_value o x (aux_values x (map fst (ob_many o))) = sum_terms ts x.
Proof.
  intros ts c o x HC H. rewrite (C51_value x H). unfold sum_kept, sum_terms. f_equal. apply map_ext. intros t.
  assert (K : kept ts c (t_inds t) = true); [|rewrite K; auto]. unfold kept. destruct (Qcleb_spec c (Cluster.qabs (total_of ts (t_inds t)))) as [|n]; auto. exfalso. apply n.
  assert (0 <= Cluster.qabs (total_of ts (t_inds t)))%Qc; [|qclra]. unfold Cluster.qabs. destruct (Qcltb_spec (total_of ts (t_inds t)) 0) as [|A]; [|apply Qcnot_lt_le in A]; qclra.
Qed.
Print Assumptions C51_exact.

(** For zeros and ones the constraints leave exactly one choice between zero and one for the auxiliary variables: the products. *)
Lemma in_combine_seq {A} (l : list A) o i p : In (i, p) (combine (seq o (length l)) l) <-> o <= i /\ nth_error l (i - o) = Some p.
Proof.
  revert o. induction l as [|x l IH]; intros o; simpl; [split; [tauto|intros [_ H]; destruct (i - o); discriminate]|]. rewrite IH. split.
  - intros [[= <- <-]|[H1 H2]]; [rewrite Nat.sub_diag; auto|]. split; [lia|]. replace (i - o) with (S (i - S o)) by lia. auto.
  - intros [H1 H2]. destruct (Nat.eq_dec o i) as [->|N]; [rewrite Nat.sub_diag in H2; injection H2 as <-; auto|]. right. split; [lia|]. replace (i - o) with (S (i - S o)) in H2 by lia. auto.
Qed.
Lemma monomial_zero_one x vs : zero_one x -> (monomial x vs = 1%Qc /\ (forall v, In v vs -> nth v x 0%Qc = 1%Qc) /\ sum_vars x vs = Qc_of_nat (length vs)) \/
  (monomial x vs = 0%Qc /\ (exists v, In v vs /\ nth v x 0%Qc = 0%Qc) /\ (sum_vars x vs <= Qc_of_nat (length vs) - 1)%Qc).
Proof.
  intros B. assert (V : forall v, nth v x 0%Qc = 0%Qc \/ nth v x 0%Qc = 1%Qc) by (intros v; destruct (Nat.lt_ge_cases v (length x)); [apply B, nth_In; auto|left; apply nth_overflow; auto]).
  unfold monomial, sum_vars. induction vs as [|v vs IH]; cbn [map fold_right qsum length]; [left; repeat split; auto; intros v []|]. rewrite Qc_of_nat_S.
  destruct IH as [(M & A & S)|(M & (w & Hw & A) & S)].
  - rewrite M, S. destruct (V v) as [E|E]; rewrite E.
    + right. split; [ring|]. split; [exists v; simpl; auto|qclra].
    + left. split; [ring|]. split; [intros w [<-|Hw]; auto|ring].
  - right. rewrite M. split; [ring|]. split; [exists w; simpl; auto|]. destruct (V v) as [E|E]; rewrite E; qclra.
Qed.
Theorem C51_auxiliary : forall ts cutoff o x aux, linearize ts cutoff = Some o -> zero_one x -> length aux = length (ob_many o) -> (forall q, In q aux -> 0 <= q /\ q <= 1)%Qc ->
  ((forall c, In c (ob_cons o) -> con_holds x aux c) <-> aux = map (monomial x) (map fst (ob_many o))).
Proof.
  intros ts c o x aux H B L R. destruct (linearize_parts H) as (_ & _ & _ & HK).
  assert (IC : forall con, In con (ob_cons o) <-> exists i p, nth_error (ob_many o) i = Some p /\ (In con (map (AuxLe i) (fst p)) \/ con = AuxGe i (fst p))).
  { intros con. rewrite HK, in_concat. split.
    - intros (l & Hl & Hc). apply in_map_iff in Hl as ([i p] & <- & Hp). apply in_combine_seq in Hp as [_ Hp]. rewrite Nat.sub_0_r in Hp. exists i, p. split; auto. simpl in Hc. apply in_app_or in Hc as [Hc|[<-|[]]]; auto.
    - intros (i & p & Hp & Hc). eexists. split; [apply in_map_iff; exists (i, p); split; [reflexivity|apply in_combine_seq; rewrite Nat.sub_0_r; split; auto; lia]|]. simpl. apply in_or_app. simpl. intuition. }
  split.
  - intros HC. apply nth_ext with (d := 0%Qc) (d' := 0%Qc); [rewrite !map_length; auto|]. intros i Hi. destruct (nth_error (ob_many o) i) as [p|] eqn:Ep; [|apply nth_error_None in Ep; lia].
    rewrite (nth_error_nth (map (monomial x) (map fst (ob_many o))) i (x := monomial x (fst p)) 0%Qc) by (rewrite !nth_error_map, Ep; auto).
    destruct (R (nth i aux 0%Qc)) as [R0 R1]; [apply nth_In; auto|]. destruct (monomial_zero_one (fst p) B) as [(M & A & S)|(M & (v & Hv & A) & S)]; rewrite M.
    + assert (G : con_holds x aux (AuxGe i (fst p))) by (apply HC, IC; exists i, p; auto). simpl in G. rewrite S in G. qclra.
    + assert (G : con_holds x aux (AuxLe i v)) by (apply HC, IC; exists i, p; split; auto; left; apply in_map; auto). simpl in G. rewrite A in G. qclra.
  - intros -> con HI. apply IC in HI as (i & p & Ep & HI).
    assert (E : nth i (map (monomial x) (map fst (ob_many o))) 0%Qc = monomial x (fst p)) by (apply nth_error_nth; rewrite !nth_error_map, Ep; auto).
    destruct (monomial_zero_one (fst p) B) as [(M & A & S)|(M & (v & Hv & A) & S)]; destruct HI as [HI| ->].
    + apply in_map_iff in HI as (v & <- & Hv). simpl. rewrite E, M, (A v Hv). qclra.
    + simpl. rewrite E, M, S. qclra.
    + apply in_map_iff in HI as (w & <- & Hw). simpl. rewrite E, M. destruct (Nat.lt_ge_cases w (length x)) as [Lw|Lw]; [destruct (B _ (nth_In x 0%Qc Lw)) as [->| ->]; qclra|rewrite nth_overflow by auto; qclra].
    + simpl. rewrite E, M. qclra.
Qed.
Print Assumptions C51_auxiliary.

(** So on zeros and ones the linear problem has the values of the product terms. *)
Theorem C51_objective : forall ts cutoff o x, linearize ts cutoff = Some o -> zero_one x ->
  (exists aux, length aux = length (ob_many o) /\ zero_one aux /\ forall c, In c (ob_cons o) -> con_holds x aux c) /\
  forall aux, length aux = length (ob_many o) -> (forall q, In q aux -> 0 <= q /\ q <= 1)%Qc -> (forall c, In c (ob_cons o) -> con_holds x aux c) ->
    obj_value o x aux = sum_kept ts cutoff x /\ aux = aux_values x (map fst (ob_many o)).
Proof.
  intros ts c o x H B. split.
  - exists (map (monomial x) (map fst (ob_many o))). assert (Z : zero_one (map (monomial x) (map fst (ob_many o)))).
    { intros q Hq. apply in_map_iff in Hq as (k & <- & _). destruct (monomial_zero_one k B) as [[-> _]|[-> _]]; auto. }
    split; [rewrite !map_length; auto|]. split; auto. apply (C51_auxiliary H B); [rewrite !map_length; auto| |auto]. intros q Hq. destruct (Z q Hq) as [->| ->]; split; qclra.
  - intros aux L R HC. assert (E : aux = aux_values x (map fst (ob_many o))) by (apply (C51_auxiliary H B L R); auto). split; auto. rewrite E. apply C51_value; auto.
Qed.
Print Assumptions C51_objective.

(** There is one auxiliary variable for each kept product of two or more variables. *)
Theorem C51_products : forall ts cutoff o, linearize ts cutoff = Some o -> NoDup (map fst (ob_many o)) /\
  (forall k k', In k (map fst (ob_many o)) -> In k' (map fst (ob_many o)) -> Permutation k k' -> k = k') /\
  (forall k, In k (map fst (ob_many o)) -> exists t, In t ts /\ Permutation (t_inds t) k) /\
  (forall t, In t ts -> (exists k, In k (map fst (ob_many o)) /\ Permutation (t_inds t) k) <-> 1 < length (t_inds t) /\ kept ts cutoff (t_inds t) = true).
Proof.
  intros ts c o H. destruct (linearize_parts H) as (_ & HM & _). set (st := sort_by term_leb (simplified ts c)) in *. assert (P : Permutation (simplified ts c) st) by apply sort_by_perm.
  destruct (dict_keys ts (d := [])) as [N K]; [constructor|].
  assert (NF : forall (f : list nat * Qc -> bool) d, NoDup (map fst d) -> NoDup (map fst (filter f d))).
  { clear. intros f d N. induction d as [|p d IH]; simpl; [constructor|]. apply NoDup_cons_iff in N as [N0 N]. destruct (f p); auto. simpl. constructor; auto. intros I. apply N0. apply in_map_iff in I as (q & <- & I). apply filter_In in I. apply in_map; tauto. }
  assert (NM : NoDup (map fst (ob_many o))) by (rewrite HM; apply NF; apply (Permutation_NoDup (Permutation_map fst P)); rewrite simplified_dict; apply NF; auto).
  assert (I : forall k, In k (map fst (ob_many o)) <-> In k (map fst (dict_of ts [])) /\ kept ts c k = true /\ 1 < length k).
  { intros k. rewrite HM. split.
    - intros Q. apply in_map_iff in Q as (p & <- & Q). apply filter_In in Q as [Q L]. apply Nat.ltb_lt in L. apply (Permutation_in _ (Permutation_sym P)) in Q. rewrite simplified_dict in Q. apply filter_In in Q as [Q1 Q2]. split; auto. apply in_map; auto.
    - intros (Q1 & Q2 & Q3). apply in_map_iff in Q1 as (p & <- & Q1). apply in_map. apply filter_In. split; [|apply Nat.ltb_lt; auto]. apply (Permutation_in _ P). rewrite simplified_dict. apply filter_In. auto. }
  assert (SO : forall k, In k (map fst (ob_many o)) -> exists t, In t ts /\ k = nsort (t_inds t)) by (intros k Hk; apply I in Hk as [Hk _]; apply K in Hk as [[]|Hk]; auto).
  split; auto. split; [|split].
  - intros k k' H1 H2 Q. destruct (SO k H1) as (t & _ & ->), (SO k' H2) as (t' & _ & ->). apply nsort_perm in Q. rewrite !nsort_idem in Q. auto.
  - intros k Hk. destruct (SO k Hk) as (t & Ht & ->). exists t. split; auto. apply sort_by_perm.
  - intros t Ht. split.
    + intros (k & Hk & Q). apply I in Hk as (_ & Q2 & Q3). rewrite (kept_perm ts c Q), (Permutation_length Q). auto.
    + intros [L Q]. pose proof (sort_by_perm Nat.leb (t_inds t)) as SP. exists (nsort (t_inds t)). split; auto. apply I. split; [apply K; right; eauto|]. rewrite <- (kept_perm ts c SP), <- (Permutation_length SP). auto.
Qed.
Print Assumptions C51_products.

(** The problem is refused exactly when no kept term has a variable. *)
Theorem C51_refused : forall ts cutoff, linearize ts cutoff = None <-> forall t, In t ts -> kept ts cutoff (t_inds t) = true -> t_inds t = [].
Proof.
  intros ts c. set (st := sort_by term_leb (simplified ts c)). assert (P : Permutation (simplified ts c) st) by apply sort_by_perm.
  assert (EQ : linearize ts c = None <-> filter (has_len 1) st = [] /\ filter (fun p => 1 <? length (fst p)) st = []).
  { unfold linearize. fold st. cbn zeta. pose proof (sorted_lens (term_sorted (simplified ts c))) as E. fold st in E. set (s0 := filter (has_len 0) st) in *. set (s1 := filter (has_len 1) st) in *. set (s2 := filter (fun p => 1 <? length (fst p)) st) in *.
    assert (E1 : firstn (length s1) (skipn (length s0) st) = s1) by (rewrite E, skipn_exact, firstn_exact; auto).
    assert (E2 : skipn (length s0 + length s1) st = s2) by (rewrite E, app_assoc, <- app_length; apply skipn_exact).
    rewrite E1, E2, map_length. destruct s1, s2; simpl; split; try discriminate; auto; intros [? ?]; discriminate. }
  rewrite EQ. destruct (dict_keys ts (d := [])) as [N K]; [constructor|].
  assert (I : forall p, In p st <-> In p (dict_of ts []) /\ kept ts c (fst p) = true).
  { intros p. rewrite <- (filter_In (fun p => kept ts c (fst p))), <- simplified_dict. split; intros H; [apply (Permutation_in _ (Permutation_sym P)); auto|apply (Permutation_in _ P); auto]. }
  split.
  - intros [H1 H2] t Ht HK. pose proof (sort_by_perm Nat.leb (t_inds t)) as SP. assert (In (nsort (t_inds t)) (map fst (dict_of ts []))) as J by (apply K; right; eauto).
    apply in_map_iff in J as (p & Ep & J). assert (J' : In p st) by (apply I; split; auto; rewrite Ep, <- (kept_perm ts c SP); auto).
    apply Permutation_length in SP. rewrite <- Ep in SP. destruct (t_inds t) as [|v [|w l]]; auto; exfalso.
    + assert (X : In p (filter (has_len 1) st)) by (apply filter_In; split; auto; unfold has_len; rewrite <- SP; auto). rewrite H1 in X. contradiction.
    + assert (X : In p (filter (fun p => 1 <? length (fst p)) st)) by (apply filter_In; split; auto; rewrite <- SP; auto). rewrite H2 in X. contradiction.
  - intros H. assert (A : forall p, In p st -> fst p = []).
    { intros p Hp. apply I in Hp as [Hp Hk]. destruct (dict_entry Hp) as (_ & _ & t & Ht & E). pose proof (sort_by_perm Nat.leb (t_inds t)) as SP. rewrite E in Hk |- *. rewrite <- (kept_perm ts c SP) in Hk. rewrite (H t Ht Hk). auto. }
    clear - A. split; induction st as [|p l IH]; auto; simpl; unfold has_len; rewrite (A p (or_introl eq_refl)); simpl; apply IH; intros q Hq; apply A; right; auto.
Qed.
Print Assumptions C51_refused.

(** What a cutoff costs: at most the cutoff for each product that is dropped. *)
Theorem C51_cutoff : forall ts cutoff x, zero_one x -> exists dropped, NoDup dropped /\ (forall k k', In k dropped -> In k' dropped -> Permutation k k' -> k = k') /\
  (forall k, In k dropped -> exists t, In t ts /\ Permutation (t_inds t) k /\ (Cluster.qabs (total_of ts k) < cutoff)%Qc) /\
  (Cluster.qabs (sum_terms ts x - sum_kept ts cutoff x) <= Qc_of_nat (length dropped) * cutoff)%Qc.
Proof.
  intros ts c x B. destruct (dict_keys ts (d := [])) as [N K]; [constructor|].
  set (dr := filter (fun p => negb (kept ts c (fst p))) (dict_of ts [])). exists (map fst dr).
  assert (DR : forall p, In p dr -> In p (dict_of ts []) /\ (Cluster.qabs (total_of ts (fst p)) < c)%Qc).
  { intros p Hp. apply filter_In in Hp as [H1 H2]. split; auto. unfold kept in H2. destruct (Qcleb_spec c (Cluster.qabs (total_of ts (fst p)))) as [|A]; [discriminate|]. apply Qcnot_le_lt. auto. }
  split; [|split; [|split]].
  - unfold dr. generalize (fun p : list nat * Qc => negb (kept ts c (fst p))). intros f. clear - N. induction (dict_of ts []) as [|p d IH]; simpl; [constructor|]. apply NoDup_cons_iff in N as [N0 N].
    destruct (f p); auto. simpl. constructor; auto. intros I. apply N0. apply in_map_iff in I as (q & <- & I). apply filter_In in I. apply in_map; tauto.
  - intros k k' H1 H2 Q. apply in_map_iff in H1 as (p & <- & H1). apply in_map_iff in H2 as (p' & <- & H2). apply DR in H1 as [H1 _], H2 as [H2 _]. destruct (dict_entry H1) as (_ & E1 & _), (dict_entry H2) as (_ & E2 & _).
    apply nsort_perm in Q. congruence.
  - intros k Hk. apply in_map_iff in Hk as (p & <- & Hp). apply DR in Hp as [H1 H2]. destruct (dict_entry H1) as (_ & _ & t & Ht & E). exists t. split; auto. split; auto. rewrite E. apply sort_by_perm.
  - assert (E : (sum_terms ts x - sum_kept ts c x)%Qc = qsum (map (fun p => (snd p * monomial x (fst p))%Qc) dr)).
    { rewrite <- simplified_sum, simplified_dict. unfold dr. assert (E : sum_terms ts x = qsum (map (fun p => (snd p * monomial x (fst p))%Qc) (dict_of ts []))).
      { rewrite dict_wsum. cbn [map qsum]. rewrite Qcplus_0_l. unfold sum_terms. f_equal. apply map_ext. intros t. rewrite monomial_sort. auto. }
      rewrite E. generalize (dict_of ts []). intros d. induction d as [|p d IH]; simpl; [ring|]. destruct (kept ts c (fst p)); cbn [negb map qsum]; rewrite <- IH; ring. }
    rewrite E, map_length. assert (DE : forall p, In p dr -> (- c <= snd p * monomial x (fst p) /\ snd p * monomial x (fst p) <= c)%Qc).
    { intros p Hp. apply DR in Hp as [H1 H2]. destruct (dict_entry H1) as (ES & _). rewrite ES. revert H2. unfold Cluster.qabs. destruct (monomial_zero_one (fst p) B) as [[-> _]|[-> _]]; destruct (Qcltb_spec (total_of ts (fst p)) 0) as [A|A]; [|apply Qcnot_lt_le in A| |apply Qcnot_lt_le in A]; intros; split; qclra. }
    assert (BD : (- (Qc_of_nat (length dr) * c) <= qsum (map (fun p => snd p * monomial x (fst p)) dr) /\ qsum (map (fun p => snd p * monomial x (fst p)) dr) <= Qc_of_nat (length dr) * c)%Qc).
    { clear - DE. induction dr as [|p l IH]; cbn [map qsum length]; [rewrite Qc_of_nat_0; split; qclra|]. rewrite Qc_of_nat_S. destruct IH as [I1 I2]; [intros; apply DE; right; auto|]. destruct (DE p (or_introl eq_refl)) as [D1 D2].
      split; [replace (- ((Qc_of_nat (length l) + 1) * c))%Qc with (- (Qc_of_nat (length l) * c) - c)%Qc by ring|replace ((Qc_of_nat (length l) + 1) * c)%Qc with (Qc_of_nat (length l) * c + c)%Qc by ring]; qclra. }
    destruct BD as [B1 B2]. unfold Cluster.qabs. destruct (Qcltb_spec (qsum (map (fun p => snd p * monomial x (fst p))%Qc dr)) 0); qclra.
Qed.
Print Assumptions C51_cutoff.

(** Case: two terms of the same product in different order, a point term, a constant, and a product that cancels. *)
Definition ex_ts : list term := [mkT [2; 0] (Qc_of_Z 3) 1%Qc; mkT [1] (Qc_of_Z 5) (Qc_frac 1 2); mkT [0; 2] (Qc_of_Z 4) (Qc_of_Z 2); mkT [] (Qc_of_Z 7) 1%Qc;
  mkT [1; 2] 1%Qc 1%Qc; mkT [2; 1] 1%Qc (- (1))%Qc].
Example C51_case : exists o, linearize ex_ts (Qc_frac 1 100) = Some o /\ ob_many o = [([0; 2], Qc_of_Z 11)] /\ ob_cons o = [AuxLe 0 0; AuxLe 0 2; AuxGe 0 [0; 2]] /\
  ob_const o = Qc_of_Z 7 /\ zero_one [1%Qc; 0%Qc; 1%Qc] /\ obj_value o [1%Qc; 0%Qc; 1%Qc] [1%Qc] = Qc_of_Z 18 /\ linearize [mkT [] 1%Qc 1%Qc; mkT [0] 1%Qc 0%Qc] (Qc_frac 1 100) = None.
Proof.
  eexists. split; [vm_compute; reflexivity|]. repeat split; try (intros q [<-|[<-|[<-|[]]]]; auto); vm_compute; reflexivity.
Qed.
