(** Linear dependence of integer vectors: elimination and exchange. *)
From Verif Require Export ErgodicSpec.
From Verif Require Import LibProofs.
Set Implicit Arguments.
Unset Strict Implicit.
Open Scope Z_scope.

Definition vec := nat -> Z.
Definition flc (l : list (Z * vec)) (i : nat) : Z := zsum (map (fun p => fst p * snd p i) l).
Definition fdep (d : nat) (V : list vec) : Prop :=
  exists l, map snd l = V /\ (forall i, (i < d)%nat -> flc l i = 0) /\ exists p, In p l /\ fst p <> 0.
Definition findep (d : nat) (V : list vec) : Prop :=
  forall l, map snd l = V -> (forall i, (i < d)%nat -> flc l i = 0) -> forall p, In p l -> fst p = 0.

Lemma zsum_app a b : zsum (a ++ b) = zsum a + zsum b.
Proof. induction a; simpl; lia. Qed.
Lemma flc_app a b i : flc (a ++ b) i = flc a i + flc b i.
Proof. unfold flc. rewrite map_app, zsum_app. auto. Qed.
Lemma flc_cons c v l i : flc ((c, v) :: l) i = c * v i + flc l i.
Proof. reflexivity. Qed.

(** A relation between modified vectors is a relation between the vectors and the pivot. *)
Lemma pull (p : vec) : forall (W us : list vec), Forall2 (fun v u : vec => exists x y : Z, x <> 0 /\ forall i, u i = x * v i - y * p i) W us ->
  forall l', map snd l' = us -> exists l e, map snd l = W /\ (forall i, flc l' i = flc l i - e * p i) /\ ((exists q, In q l' /\ fst q <> 0) -> exists q, In q l /\ fst q <> 0).
Proof.
  induction 1 as [|v u W us (x & y & X & E) F IH]; intros [|[c u'] l'] H; try discriminate.
  - exists [], 0. split; [auto|]. split; [intros; unfold flc; simpl; lia|]. intros (q & [] & _).
  - simpl in H. injection H as -> H. destruct (IH l' H) as (l & e & L1 & L2 & L3). exists ((c * x, v) :: l), (c * y + e). split; [simpl; congruence|]. split.
    + intro i. rewrite !flc_cons, L2, E. ring.
    + intros (q & [<-|Q] & N). 
      * exists (c * x, v). split; [left; auto|]. simpl in *. nia.
      * destruct L3 as (q' & Q' & N'); [eauto|]. exists q'. split; [right|]; auto.
Qed.

Lemma insert_dep d V1 p V2 (l : list (Z * vec)) e : map snd l = V1 ++ V2 -> (forall i, (i < d)%nat -> flc l i = e * p i) -> (exists q, In q l /\ fst q <> 0) -> fdep d (V1 ++ p :: V2).
Proof.
  intros M E (q & Q & N). apply map_eq_app in M as (L1 & L2 & -> & <- & <-). exists (L1 ++ (- e, p) :: L2). split; [rewrite map_app; auto|]. split.
  - intros i I. specialize (E i I). rewrite flc_app in *. rewrite flc_cons. lia.
  - exists q. split; auto. rewrite in_app_iff in *. simpl. tauto.
Qed.

(** Either a vector has a non-zero component there, or all are zero. *)
Definition find_pivot d : forall V : list vec, {x : list vec * vec * list vec | V = fst (fst x) ++ snd (fst x) :: snd x /\ snd (fst x) d <> 0} + {forall v, In v V -> v d = 0}.
Proof.
  induction V as [|v V IH].
  - right. intros v [].
  - destruct (Z.eq_dec (v d) 0) as [E|N].
    + destruct IH as [(((V1, p), V2) & H1 & H2)|IH].
      * left. exists (v :: V1, p, V2). simpl in *. split; congruence.
      * right. intros w [<-|W]; auto.
    + left. exists ([], v, V). simpl. auto.
Defined.

Lemma flc_zero (l : list (Z * vec)) i : (forall v, In v (map snd l) -> v i = 0) -> flc l i = 0.
Proof. induction l as [|[c v] l IH]; intros H; [reflexivity|]. rewrite flc_cons, IH, (H v); [lia|left; auto|]. intros w W. apply H. right; auto. Qed.
Lemma flc_zero_coef (l : list (Z * vec)) i : (forall p, In p l -> fst p = 0) -> flc l i = 0.
Proof. induction l as [|[c v] l IH]; intros H; [reflexivity|]. rewrite flc_cons, IH; [|intros; apply H; right; auto]. specialize (H _ (or_introl eq_refl)). simpl in H. lia. Qed.

Definition elim (p : vec) (d : nat) (v : vec) : vec := fun i => p d * v i - v d * p i.
Lemma flc_elim p d (l : list (Z * vec)) i : flc (map (fun q => (fst q, elim p d (snd q))) l) i = p d * flc l i - flc l d * p i.
Proof. induction l as [|[c v] l IH]; [unfold flc; simpl; lia|]. simpl map. rewrite !flc_cons, IH. unfold elim. simpl. ring. Qed.

Definition dep_dec : forall d (V : list vec), {findep d V} + {fdep d V}.
Proof.
  induction d as [|d IH]; intros V.
  - destruct V as [|v V].
    + left. intros [|] H; [intros _ p []|discriminate].
    + right. exists (map (fun w => (1, w)) (v :: V)). split; [rewrite map_map; simpl; f_equal; apply map_id|]. split; [intros; lia|]. exists (1, v). split; [left; auto|discriminate].
  - destruct (find_pivot d V) as [(((V1, p), V2) & E & N)|Z].
    + simpl in E, N. destruct (IH (map (elim p d) (V1 ++ V2))) as [I|D].
      * left. intros l M R. subst V. apply map_eq_app in M as (L1 & L2' & -> & <- & M). destruct L2' as [|[c p'] L2]; [discriminate|]. simpl in M. injection M as -> <-.
        assert (A : forall q, In q (L1 ++ L2) -> fst q = 0).
        { intros q Q. change (fst q) with (fst (fst q, elim p d (snd q))). apply (I (map (fun q => (fst q, elim p d (snd q))) (L1 ++ L2))).
          - rewrite !map_map. simpl. rewrite <- map_app, map_map. reflexivity.
          - intros i Hi. rewrite flc_elim. pose proof (R i ltac:(lia)) as R1. pose proof (R d ltac:(lia)) as R2. rewrite flc_app, flc_cons in R1, R2. rewrite !flc_app. assert (X : flc L1 i + flc L2 i = - c * p i) by lia. assert (Y : flc L1 d + flc L2 d = - c * p d) by lia. rewrite X, Y. ring.
          - apply (in_map (fun q => (fst q, elim p d (snd q)))). auto. }
        assert (C : c = 0).
        { specialize (R d ltac:(lia)). rewrite flc_app, flc_cons, (flc_zero_coef (l := L1)), (flc_zero_coef (l := L2)) in R; [nia| |]; intros q Q; apply A, in_or_app; auto. }
        intros q Q. apply in_app_or in Q as [Q|[<-|Q]]; auto; apply A, in_or_app; auto.
      * right. subst V. destruct D as (l' & M & R & X). destruct (pull (p := p) (W := V1 ++ V2) (us := map (elim p d) (V1 ++ V2)) ltac:(clear -N; induction (V1 ++ V2); simpl; constructor; auto; exists (p d), (a d); split; auto)  M) as (l & e & L1 & L2 & L3).
        assert (ED : flc l d = e * p d).
        { specialize (L2 d). assert (flc l' d = 0). { apply flc_zero. rewrite M. intros v Hv. apply in_map_iff in Hv as (w & <- & _). unfold elim. ring. } lia. }
        apply (insert_dep (l := l) (e := e)); auto. intros i Hi. destruct (Nat.eq_dec i d) as [->|Ne]; auto. specialize (L2 i). rewrite (R i) in L2 by lia. lia.
    + destruct (IH V) as [I|D].
      * left. intros l M R. apply I; auto.
      * right. destruct D as (l & M & R & X). exists l. split; auto. split; auto. intros i Hi. destruct (Nat.eq_dec i d) as [->|Ne]; [|apply R; lia]. apply flc_zero. rewrite M. auto.
Defined.

(** Vectors a multiple of which is a combination. *)
Definition spanned (d : nat) (W : list vec) (v : vec) : Prop := exists c l, c <> 0 /\ map snd l = W /\ forall i, (i < d)%nat -> c * v i = flc l i.

Lemma exchange d : forall W V, (forall v, In v V -> spanned d W v) -> (length W < length V)%nat -> fdep d V.
Proof.
  induction W as [|w W IH]; intros V S L.
  - destruct V as [|v V]; [simpl in L; lia|]. destruct (S v (or_introl eq_refl)) as (c & l & C & M & E). destruct l; [|discriminate]. exists ((1, v) :: map (fun w => (0, w)) V). split; [simpl; rewrite map_map; simpl; f_equal; apply map_id|]. split.
    + intros i I. specialize (E i I). rewrite flc_cons, flc_zero_coef; [unfold flc in E; simpl in E; nia|]. intros p P. apply in_map_iff in P as (q & <- & _). auto.
    + exists (1, v). split; [left; auto|discriminate].
  - assert (D : (forall v, In v V -> spanned d W v) \/ exists V1 p V2 c a l, V = V1 ++ p :: V2 /\ a <> 0 /\ map snd l = W /\ forall i, (i < d)%nat -> c * p i = a * w i + flc l i).
    { clear L IH. induction V as [|v V IH]; [left; intros v []|]. destruct (S v (or_introl eq_refl)) as (c & l & C & M & E). destruct l as [|[a w'] l]; [discriminate|]. simpl in M. injection M as -> M.
      destruct (Z.eq_dec a 0) as [->|N].
      - assert (S' : forall u, In u V -> spanned d (w :: W) u) by (intros; apply S; right; auto).
        destruct (IH S') as [I|(V1 & p & V2 & c' & a' & l' & -> & H)].
        + left. intros u [<-|U]; auto. exists c, l. split; [|split]; auto.
        + right. exists (v :: V1), p, V2, c', a', l'. auto.
      - right. exists [], v, V, c, a, l. split; auto. }
    destruct D as [D|(V1 & p & V2 & c & a & l & -> & A & M & E)]; [apply (IH V); auto; simpl in L; lia|].
    assert (U : exists us : list vec, Forall2 (fun v u : vec => exists x y, x <> 0 /\ forall i, u i = x * v i - y * p i) (V1 ++ V2) us /\ forall u, In u us -> spanned d W u).
    { assert (S' : forall v, In v (V1 ++ V2) -> spanned d (w :: W) v) by (intros v Hv; apply S; rewrite in_app_iff in *; simpl; tauto). clear -S' A M E. induction (V1 ++ V2) as [|v V IH]; [exists []; split; [constructor|intros u []]|].
      destruct IH as (us & F & SU); [intros; apply S'; right; auto|]. destruct (S' v (or_introl eq_refl)) as (cv & lv & C & Mv & Ev). destruct lv as [|[av w'] lv]; [discriminate|]. simpl in Mv. injection Mv as -> Mv.
      exists ((fun i => (a * cv) * v i - (av * c) * p i) :: us). split; [constructor; auto; exists (a * cv), (av * c); split; auto; nia|].
      intros u [<-|Hu]; auto. exists 1.
      assert (C2 : forall x y (l1 l2 : list (Z * vec)), map snd l1 = map snd l2 -> exists l3, map snd l3 = map snd l1 /\ forall i, flc l3 i = x * flc l1 i + y * flc l2 i).
      { clear. intros x y. induction l1 as [|[a v] l1 IH]; intros [|[b w] l2] H; try discriminate; [exists []; split; auto; intros; unfold flc; simpl; lia|]. simpl in H. injection H as <- H. destruct (IH _ H) as (l3 & X & Y). exists ((x * a + y * b, v) :: l3). split; [simpl; congruence|]. intro i. rewrite !flc_cons, Y. ring. }
      destruct (C2 a (- av) lv l ltac:(congruence)) as (l3 & X & Y). exists l3. split; [lia|]. split; [congruence|]. intros i I. rewrite Y. specialize (Ev i I). rewrite flc_cons in Ev. specialize (E i I). simpl in Ev.
      transitivity (a * (cv * v i) - av * (c * p i)); [ring|]. rewrite Ev, E. ring. }
    destruct U as (us & F & SU). destruct (IH us SU) as (l' & M' & R & X).
    { pose proof (Forall2_length F) as FL. rewrite !app_length in *. simpl in L, FL. lia. }
    destruct (pull F M') as (l2 & e & L1 & L2 & L3). apply (insert_dep (l := l2) (e := e)); auto. intros i I. specialize (L2 i). rewrite (R i I) in L2. lia.
Qed.

(** ** Rows *)
Definition at_ (u : list Z) : vec := fun i => nth i u 0.
Definition lift (l : list (Z * list Z)) : list (Z * vec) := map (fun p => (fst p, at_ (snd p))) l.
Lemma flc_lift l i : flc (lift l) i = lc l i.
Proof. unfold flc, lc, lift. rewrite map_map. reflexivity. Qed.
Lemma lower vs : forall l', map snd l' = map at_ vs -> exists l, map snd l = vs /\ l' = lift l.
Proof.
  induction vs as [|v vs IH]; intros [|[c f] l'] H; try discriminate; [exists []; auto|].
  simpl in H. injection H as -> H. destruct (IH _ H) as (l & <- & ->). exists ((c, v) :: l). auto.
Qed.
Definition rows (d : nat) (vs : list (list Z)) : Prop := forall v, In v vs -> length v = d.
Lemma lc_cons c v l i : lc ((c, v) :: l) i = c * nth i v 0 + lc l i.
Proof. reflexivity. Qed.
Lemma lc_app a b i : lc (a ++ b) i = lc a i + lc b i.
Proof. unfold lc. rewrite map_app, zsum_app. auto. Qed.
Lemma lc_outside d l i : rows d (map snd l) -> (d <= i)%nat -> lc l i = 0.
Proof.
  intros R I. induction l as [|[c v] l IH]; [reflexivity|]. rewrite lc_cons, IH by (intros w W; apply R; right; auto).
  rewrite nth_overflow; [lia|]. rewrite (R v (or_introl eq_refl)). lia.
Qed.
Lemma lc_zero_coef l i : (forall p, In p l -> fst p = 0) -> lc l i = 0.
Proof. intros H. rewrite <- flc_lift. apply flc_zero_coef. intros p P. apply in_map_iff in P as (q & <- & Q). apply H; auto. Qed.
Lemma independent_iff d vs : rows d vs -> (independent vs <-> findep d (map at_ vs)).
Proof.
  intros R. split; intros I.
  - intros l' M E p P. destruct (lower M) as (l & L & ->). apply in_map_iff in P as (q & <- & Q). simpl. apply (I l L); auto.
    intro i. destruct (Nat.lt_ge_cases i d) as [H|H]; [rewrite <- flc_lift; auto|]. apply (lc_outside (d := d)); auto. rewrite L. auto.
  - intros l L E p P. change (fst p) with (fst (fst p, at_ (snd p))). apply (I (lift l)).
    + unfold lift. rewrite map_map. simpl. rewrite <- L, map_map. auto.
    + intros i _. rewrite flc_lift. auto.
    + apply (in_map (fun p => (fst p, at_ (snd p)))). auto.
Qed.
Lemma not_independent d vs : rows d vs -> ~ independent vs -> exists l, map snd l = vs /\ (forall i, lc l i = 0) /\ exists p, In p l /\ fst p <> 0.
Proof.
  intros R N. destruct (dep_dec d (map at_ vs)) as [I|(l' & M & E & p & P & NZ)]; [exfalso; apply N, (independent_iff R); auto|].
  destruct (lower M) as (l & L & ->). exists l. split; auto. split.
  - intro i. destruct (Nat.lt_ge_cases i d) as [H|H]; [rewrite <- flc_lift; auto|]. apply (lc_outside (d := d)); auto. rewrite L. auto.
  - apply in_map_iff in P as (q & <- & Q). exists q. auto.
Qed.
Lemma independent_dec d vs : rows d vs -> {independent vs} + {~ independent vs}.
Proof.
  intros R. destruct (dep_dec d (map at_ vs)) as [I|D]; [left; apply (independent_iff R); auto|right; intros I].
  apply (independent_iff R) in I. destruct D as (l & M & E & p & P & N). apply N, (I l); auto.
Qed.

(** The combinations of the rows, as functions. *)
Definition gen (vs : list (list Z)) (f : vec) : Prop := exists l, map snd l = vs /\ forall i, f i = lc l i.
Lemma gen_ext vs f g : (forall i, f i = g i) -> gen vs f -> gen vs g.
Proof. intros H (l & L & E). exists l. split; auto. intro i. rewrite <- H. auto. Qed.
Lemma gen_zero vs : gen vs (fun _ => 0).
Proof. exists (map (fun v => (0, v)) vs). split; [rewrite map_map; apply map_id|]. intro i. symmetry. apply lc_zero_coef. intros p P. apply in_map_iff in P as (q & <- & _). auto. Qed.
Lemma gen_comb vs x y f g : gen vs f -> gen vs g -> gen vs (fun i => x * f i + y * g i).
Proof.
  intros (l1 & L1 & E1) (l2 & L2 & E2).
  assert (C : forall l1 l2 : list (Z * list Z), map snd l1 = map snd l2 -> exists l3, map snd l3 = map snd l1 /\ forall i, lc l3 i = x * lc l1 i + y * lc l2 i).
  { clear. induction l1 as [|[a v] l1 IH]; intros [|[b w] l2] H; try discriminate; [exists []; split; auto; intros; unfold lc; simpl; lia|].
    simpl in H. injection H as <- H. destruct (IH _ H) as (l3 & X & Y). exists ((x * a + y * b, v) :: l3). split; [simpl; congruence|]. intro i. rewrite !lc_cons, Y. ring. }
  destruct (C l1 l2 ltac:(congruence)) as (l3 & X & Y). exists l3. split; [congruence|]. intro i. rewrite Y, E1, E2. auto.
Qed.
Lemma gen_cons v vs f : gen vs f -> gen (v :: vs) f.
Proof. intros (l & L & E). exists ((0, v) :: l). split; [simpl; congruence|]. intro i. rewrite lc_cons, E. lia. Qed.
Lemma gen_in vs v : In v vs -> gen vs (at_ v).
Proof.
  induction vs as [|w vs IH]; intros []; [|apply gen_cons; auto]. subst. destruct (gen_zero vs) as (l & L & E). exists ((1, v) :: l). split; [simpl; congruence|]. intro i. rewrite lc_cons, <- E. unfold at_. lia.
Qed.
Lemma gen_trans vs ws f : (forall w, In w ws -> gen vs (at_ w)) -> gen ws f -> gen vs f.
Proof.
  intros H (l & L & E). apply (gen_ext (f := lc l)); [auto|]. clear f E. subst ws. induction l as [|[c w] l IH]; [apply (gen_ext (f := fun _ => 0)); [reflexivity|apply gen_zero]|].
  apply (gen_ext (f := fun i => c * at_ w i + 1 * lc l i)); [intro i; rewrite lc_cons; unfold at_; lia|]. apply gen_comb; [apply H; left; auto|]. apply IH. intros u U. apply H. right. auto.
Qed.
Lemma gen_app vs ws f : gen vs f -> gen (vs ++ ws) f.
Proof. apply gen_trans. intros w W. apply gen_in, in_or_app. auto. Qed.

(** Vectors a multiple of which is a combination of the rows. *)
Definition spans (W : list (list Z)) (v : list Z) : Prop := exists c, c <> 0 /\ gen W (fun i => c * nth i v 0).
Lemma spans_gen W v : gen W (at_ v) -> spans W v.
Proof. intros G. exists 1. split; [lia|]. apply (gen_ext (f := at_ v)); auto. intro i. unfold at_. lia. Qed.
Lemma spans_app W X v : spans W v -> spans (W ++ X) v.
Proof. intros (c & C & G). exists c. split; auto. apply gen_app. auto. Qed.
Lemma exchange_rows d W vs : rows d vs -> independent vs -> (forall v, In v vs -> spans W v) -> (length vs <= length W)%nat.
Proof.
  intros R I S. destruct (Nat.le_gt_cases (length vs) (length W)) as [|L]; auto. exfalso.
  destruct (exchange (d := d) (W := map at_ W) (V := map at_ vs)) as (l & M & E & p & P & N).
  - intros v V. apply in_map_iff in V as (u & <- & U). destruct (S u U) as (c & C & l & M & E). exists c, (lift l). split; auto. split; [unfold lift; rewrite map_map; simpl; rewrite <- M, map_map; auto|]. intros i _. rewrite flc_lift. apply E.
  - rewrite !map_length. auto.
  - apply N. apply (independent_iff R) in I. apply (I l); auto.
Qed.
(** No more independent rows than components. *)
Lemma unit_rows d : forall v : list Z, length v = d -> gen (map (fun j => map (fun i => if Nat.eqb i j then 1 else 0) (seq 0 d)) (seq 0 d)) (at_ v).
Proof.
  intros v L. exists (map (fun j => (nth j v 0, map (fun i => if Nat.eqb i j then 1 else 0) (seq 0 d))) (seq 0 d)). split; [rewrite map_map; auto|]. intro i. unfold lc. rewrite map_map. simpl.
  assert (K : forall js, NoDup js -> (forall j, In j js -> (j < d)%nat) -> zsum (map (fun j => nth j v 0 * nth i (map (fun i => if Nat.eqb i j then 1 else 0) (seq 0 d)) 0) js) = if in_dec Nat.eq_dec i js then nth i v 0 else 0).
  { induction 1 as [|j js NI ND IH]; intros B; [reflexivity|]. simpl. rewrite IH by (intros; apply B; right; auto). 
    destruct (Nat.lt_ge_cases i d) as [H|H].
    - rewrite (nth_indep (map (fun i => if Nat.eqb i j then 1 else 0) (seq 0 d)) 0 (if Nat.eqb 0 j then 1 else 0)) by (rewrite map_length, seq_length; auto). rewrite (map_nth (fun i => if Nat.eqb i j then 1 else 0)), seq_nth by auto. simpl. destruct (Nat.eqb_spec i j) as [->|N].
      + destruct (Nat.eq_dec j j); [|congruence]. destruct (in_dec Nat.eq_dec j js); [contradiction|lia].
      + destruct (Nat.eq_dec j i); [congruence|]. destruct (in_dec Nat.eq_dec i js); lia.
    - rewrite (nth_overflow (map _ _)) by (rewrite map_length, seq_length; auto). specialize (B j (or_introl eq_refl)) as Bj. destruct (Nat.eq_dec j i); [lia|]. destruct (in_dec Nat.eq_dec i js); lia. }
  rewrite K; [|apply seq_NoDup|intros j J; apply in_seq in J; lia]. unfold at_. destruct (in_dec Nat.eq_dec i (seq 0 d)) as [|N]; auto. apply nth_overflow. rewrite L. destruct (Nat.lt_ge_cases i d); auto. exfalso. apply N, in_seq. lia.
Qed.
Lemma independent_bound d vs : rows d vs -> independent vs -> (length vs <= d)%nat.
Proof.
  intros R I. rewrite (exchange_rows (W := map (fun j => map (fun i => if Nat.eqb i j then 1 else 0) (seq 0 d)) (seq 0 d)) R I); [rewrite map_length, seq_length; auto|].
  intros v V. apply spans_gen, unit_rows, R. auto.
Qed.

(** Part of an independent table. *)
Lemma independent_sub (f : list Z -> bool) vs : independent vs -> independent (filter f vs).
Proof.
  intros I l L E p P.
  assert (X : forall vs l, map snd l = filter f vs -> exists l', map snd l' = vs /\ (forall i, lc l' i = lc l i) /\ forall p, In p l -> In p l').
  { clear. induction vs as [|v vs IH]; simpl; intros l L; [destruct l; [|discriminate]; exists []; auto|]. destruct (f v).
    - destruct l as [|[c w] l]; [discriminate|]. simpl in L. injection L as -> L. destruct (IH _ L) as (l' & A & B & C). exists ((c, v) :: l'). split; [simpl; congruence|]. split; [intro i; rewrite !lc_cons, B; auto|]. intros p [<-|P]; [left|right]; auto.
    - destruct (IH _ L) as (l' & A & B & C). exists ((0, v) :: l'). split; [simpl; congruence|]. split; [intro i; rewrite lc_cons, B; lia|]. intros p P; right; auto. }
  destruct (X vs l L) as (l' & A & B & C). apply (I l'); auto. intro i. rewrite B. auto.
Qed.
Lemma independent_nil : independent [].
Proof. intros [|] H; [intros _ p []|discriminate]. Qed.
(** A row that makes the table dependent is spanned by it. *)
Lemma rejected_spanned d vs u : rows d vs -> length u = d -> independent vs -> ~ independent (vs ++ [u]) -> spans vs u.
Proof.
  intros R U I N. destruct (not_independent (d := d) (vs := vs ++ [u])) as (l & L & E & p & P & NZ); auto.
  { intros v V. apply in_app_or in V as [V|[<-|[]]]; auto. }
  apply map_eq_app in L as (L1 & L2 & -> & <- & M). destruct L2 as [|[c w] [|? ?]]; try discriminate. simpl in M. injection M as ->.
  exists (- c). split.
  - intros C. assert (c = 0) by lia. subst c. apply in_app_or in P as [P|[<-|[]]]; [|apply NZ; auto]. apply NZ, (I L1); auto. intro i. specialize (E i). rewrite lc_app, lc_cons in E. unfold lc at 2 in E. simpl in E. lia.
  - exists L1. split; auto. intro i. specialize (E i). rewrite lc_app, lc_cons in E. unfold lc at 2 in E. simpl in E. lia.
Qed.
