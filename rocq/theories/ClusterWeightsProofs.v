(** Proofs for C103: products of site functions under a product measure. *)
From Verif Require Export ClusterWeightsSpec.
From Verif Require Import LibProofs Subspace EvaluatorProofs EvaluatorProps TensorProofs.
Set Implicit Arguments.
Unset Strict Implicit.
Open Scope nat_scope.

Lemma expect_ext mus : forall f g, (forall cs, codes_below (map (@length _) mus) cs -> f cs = g cs) -> expect mus f = expect mus g.
Proof.
  induction mus as [|mu mus IH]; intros f g H; cbn [expect].
  - apply H. constructor.
  - apply qsum_map_ext. intros c Hc. apply in_seq in Hc. f_equal. apply IH. intros cs Hcs. apply H. constructor; auto. lia.
Qed.
Lemma expect_add mus : forall f g, expect mus (fun cs => f cs + g cs)%Qc = (expect mus f + expect mus g)%Qc.
Proof.
  induction mus as [|mu mus IH]; intros f g; cbn [expect]; auto. rewrite <- qsum_map_add. apply qsum_map_ext.
  intros c _. rewrite (IH (fun cs => f (c :: cs)) (fun cs => g (c :: cs))). ring.
Qed.
Lemma expect_scale mus : forall k f, expect mus (fun cs => k * f cs)%Qc = (k * expect mus f)%Qc.
Proof.
  induction mus as [|mu mus IH]; intros k f; cbn [expect]; auto. rewrite <- qsum_map_scale. apply qsum_map_ext.
  intros c _. rewrite (IH k (fun cs => f (c :: cs))). ring.
Qed.
Lemma expect_zero mus : expect mus (fun _ => 0%Qc) = 0%Qc.
Proof. transitivity (0 * expect mus (fun _ => 0%Qc))%Qc; [|ring]. rewrite <- expect_scale. apply expect_ext. intros. ring. Qed.
Lemma expect_qsum {A} mus (F : A -> list nat -> Qc) l :
  expect mus (fun cs => qsum (map (fun x => F x cs) l)) = qsum (map (fun x => expect mus (F x)) l).
Proof. induction l as [|x l IH]; cbn [map qsum]; [apply expect_zero|]. rewrite <- IH. apply expect_add. Qed.

(** Sums of orthonormal terms. *)
Lemma FOP_app {A} (R : A -> A -> Prop) l1 l2 : ForallOrdPairs R l1 -> ForallOrdPairs R l2 ->
  (forall x y, In x l1 -> In y l2 -> R x y) -> ForallOrdPairs R (l1 ++ l2).
Proof.
  induction 1 as [|a l1 H1 H IH]; intros H2 Hc; simpl; auto. constructor.
  - apply Forall_app. split; auto. apply Forall_forall. intros y Hy. apply Hc; simpl; auto.
  - apply IH; auto. intros; apply Hc; simpl; auto.
Qed.
Lemma FOP_flat_map {A B} (R : B -> B -> Prop) (f : A -> list B) l :
  ForallOrdPairs (fun a b => forall x y, In x (f a) -> In y (f b) -> R x y) l ->
  (forall a, In a l -> ForallOrdPairs R (f a)) -> ForallOrdPairs R (flat_map f l).
Proof.
  induction 1 as [|a l H1 H IH]; intros Hf; cbn [flat_map]; [constructor|]. apply FOP_app.
  - apply Hf; simpl; auto.
  - apply IH. intros; apply Hf; simpl; auto.
  - intros x y Hx Hy. apply in_flat_map in Hy as (b & Hb & Hy). rewrite Forall_forall in H1. eapply H1; eauto.
Qed.
Lemma orthonormal_sum {A} mus (F : A -> list nat -> Qc) (k : A -> Qc) l :
  (forall x, In x l -> expect mus (fun cs => F x cs * F x cs)%Qc = 1%Qc) ->
  ForallOrdPairs (fun x y => expect mus (fun cs => F x cs * F y cs)%Qc = 0%Qc) l ->
  expect mus (fun cs => qsum (map (fun x => k x * F x cs) l) * qsum (map (fun x => k x * F x cs) l))%Qc =
  qsum (map (fun x => k x * k x)%Qc l).
Proof.
  intros H1 H2. induction H2 as [|a l Ha H2 IH]; cbn [map qsum].
  - transitivity (expect mus (fun _ => 0%Qc)); [apply expect_ext; intros; ring|apply expect_zero].
  - rewrite <- IH by (intros; apply H1; simpl; auto).
    transitivity (expect mus (fun cs => (k a * k a) * (F a cs * F a cs) +
       ((k a + k a) * qsum (map (fun x => k x * (F a cs * F x cs)) l) +
        qsum (map (fun x => k x * F x cs) l) * qsum (map (fun x => k x * F x cs) l)))%Qc).
    { apply expect_ext. intros cs _.
      replace (qsum (map (fun x => k x * (F a cs * F x cs)) l))%Qc with (F a cs * qsum (map (fun x => k x * F x cs) l))%Qc; [ring|].
      rewrite <- qsum_map_scale. apply qsum_map_ext. intros x _. ring. }
    rewrite expect_add, expect_scale, H1 by (simpl; auto).
    rewrite (expect_add mus (fun cs => (k a + k a) * qsum (map (fun x => k x * (F a cs * F x cs)) l))%Qc
       (fun cs => qsum (map (fun x => k x * F x cs) l) * qsum (map (fun x => k x * F x cs) l))%Qc).
    rewrite expect_scale, (expect_qsum mus (fun x cs => k x * (F a cs * F x cs))%Qc).
    rewrite qsum_map_0; [ring|]. intros x Hx. rewrite expect_scale. rewrite Forall_forall in Ha. rewrite (Ha x Hx). ring.
Qed.

(** Products with one factor per site. *)
Fixpoint prods (gs : list (nat -> Qc)) (cs : list nat) : Qc :=
  match gs, cs with g :: gs', c :: cs' => (g c * prods gs' cs')%Qc | _, _ => 1%Qc end.
Lemma expect_prods mus : forall gs, length gs = length mus ->
  expect mus (prods gs) = fold_right Qcmult 1%Qc (map (fun p => site_mean (fst p) (snd p)) (combine mus gs)).
Proof.
  induction mus as [|mu mus IH]; intros [|g gs] L; try discriminate; cbn [expect combine map fold_right fst snd]; auto.
  rewrite <- IH by (simpl in L; lia). unfold site_mean. rewrite <- qsum_map_scale_r. apply qsum_map_ext. intros c _.
  cbn [prods]. rewrite expect_scale. ring.
Qed.
Fixpoint gmul (gs hs : list (nat -> Qc)) : list (nat -> Qc) :=
  match gs, hs with g :: gs', h :: hs' => (fun c => g c * h c)%Qc :: gmul gs' hs' | _, _ => [] end.
Lemma prods_mul gs : forall hs cs, length gs = length hs -> (prods gs cs * prods hs cs = prods (gmul gs hs) cs)%Qc.
Proof.
  induction gs as [|g gs IH]; intros [|h hs] cs L; try discriminate; cbn [prods gmul]; [ring|].
  destruct cs as [|c cs]; [ring|]. rewrite <- IH by (simpl in L; lia). ring.
Qed.

(** Labels: which function of a site, if any. *)
Definition labf (B : list (list Qc)) (x : option nat) (c : nat) : Qc :=
  match x with Some b => nth c (nth b B []) 0%Qc | None => 1%Qc end.
Fixpoint labs (Bs : list (list (list Qc))) (ls : list (option nat)) : list (nat -> Qc) :=
  match Bs, ls with B :: Bs', x :: ls' => labf B x :: labs Bs' ls' | _, _ => [] end.
Definition lab_ok (B : list (list Qc)) (x : option nat) : Prop := match x with Some b => b < length B | None => True end.
Definition onat_eq_dec (x y : option nat) : {x = y} + {x <> y}.
Proof. decide equality. apply Nat.eq_dec. Defined.

Lemma site_mean_one mu : qsum mu = 1%Qc -> site_mean mu (fun _ => 1%Qc) = 1%Qc.
Proof.
  intros H. transitivity (qsum mu); [clear H|exact H]. unfold site_mean. f_equal. apply (nth_ext _ _ 0%Qc 0%Qc); [rewrite map_length, seq_length; auto|].
  intros i Hi. rewrite map_length, seq_length in Hi.
  apply nth_error_nth. rewrite nth_error_map, (nth_error_nth' _ 0) by (rewrite seq_length; auto). rewrite seq_nth by auto. cbn [option_map Nat.add]. f_equal. apply Qcmult_1_r.
Qed.
Lemma site_mean_ext mu f g : (forall c, f c = g c) -> site_mean mu f = site_mean mu g.
Proof. intros H. apply qsum_map_ext. intros c _. rewrite H. auto. Qed.
Lemma lab_mean mu B x y : orthonormal mu B -> lab_ok B x -> lab_ok B y ->
  site_mean mu (fun c => labf B x c * labf B y c)%Qc = if onat_eq_dec x y then 1%Qc else 0%Qc.
Proof.
  intros HO Hx Hy. destruct x as [b|], y as [b'|]; cbn [labf lab_ok] in *.
  - rewrite (@on_prod _ _ HO b b' (nth b B []) (nth b' B [])) by (apply nth_error_nth'; auto).
    destruct (onat_eq_dec (Some b) (Some b')) as [[= ->]|N]; [rewrite Nat.eqb_refl; auto|].
    destruct (Nat.eqb_spec b b'); [congruence|auto].
  - rewrite (@site_mean_ext mu _ (fun c => nth c (nth b B []) 0%Qc)) by (intros; ring).
    rewrite (@on_mean _ _ HO b) by (apply nth_error_nth'; auto). destruct (onat_eq_dec (Some b) None); [discriminate|auto].
  - rewrite (@site_mean_ext mu _ (fun c => nth c (nth b' B []) 0%Qc)) by (intros; ring).
    rewrite (@on_mean _ _ HO b') by (apply nth_error_nth'; auto). destruct (onat_eq_dec None (Some b')); [discriminate|auto].
  - rewrite (@site_mean_ext mu _ (fun _ => 1%Qc)) by (intros; ring). rewrite site_mean_one by (apply (on_total HO)).
    destruct (onat_eq_dec None None); [auto|congruence].
Qed.
Lemma labs_length Bs ls : length ls = length Bs -> length (labs Bs ls) = length Bs.
Proof. revert ls. induction Bs as [|B Bs IH]; intros [|x ls] L; try discriminate; auto. simpl in *. rewrite IH; auto. Qed.

Lemma labs_orth mus Bs : Forall2 orthonormal mus Bs -> forall ls ls', Forall2 lab_ok Bs ls -> Forall2 lab_ok Bs ls' ->
  expect mus (fun cs => prods (labs Bs ls) cs * prods (labs Bs ls') cs)%Qc =
  if list_eq_dec onat_eq_dec ls ls' then 1%Qc else 0%Qc.
Proof.
  intros H ls ls' H1 H2.
  assert (LB : length mus = length Bs) by (eapply Forall2_length; eauto).
  assert (L1 : length ls = length Bs) by (symmetry; eapply Forall2_length; eauto).
  assert (L2 : length ls' = length Bs) by (symmetry; eapply Forall2_length; eauto).
  rewrite (@expect_ext mus _ (prods (gmul (labs Bs ls) (labs Bs ls')))).
  2:{ intros cs _. apply prods_mul. rewrite !labs_length; auto. }
  rewrite expect_prods.
  2:{ rewrite LB. clear - L1 L2. revert ls ls' L1 L2. induction Bs; intros [|x ls] [|y ls'] L1 L2; try discriminate; simpl in *; auto. }
  clear LB L1 L2. revert ls ls' H1 H2. induction H as [|mu B mus Bs HO H IH]; intros ls ls' H1 H2.
  - inversion H1; inversion H2; subst. simpl. destruct (list_eq_dec onat_eq_dec [] []); [auto|congruence].
  - inversion H1 as [|? x ? ls1 Hx H1']; subst. inversion H2 as [|? y ? ls2 Hy H2']; subst.
    cbn [labs gmul combine map fold_right fst snd]. rewrite (IH _ _ H1' H2'), (lab_mean HO Hx Hy).
    destruct (onat_eq_dec x y) as [->|N].
    + destruct (list_eq_dec onat_eq_dec ls1 ls2) as [->|N2]; destruct (list_eq_dec onat_eq_dec (y :: _) _) as [E|N3]; try ring; congruence.
    + destruct (list_eq_dec onat_eq_dec (x :: ls1) (y :: ls2)) as [E|N3]; [congruence|ring].
Qed.
Lemma prods_none Bs : forall cs, prods (labs Bs (repeat None (length Bs))) cs = 1%Qc.
Proof. induction Bs as [|B Bs IH]; intros cs; cbn; auto. destruct cs; auto. rewrite IH. ring. Qed.
Lemma labs_mean mus Bs ls : Forall2 orthonormal mus Bs -> Forall2 lab_ok Bs ls -> (exists b, In (Some b) ls) ->
  expect mus (prods (labs Bs ls)) = 0%Qc.
Proof.
  intros H H1 (b & Hb).
  assert (L : length ls = length Bs) by (symmetry; eapply Forall2_length; eauto).
  rewrite (@expect_ext mus _ (fun cs => prods (labs Bs ls) cs * prods (labs Bs (repeat None (length Bs))) cs)%Qc).
  2:{ intros cs _. rewrite prods_none. ring. }
  rewrite (labs_orth H H1).
  - destruct (list_eq_dec _ _ _) as [E|]; auto. rewrite E in Hb. apply repeat_spec in Hb. discriminate.
  - clear. induction Bs; constructor; simpl; auto.
Qed.

(** ** One cluster *)
Lemma bprod_labs basis : forall bits codes, bits_in basis bits -> length codes = length basis ->
  bprod basis bits codes = prods (labs basis (map Some bits)) codes.
Proof.
  unfold bprod. intros bits codes H. revert codes. induction H as [|B b basis bits Hb H IH]; intros codes L.
  - cbn. destruct codes; auto.
  - destruct codes as [|c codes]; [discriminate|]. specialize (IH codes (f_equal pred L)). cbn [pick_rows map labs prods labf].
    destruct (nth_error B b) as [r|] eqn:E; [|apply nth_error_None in E; lia]. cbn [option_bind].
    rewrite (nth_error_nth _ _ _ E).
    destruct (pick_rows basis bits) as [rs|] eqn:Er; cbn [option_bind rprod]; [rewrite IH; auto|].
    exfalso. clear - H Er. revert Er. induction H as [|B b basis bits Hb H IH]; cbn [pick_rows]; [discriminate|].
    destruct (nth_error B b) eqn:E; [|apply nth_error_None in E; lia]. cbn [option_bind].
    destruct (pick_rows basis bits); [discriminate|auto].
Qed.

Lemma nth_error_same {A} (l l' : list A) : (forall k, nth_error l k = nth_error l' k) -> l = l'.
Proof.
  revert l'. induction l as [|x l IH]; intros [|y l'] H; auto.
  - specialize (H 0); discriminate.
  - specialize (H 0); discriminate.
  - pose proof (H 0) as H0. simpl in H0. inversion H0; subst. f_equal. apply IH. intros k. apply (H (S k)).
Qed.

(** ** Clusters of a supercell *)
Definition lookup (s : nat) (ps : list (nat * nat)) : option nat := option_map snd (find (fun p => fst p =? s) ps).
Definition cluster_labels (N : nat) (row bits : list nat) : list (option nat) := map (fun s => lookup s (combine row bits)) (seq 0 N).

Definition qprod (l : list Qc) : Qc := fold_right Qcmult 1%Qc l.
Lemma prods_seq (fs : nat -> list (list Qc)) (g : nat -> option nat) : forall n cs a, length cs = n ->
  prods (labs (map fs (seq a n)) (map g (seq a n))) cs = qprod (map (fun i => labf (fs (a + i)) (g (a + i)) (nth i cs 0)) (seq 0 n)).
Proof.
  induction n as [|n IH]; intros cs a L; [destruct cs; reflexivity|]. destruct cs as [|c cs]; [discriminate|].
  cbn [seq map labs prods qprod fold_right nth]. rewrite IH by (simpl in L; lia). rewrite Nat.add_0_r. f_equal.
  rewrite <- seq_shift, map_map. unfold qprod. f_equal. apply map_ext. intros i. cbn [nth]. rewrite Nat.add_succ_r. auto.
Qed.
Lemma qprod_one {A} (f g : A -> Qc) l r : NoDup l -> In r l -> (forall s, s <> r -> f s = g s) -> g r = 1%Qc ->
  qprod (map f l) = (f r * qprod (map g l))%Qc.
Proof.
  induction l as [|x l IH]; intros Hnd Hin He Hg; [destruct Hin|]. inversion Hnd as [|? ? Hn Hnd']; subst.
  cbn [map qprod fold_right]. destruct Hin as [->|Hin].
  - rewrite Hg. replace (fold_right Qcmult 1%Qc (map f l)) with (fold_right Qcmult 1%Qc (map g l)); [ring|].
    f_equal. apply map_ext_in. intros s Hs. symmetry. apply He. intros ->. auto.
  - unfold qprod in IH. rewrite (IH Hnd' Hin He Hg). rewrite He; [ring|]. intros ->. auto.
Qed.
Lemma lookup_absent s ps : ~ In s (map fst ps) -> lookup s ps = None.
Proof.
  unfold lookup. induction ps as [|(x & b) ps IH]; simpl; auto. intros N. destruct (Nat.eqb_spec x s) as [->|]; [tauto|]. apply IH. tauto.
Qed.
Lemma lookup_present s ps : In s (map fst ps) -> lookup s ps <> None.
Proof.
  unfold lookup. induction ps as [|(x & b) ps IH]; simpl; [tauto|]. destruct (Nat.eqb_spec x s) as [->|N]; [discriminate|]. intros [->|H]; [congruence|auto].
Qed.
Lemma fst_combine {A B} (l : list A) (l' : list B) : length l = length l' -> map fst (combine l l') = l.
Proof. revert l'. induction l as [|x l IH]; intros [|y l'] L; try discriminate; auto. simpl. rewrite IH; auto. Qed.

Lemma cluster_bprod N (fs : nat -> list (list Qc)) row : forall bits occu, NoDup row -> (forall s, In s row -> s < N) ->
  bits_in (map fs row) bits -> length occu = N ->
  bprod (map fs row) bits (map (fun s => nth s occu 0) row) = prods (labs (map fs (seq 0 N)) (cluster_labels N row bits)) occu.
Proof.
  intros bits occu Hnd HN Hb L. rewrite bprod_labs by (auto; rewrite !map_length; auto).
  unfold cluster_labels. rewrite (prods_seq fs (fun s => lookup s (combine row bits)) 0 L). cbn [Nat.add].
  revert bits Hb. induction row as [|r row IH]; intros bits Hb.
  - cbn [combine map labs prods]. symmetry. clear. induction (seq 0 N) as [|x l IHl]; cbn; auto. unfold qprod in IHl. cbn in IHl. rewrite IHl. ring.
  - inversion Hnd as [|? ? Hn Hnd']; subst. cbn [map] in Hb. inversion Hb as [|? b ? bits' Hlt Hb']; subst.
    assert (Lb : length row = length bits').
    { apply Forall2_length in Hb'. rewrite map_length in Hb'. auto. }
    cbn [map labs prods]. rewrite (IH Hnd' (fun s H => HN s (or_intror H)) bits' Hb').
    rewrite (@qprod_one _ (fun s => labf (fs s) (lookup s (combine (r :: row) (b :: bits'))) (nth s occu 0))
        (fun s => labf (fs s) (lookup s (combine row bits')) (nth s occu 0)) (seq 0 (length occu)) r).
    + f_equal. unfold lookup. cbn [combine find fst]. rewrite Nat.eqb_refl. reflexivity.
    + apply seq_NoDup.
    + apply in_seq. specialize (HN r (or_introl eq_refl)). lia.
    + intros s Hs. unfold lookup. cbn [combine find fst]. destruct (Nat.eqb_spec r s); [congruence|auto].
    + rewrite lookup_absent; auto. rewrite fst_combine; auto.
Qed.
Lemma lookup_bits ps : NoDup (map fst ps) -> forall s b, In (s, b) ps -> lookup s ps = Some b.
Proof.
  unfold lookup. induction ps as [|(x & y) ps IH]; intros Hnd s b H; [destruct H|]. simpl in Hnd. inversion Hnd as [|? ? Hn Hnd']; subst.
  cbn [find fst]. destruct H as [[= -> ->]|H]; [rewrite Nat.eqb_refl; auto|].
  destruct (Nat.eqb_spec x s) as [->|]; [|apply IH; auto]. exfalso. apply Hn. change s with (fst (s, b)). apply in_map. auto.
Qed.
Lemma cluster_labels_ok N fs row bits : (forall s, In s row -> s < N) -> NoDup row -> bits_in (map fs row) bits ->
  Forall2 lab_ok (map fs (seq 0 N)) (cluster_labels N row bits).
Proof.
  intros HN Hnd Hb. unfold cluster_labels. generalize (seq 0 N) as l. clear HN. intros l. induction l as [|s l IH]; cbn [map]; constructor; auto.
  destruct (lookup s (combine row bits)) as [b|] eqn:E; simpl; auto. unfold lookup in E.
  destruct (find _ _) as [p|] eqn:F; [|discriminate]. injection E as <-. apply find_some in F as (Hin & Hs). apply Nat.eqb_eq in Hs. subst s.
  clear - Hin Hb. revert bits Hb Hin. induction row as [|r row IH]; intros bits Hb Hin; [destruct Hin|]. cbn [map] in Hb.
  inversion Hb as [|? b ? bits' Hlt Hb']; subst. destruct Hin as [<-|Hin]; auto. eapply IH; eauto.
Qed.
Lemma labels_sites N row bits row' bits' : (forall s, In s row -> s < N) -> (forall s, In s row' -> s < N) ->
  length bits = length row -> length bits' = length row' -> different_sites row row' ->
  cluster_labels N row bits <> cluster_labels N row' bits'.
Proof.
  intros H1 H2 L L' (s & D) E.
  assert (Es : s < N -> lookup s (combine row bits) = lookup s (combine row' bits')).
  { intros Hs. unfold cluster_labels in E. apply (f_equal (fun l => nth_error l s)) in E. rewrite !nth_error_map in E.
    rewrite (nth_error_nth' (seq 0 N) 0) in E by (rewrite seq_length; auto). rewrite seq_nth in E by auto. simpl in E. congruence. }
  destruct D as [(A & B)|(A & B)].
  - specialize (Es (H1 s A)). rewrite (@lookup_absent s (combine row' bits')) in Es by (rewrite fst_combine; auto).
    apply (@lookup_present s (combine row bits)); [rewrite fst_combine; auto|auto].
  - specialize (Es (H2 s B)). rewrite (@lookup_absent s (combine row bits)) in Es by (rewrite fst_combine; auto).
    apply (@lookup_present s (combine row' bits')); [rewrite fst_combine; auto|auto].
Qed.
Lemma labels_bits N row bits bits' : (forall s, In s row -> s < N) -> NoDup row -> length bits = length row -> length bits' = length row ->
  bits <> bits' -> cluster_labels N row bits <> cluster_labels N row bits'.
Proof.
  intros HN Hnd L L' D E. apply D. apply nth_error_same. intros i.
  destruct (nth_error row i) as [s|] eqn:Es.
  - assert (Hs : s < N) by (apply HN; eapply nth_error_In; eauto).
    unfold cluster_labels in E. apply (f_equal (fun l => nth_error l s)) in E. rewrite !nth_error_map in E.
    rewrite (nth_error_nth' (seq 0 N) 0) in E by (rewrite seq_length; auto). rewrite seq_nth in E by auto. cbn [option_map Nat.add] in E.
    assert (Hi : i < length row) by (apply nth_error_Some; congruence).
    assert (X : forall bs, length bs = length row -> nth_error bs i = lookup s (combine row bs)).
    { intros bs Lb. destruct (nth_error bs i) as [b|] eqn:Eb; [|apply nth_error_None in Eb; lia]. symmetry. apply lookup_bits.
      - rewrite fst_combine; auto.
      - clear - Es Eb. revert bs i Es Eb. induction row as [|r row IH]; intros [|b0 bs] [|i] Es Eb; simpl in *; try discriminate.
        + left. congruence.
        + right. eapply IH; eauto. }
    rewrite (X bits L), (X bits' L'). congruence.
  - apply nth_error_None in Es. transitivity (@None nat); [|symmetry]; apply nth_error_None; lia.
Qed.
