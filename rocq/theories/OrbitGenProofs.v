(** Proofs about the geometry of orbits. *)
From Verif Require Import LibProofs SublatticeProofs OrbitGenSpec OrbitProps.
From Coq Require Import Lia Permutation.
Set Implicit Arguments.
Unset Strict Implicit.
Local Open Scope Qc_scope.

(** ** Lattice vectors *)
Definition zadd (s t : list Z) : list Z := map (fun p => (fst p + snd p)%Z) (combine s t).
Definition zneg (t : list Z) : list Z := map Z.opp t.
Lemma length_zadd s t : length s = length t -> length (zadd s t) = length t.
Proof. intros H. unfold zadd. rewrite map_length, combine_length. lia. Qed.
Lemma length_zneg t : length (zneg t) = length t.
Proof. apply map_length. Qed.
Lemma length_shift x t : length x = length t -> length (shift x t) = length x.
Proof. intros H. unfold shift, qvadd. apply length_qmap2. rewrite map_length. auto. Qed.
Lemma comp_shift x t j : length x = length t -> comp (shift x t) j = comp x j + Qc_of_Z (nth j t 0%Z).
Proof. intros H. unfold shift. rewrite nth_qvadd by (rewrite map_length; auto). rewrite nth_of_Z. auto. Qed.
Lemma nth_zadd s : forall t j, length s = length t -> nth j (zadd s t) 0%Z = (nth j s 0 + nth j t 0)%Z.
Proof. unfold zadd. induction s as [|a s IH]; intros [|b t] [|j] H; simpl in *; try discriminate; auto. Qed.
Lemma nth_zneg t j : nth j (zneg t) 0%Z = (- nth j t 0)%Z.
Proof. unfold zneg. change 0%Z with (- 0)%Z at 1. rewrite map_nth. auto. Qed.
Lemma shift_shift x s t : length x = length s -> length s = length t -> shift (shift x s) t = shift x (zadd s t).
Proof.
  intros H1 H2. apply vec_ext; [rewrite !length_shift; rewrite ?length_zadd, ?length_shift; congruence|]. intros j _.
  rewrite !comp_shift by (rewrite ?length_zadd, ?length_shift; congruence). rewrite nth_zadd by auto. rewrite Qc_of_Z_add. ring.
Qed.
Lemma shift_0 x dim : length x = dim -> shift x (repeat 0%Z dim) = x.
Proof.
  intros H. apply vec_ext; [rewrite length_shift; rewrite ?repeat_length; auto|]. intros j _. rewrite comp_shift by (rewrite repeat_length; auto).
  rewrite nth_repeat. change (Qc_of_Z 0) with 0. ring.
Qed.
Lemma shift_back x t : length x = length t -> shift (shift x t) (zneg t) = x.
Proof.
  intros H. rewrite shift_shift by (rewrite ?length_zneg; auto). apply vec_ext; [rewrite length_shift; rewrite ?length_zadd, ?length_zneg; auto; rewrite length_zneg; auto|].
  intros j _. rewrite comp_shift by (rewrite length_zadd, length_zneg; auto; rewrite length_zneg; auto). rewrite nth_zadd by (rewrite length_zneg; auto).
  rewrite nth_zneg, Z.add_opp_diag_r. change (Qc_of_Z 0) with 0. ring.
Qed.
Lemma shift_inj x y t : length x = length t -> length y = length t -> shift x t = shift y t -> x = y.
Proof. intros H1 H2 E. rewrite <- (shift_back H1), <- (shift_back H2), E. auto. Qed.

Lemma perm_eq {A} (l m : list A) : l = m -> Permutation l m.
Proof. intros ->. auto. Qed.

Section Crystal.
Variables (dim : nat) (tol : Qc) (G : list (list Qc)) (sites : list (list Qc)) (ops : list symop).
Hypothesis CR : crystal dim tol G sites ops.
Notation site := (site dim sites).
Notation is_site := (is_site dim sites).
Notation site_cluster := (site_cluster dim sites).
Notation related := (related dim ops).
Notation moved := (moved dim).
Notation same_op := (same_op dim sites).

Lemma site_len x : site x -> length x = dim.
Proof. intros (i & s & t & E & L & ->). pose proof (cr_dim CR (nth_error_In _ _ E)). rewrite length_shift; congruence. Qed.
Lemma is_site_shift i x t : is_site i x -> length t = dim -> is_site i (shift x t).
Proof.
  intros (s & u & E & L & ->) Lt. exists s, (zadd u t). pose proof (cr_dim CR (nth_error_In _ _ E)).
  split; auto. split; [rewrite length_zadd; congruence|]. apply shift_shift; congruence.
Qed.
Lemma site_shift x t : site x -> length t = dim -> site (shift x t).
Proof. intros (i & H) L. exists i. apply is_site_shift; auto. Qed.
Lemma close_eq x y : site x -> site y -> (forall j, (j < dim)%nat -> within tol (comp x j) (comp y j)) -> x = y.
Proof.
  intros Hx Hy W. apply (cr_sep CR); auto. intros j Hj. destruct (W j Hj) as [W1 W2]. destruct (cr_tol CR) as [T _]. split; qclra.
Qed.
Lemma closeb_eq x y : site x -> site y -> (close tol x y = true <-> x = y).
Proof.
  intros Hx Hy. rewrite (@close_iff tol dim) by (apply site_len; auto). split; [apply close_eq; auto|]. intros <- j _.
  destruct (cr_tol CR) as [T _]. split; qclra.
Qed.

(** ** Clusters of sites *)
Lemma sc_points A : site_cluster A -> points dim A.
Proof. intros (N & _ & H). split; auto. intros x Hx. apply site_len; auto. Qed.
Lemma sc_separated A : site_cluster A -> separated tol dim A.
Proof.
  intros (_ & N & H) i k x y Ei Ek D.
  destruct (List.Forall_dec (fun j => within (tol + tol) (comp x j) (comp y j))) with (l := seq 0 dim) as [F|F].
  { intros j. unfold within. destruct (Qclt_le_dec (- (tol + tol)) (comp x j - comp y j)) as [|L]; [|right; intros [? ?]; qclra].
    destruct (Qclt_le_dec (comp x j - comp y j) (tol + tol)) as [|L]; [left; auto|right; intros [? ?]; qclra]. }
  - exfalso. apply D. assert (x = y). { apply (cr_sep CR); try (apply H; eapply nth_error_In; eauto). intros j Hj. rewrite Forall_forall in F. apply F. apply in_seq. lia. }
    subst y. rewrite NoDup_nth_error in N. apply N; [apply nth_error_Some|]; congruence.
  - apply neg_Forall_Exists_neg in F.
    + apply Exists_exists in F as (j & Hj & W). exists j. split; auto. apply in_seq in Hj. lia.
    + intros j. unfold within. destruct (Qclt_le_dec (- (tol + tol)) (comp x j - comp y j)) as [|L]; [|right; intros [? ?]; qclra].
      destruct (Qclt_le_dec (comp x j - comp y j) (tol + tol)) as [|L]; [left; auto|right; intros [? ?]; qclra].
Qed.
Lemma sc_translate A t : site_cluster A -> length t = dim -> site_cluster (translate t A).
Proof.
  intros (N & D & H) Lt. split; [destruct A; [congruence|discriminate]|]. split.
  - unfold translate. clear N. induction D as [|x A Hx D IH]; simpl; constructor; [|apply IH; intros; apply H; right; auto].
    intros I. apply in_map_iff in I as (y & E & Hy). apply Hx. replace x with y; auto.
    apply (@shift_inj y x t); try (rewrite Lt; apply site_len; apply H; simpl; auto); auto.
  - intros x Hx. apply in_map_iff in Hx as (y & <- & Hy). apply site_shift; auto.
Qed.
Lemma sc_perm A B : site_cluster A -> Permutation A B -> site_cluster B.
Proof.
  intros (N & D & H) P. split; [|split].
  - intros ->. apply Permutation_sym, Permutation_nil in P. auto.
  - eapply Permutation_NoDup; eauto.
  - intros x Hx. apply H. eapply Permutation_in; [apply Permutation_sym; eauto|auto].
Qed.
Lemma op_inj g x y : In g ops -> site x -> site y -> operate g x = operate g y -> x = y.
Proof.
  intros Hg Hx Hy E. destruct (cr_inv CR Hg) as (h & Hh & t & Lt & Ht). pose proof (Ht x Hx) as E1. pose proof (Ht y Hy) as E2. cbn beta in *.
  rewrite E in E1. apply (@shift_inj x y t); try (rewrite Lt; apply site_len; auto). congruence.
Qed.
Lemma sc_image A g : In g ops -> site_cluster A -> site_cluster (map (operate g) A).
Proof.
  intros Hg (N & D & H). split; [destruct A; [congruence|discriminate]|]. split.
  - clear N. induction D as [|x A Hx D IH]; simpl; constructor; [|apply IH; intros; apply H; right; auto].
    intros I. apply in_map_iff in I as (y & E & Hy). apply Hx. replace x with y; auto. apply (@op_inj g); auto; apply H; simpl; auto.
  - intros x Hx. apply in_map_iff in Hx as (y & <- & Hy). apply (cr_op CR); auto.
Qed.
Lemma map_shift_op g t A : map (fun x => shift (operate g x) t) A = translate t (map (operate g) A).
Proof. unfold translate. rewrite map_map. auto. Qed.

Lemma moved_refl A : site_cluster A -> moved A A.
Proof.
  intros S. exists (repeat 0%Z dim). split; [apply repeat_length|]. apply perm_eq. symmetry. transitivity (map (fun x => x) A); [|apply map_id].
  apply map_ext_in. intros x Hx. change (shift x (repeat 0%Z dim) = x). apply shift_0. apply site_len. apply S; auto.
Qed.
Lemma translate_back A t : length t = dim -> (forall x, In x A -> site x) -> translate (zneg t) (translate t A) = A.
Proof.
  intros Lt H. unfold translate. rewrite map_map. transitivity (map (fun x => x) A); [|apply map_id]. apply map_ext_in. intros x Hx.
  change (shift (shift x t) (zneg t) = x). apply shift_back. rewrite Lt. apply site_len; auto.
Qed.
Lemma translate_add A s t : length s = dim -> length t = dim -> (forall x, In x A -> site x) -> translate t (translate s A) = translate (zadd s t) A.
Proof.
  intros Ls Lt H. unfold translate. rewrite map_map. apply map_ext_in. intros x Hx.
  change (shift (shift x s) t = shift x (zadd s t)). apply shift_shift; try congruence. rewrite Ls. apply site_len; auto.
Qed.
Lemma moved_sym A B : (forall x, In x B -> site x) -> moved A B -> moved B A.
Proof.
  intros H (t & Lt & P). exists (zneg t). split; [rewrite length_zneg; auto|]. apply Permutation_sym.
  apply (Permutation_map (fun x => qvadd x (map Qc_of_Z (zneg t)))) in P. change (Permutation (translate (zneg t) A) (translate (zneg t) (translate t B))) in P.
  rewrite translate_back in P; auto.
Qed.
Lemma moved_trans A B C : (forall x, In x C -> site x) -> moved A B -> moved B C -> moved A C.
Proof.
  intros H (t & Lt & P) (s & Ls & Q). exists (zadd s t). split; [rewrite length_zadd; congruence|]. eapply perm_trans; [exact P|].
  rewrite <- translate_add; auto. apply Permutation_map. auto.
Qed.
Lemma moved_len A B : moved A B -> length A = length B.
Proof. intros (t & _ & P). apply Permutation_length in P. rewrite P. apply map_length. Qed.
Lemma related_moved A B : related A B <-> exists g, In g ops /\ moved A (map (operate g) B).
Proof.
  split.
  - intros (g & t & Hg & Lt & P). rewrite map_shift_op in P. exists g. split; auto. exists t. auto.
  - intros (g & Hg & t & Lt & P). exists g, t. rewrite map_shift_op. auto.
Qed.
Lemma related_len A B : related A B -> length A = length B.
Proof. intros H. apply related_moved in H as (g & _ & M). apply moved_len in M. rewrite M. apply map_length. Qed.

(** *** Comparison of clusters of sites *)
Lemma eq_moved A B a b : site_cluster A -> site_cluster B -> mk_cluster dim A = Some a -> mk_cluster dim B = Some b ->
  (cluster_eq tol a b = true <-> moved A B).
Proof.
  intros SA SB Ha Hb. destruct (cr_tol CR) as [T0 T1]. rewrite (C57_equal_iff T1 (sc_separated SA) Ha Hb). split.
  - intros (L & t & Lt & C). exists t. split; auto. apply NoDup_Permutation_bis; [apply SA|unfold translate; rewrite map_length; lia|].
    intros x Hx. destruct (C x Hx) as (y & Hy & W). apply in_map_iff. exists y. split; auto. symmetry. apply close_eq; [apply SA; auto|apply site_shift; auto; apply SB; auto|].
    intros j Hj. change (qvadd y (map Qc_of_Z t)) with (shift y t). rewrite comp_shift; auto. rewrite Lt. apply site_len. apply SB; auto.
  - intros M. split; [apply moved_len; auto|]. destruct M as (t & Lt & P). exists t. split; auto. intros x Hx.
    assert (I : In x (translate t B)) by (eapply Permutation_in; eauto). apply in_map_iff in I as (y & <- & Hy). exists y. split; auto. intros j Hj.
    change (qvadd y (map Qc_of_Z t)) with (shift y t). rewrite comp_shift by (rewrite Lt; apply site_len; apply SB; auto). split; qclra.
Qed.
(** A cluster that was made from sites. *)
Definition proper (c : cluster) : Prop := exists A, site_cluster A /\ mk_cluster dim A = Some c.
Lemma mk_proper A : site_cluster A -> exists c, mk_cluster dim A = Some c /\ proper c.
Proof. intros S. destruct (mk_total (sc_points S)) as (c & E). exists c. split; auto. exists A. auto. Qed.
Lemma mk_coords A c : site_cluster A -> mk_cluster dim A = Some c -> site_cluster (c_coords c) /\ moved (c_coords c) A.
Proof.
  intros S E. destruct (C57_normal (sc_points S)) as (c' & t & E' & Lt & Ec & _). rewrite E in E'. injection E' as <-. rewrite Ec. split; [apply sc_translate; auto|].
  exists t. split; auto.
Qed.
Lemma proper_coords c : proper c -> site_cluster (c_coords c).
Proof. intros (A & S & E). apply (mk_coords S E). Qed.
Lemma centroid_facts c : proper c -> length (c_centroid c) = dim /\
  forall j, (j < dim)%nat -> 0 <= comp (c_centroid c) j /\ comp (c_centroid c) j < 1 /\ comp (c_centroid c) j = comp (average dim (c_coords c)) j.
Proof.
  intros (A & S & E). destruct (C57_normal (sc_points S)) as (c' & t & E' & Lt & Ec & Lc & H). rewrite E in E'. injection E' as <-. split; auto.
  intros j Hj. destruct (H j Hj) as (H1 & H2 & H3). split; auto. split; auto. rewrite nth_average by auto. rewrite <- H3. rewrite Ec. unfold translate. rewrite map_length.
  field. apply Qc_of_nat_nz. destruct S as (N & _). destruct A; [congruence|discriminate].
Qed.

(** *** Equivalence by symmetry *)
Lemma moved_image A B g : In g ops -> (forall x, In x B -> site x) -> moved A B -> moved (map (operate g) A) (map (operate g) B).
Proof.
  intros Hg H (t & Lt & P). destruct (cr_lattice CR Hg Lt) as (t' & Lt' & E). exists t'. split; auto.
  apply (perm_trans (Permutation_map (operate g) P)). apply perm_eq. unfold translate. rewrite !map_map. apply map_ext_in. intros x Hx. apply (E x). auto.
Qed.
Lemma moved_same f h B : same_op f h -> (forall x, In x B -> site x) -> moved (map f B) (map h B).
Proof.
  intros (t & Lt & E) H. exists t. split; auto. apply perm_eq. unfold translate. rewrite map_map. apply map_ext_in. intros x Hx. apply (E x). auto.
Qed.
Lemma image_sites g B : In g ops -> (forall x, In x B -> site x) -> forall x, In x (map (operate g) B) -> site x.
Proof. intros Hg H x Hx. apply in_map_iff in Hx as (y & <- & Hy). apply (cr_op CR); auto. Qed.
Lemma related_refl A : site_cluster A -> related A A.
Proof.
  intros S. apply related_moved. destruct (cr_id CR) as (g & Hg & E). exists g. split; auto. apply moved_sym; [apply S|].
  assert (M := moved_same E (proj2 (proj2 S))). rewrite map_id in M. exact M.
Qed.
Lemma related_trans A B C : (forall x, In x C -> site x) -> related A B -> related B C -> related A C.
Proof.
  rewrite !related_moved. intros H (g & Hg & M) (h & Hh & N). destruct (cr_comp CR Hg Hh) as (k & Hk & E). exists k. split; auto.
  assert (Hi := image_sites Hh H). eapply moved_trans; [apply image_sites; auto|exact M|]. eapply moved_trans; [apply image_sites; auto|apply (moved_image Hg Hi N)|].
  rewrite map_map. apply (moved_same E H).
Qed.
Lemma related_sym A B : (forall x, In x A -> site x) -> (forall x, In x B -> site x) -> related A B -> related B A.
Proof.
  rewrite !related_moved. intros HA HB (g & Hg & M). destruct (cr_inv CR Hg) as (h & Hh & E). exists h. split; auto.
  apply moved_sym; [auto|]. eapply moved_trans; [auto|apply (moved_image Hh (image_sites Hg HB) M)|]. rewrite map_map.
  assert (N := moved_same E HB). rewrite map_id in N. exact N.
Qed.
End Crystal.
