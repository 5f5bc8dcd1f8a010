(** Proofs about lattice points, supercells and the site indices of clusters. *)
From Verif Require Import LibProofs SublatticeProofs OrbitProps.
From Verif Require Export OrbitIndicesSpec OrbitGenProofs OrbitPartsProofs.
From Coq Require Import Lia Permutation.
Set Implicit Arguments.
Unset Strict Implicit.
Local Open Scope Qc_scope.

(** ** Rows times matrices *)
Definition shaped (dim : nat) {A} (m : list (list A)) : Prop := forall r, In r m -> length r = dim.
Lemma length_qvscale k v : length (qvscale k v) = length v.
Proof. apply map_length. Qed.
Lemma nth_qvscale k v j : nth j (qvscale k v) 0 = k * nth j v 0.
Proof. unfold qvscale. assert (E : 0 = k * 0) by ring. rewrite E at 1. apply (map_nth (Qcmult k)). Qed.
Lemma length_qvadd u v : length u = length v -> length (qvadd u v) = length u.
Proof. apply length_qmap2. Qed.
Lemma length_vmat dim A : forall x, shaped dim A -> length (vmat dim x A) = dim.
Proof.
  induction A as [|r A IH]; intros [|c x] H; simpl; try apply repeat_length.
  assert (Lr : length r = dim) by (apply H; left; auto). rewrite length_qvadd, length_qvscale; auto. rewrite length_qvscale, IH; auto. intros s Hs. apply H. right. auto.
Qed.
Lemma nth_repeat0 n j : nth j (repeat (Q2Qc 0) n) 0 = 0.
Proof. revert j. induction n as [|n IH]; intros [|j]; simpl; auto. Qed.
Lemma shaped_tail dim {A} (r : list A) m : shaped dim (r :: m) -> shaped dim m.
Proof. intros H s Hs. apply H. right. auto. Qed.
Lemma nth_vmat_cons dim c x r A j : shaped dim (r :: A) -> nth j (vmat dim (c :: x) (r :: A)) 0 = c * nth j r 0 + nth j (vmat dim x A) 0.
Proof.
  intros H. cbn [vmat]. rewrite nth_qvadd, nth_qvscale; auto. rewrite length_qvscale, (length_vmat x (shaped_tail H)). apply H. left. auto.
Qed.
Lemma vmat_add dim A : forall x y, shaped dim A -> length x = length A -> length y = length A -> vmat dim (qvadd x y) A = qvadd (vmat dim x A) (vmat dim y A).
Proof.
  intros x y H Lx Ly. apply vec_ext; [rewrite length_qvadd; rewrite !length_vmat; auto|]. intros j _. rewrite nth_qvadd by (rewrite !length_vmat; auto).
  revert x y H Lx Ly. induction A as [|r A IH]; intros [|c x] [|d y] H Lx Ly; try discriminate.
  - change (qvadd [] []) with (@nil Qc). cbn [vmat]. rewrite !nth_repeat0. symmetry. apply Qcplus_0_l.
  - change (qvadd (c :: x) (d :: y)) with ((c + d) :: qvadd x y). rewrite !nth_vmat_cons by auto. rewrite IH; [ring|apply (shaped_tail H)|injection Lx; auto|injection Ly; auto].
Qed.
Lemma zeros n : map Qc_of_Z (repeat 0%Z n) = repeat (Q2Qc 0) n.
Proof. induction n as [|n IH]; auto. cbn [repeat map]. rewrite IH. auto. Qed.
Lemma zmat_vmat dim M : forall t, shaped dim M -> map Qc_of_Z (zmat dim t M) = vmat dim (map Qc_of_Z t) (map (map Qc_of_Z) M).
Proof.
  induction M as [|r M IH]; intros [|c t] H; cbn [zmat vmat map]; try apply zeros.
  rewrite <- IH by apply (shaped_tail H). generalize (zmat dim t M). clear. induction r as [|a r IH]; intros [|b v]; auto.
  cbn [combine map fst snd]. cbv [qvadd qvscale qmap2] in *. cbn [map combine fst snd] in *. f_equal; [|apply IH]. rewrite Qc_of_Z_add, Qc_of_Z_mul. auto.
Qed.
Lemma length_zmat dim M t : shaped dim M -> length (zmat dim t M) = dim.
Proof.
  intros H. rewrite <- (map_length Qc_of_Z), zmat_vmat by auto. apply length_vmat. intros r Hr. apply in_map_iff in Hr as (s & <- & Hs). rewrite map_length. auto.
Qed.
Lemma of_Z_inj s t : map Qc_of_Z s = map Qc_of_Z t -> s = t.
Proof.
  revert t. induction s as [|a s IH]; intros [|b t] E; try discriminate E; auto. f_equal.
  - apply (f_equal (fun l => nth 0 l 0)) in E. cbn [map nth] in E. apply Z.le_antisymm; apply (proj2 (Qc_of_Z_le _ _)); rewrite E; apply Qcle_refl.
  - apply IH. apply (f_equal (@tl Qc)) in E. exact E.
Qed.
Lemma of_Z_zadd s t : map Qc_of_Z (zadd s t) = qvadd (map Qc_of_Z s) (map Qc_of_Z t).
Proof.
  revert t. induction s as [|a s IH]; intros [|b t]; auto. unfold zadd, qvadd, qmap2 in *. cbn [combine map fst snd]. rewrite IH, Qc_of_Z_add. auto.
Qed.

Lemma Qc_of_Z_opp' z : Qc_of_Z (- z) = - Qc_of_Z z.
Proof. assert (E := Qc_of_Z_add z (- z)). rewrite Z.add_opp_diag_r in E. change (Qc_of_Z 0) with 0 in E. revert E. generalize (Qc_of_Z z) (Qc_of_Z (- z)). intros a b E. qclra. Qed.

(** ** Boxes *)
Lemma zrange_in a b v : In v (zrange a b) <-> (a <= v < b)%Z.
Proof.
  unfold zrange. rewrite in_map_iff. split.
  - intros (i & <- & Hi). apply in_seq in Hi. lia.
  - intros H. exists (Z.to_nat (v - a)). split; [lia|]. apply in_seq. lia.
Qed.
Lemma zrange_nodup a b : NoDup (zrange a b).
Proof. unfold zrange. apply FinFun.Injective_map_NoDup; [intros i j; lia|apply seq_NoDup]. Qed.
Lemma grid_in rs : forall p, In p (grid rs) <-> Forall2 (fun v r => In v r) p rs.
Proof.
  induction rs as [|r rs IH]; intros p; simpl.
  - split; [intros [<- |[]]; constructor|]. intros H. inversion H. auto.
  - rewrite in_flat_map. split.
    + intros (a & Ha & H). apply in_map_iff in H as (q & <- & Hq). constructor; auto. apply IH. auto.
    + intros H. inversion H as [|a ? q ? Ha Hq]; subst. exists a. split; auto. apply in_map. apply IH. auto.
Qed.
Lemma grid_nodup rs : (forall r, In r rs -> NoDup r) -> NoDup (grid rs).
Proof.
  induction rs as [|r rs IH]; intros H; simpl; [constructor; [intros []|constructor]|].
  assert (D : NoDup r) by (apply H; left; auto). assert (E : NoDup (grid rs)) by (apply IH; intros; apply H; right; auto). clear H IH.
  induction r as [|a r IH]; simpl; [constructor|]. inversion D as [|? ? Ha D']; subst. apply NoDup_app_intro; auto.
  - apply FinFun.Injective_map_NoDup; auto. intros x y X. injection X. auto.
  - intros x Hx Hy. apply in_map_iff in Hx as (q & <- & _). apply in_flat_map in Hy as (b & Hb & Hy). apply in_map_iff in Hy as (q' & X & _). injection X as -> _. auto.
Qed.
Lemma zmin_le l v : In v l -> (zmin l <= v)%Z.
Proof.
  destruct l as [|a l]; [intros []|]. cbn [zmin]. induction l as [|b l IH]; simpl; intros H.
  - destruct H as [-> |[]]. lia.
  - destruct H as [H|[H|H]]; try lia; [specialize (IH (or_introl H))|specialize (IH (or_intror H))]; lia.
Qed.
Lemma zmax_ge l v : In v l -> (v <= zmax l)%Z.
Proof.
  destruct l as [|a l]; [intros []|]. cbn [zmax]. induction l as [|b l IH]; simpl; intros H.
  - destruct H as [-> |[]]. lia.
  - destruct H as [H|[H|H]]; try lia; [specialize (IH (or_introl H))|specialize (IH (or_intror H))]; lia.
Qed.
Lemma corners_len M dim c : shaped dim M -> In c (corners M dim) -> length c = dim.
Proof.
  revert c. induction M as [|r M IH]; intros c H; simpl.
  - intros [<- |[]]. apply repeat_length.
  - intros X. apply in_app_iff in X as [X|X]; [apply IH; auto; apply (shaped_tail H)|]. apply in_map_iff in X as (d & <- & Hd).
    rewrite map_length, combine_length. rewrite (IH d (shaped_tail H) Hd), (H r (or_introl eq_refl)). lia.
Qed.
(** A combination with weights between zero and one lies between two corners, in each coordinate. *)
Lemma corners_bound dim j M : forall f, shaped dim M -> length f = length M -> (forall x, In x f -> 0 <= x /\ x <= 1) ->
  exists c d, In c (corners M dim) /\ In d (corners M dim) /\
    Qc_of_Z (nth j c 0%Z) <= comp (vmat dim f (map (map Qc_of_Z) M)) j /\ comp (vmat dim f (map (map Qc_of_Z) M)) j <= Qc_of_Z (nth j d 0%Z).
Proof.
  induction M as [|r M IH]; intros [|w f] H L B; try discriminate L.
  - exists (repeat 0%Z dim), (repeat 0%Z dim). split; [left; auto|]. split; [left; auto|]. rewrite <- nth_of_Z, zeros. simpl. split; apply Qcle_refl.
  - destruct (IH f) as (c & d & Hc & Hd & Lc & Ld); [apply (shaped_tail H)|injection L; auto|intros; apply B; right; auto|].
    destruct (B w (or_introl eq_refl)) as [W0 W1]. cbn [map].
    assert (SH : shaped dim (map Qc_of_Z r :: map (map Qc_of_Z) M)).
    { intros s Hs. change (map Qc_of_Z r :: map (map Qc_of_Z) M) with (map (map Qc_of_Z) (r :: M)) in Hs. apply in_map_iff in Hs as (s' & <- & Hs). rewrite map_length. auto. }
    rewrite (nth_vmat_cons w f j SH), nth_of_Z.
    assert (A : forall e, In e (corners M dim) -> In (zadd r e) (corners (r :: M) dim) /\ Qc_of_Z (nth j (zadd r e) 0%Z) = Qc_of_Z (nth j r 0%Z) + Qc_of_Z (nth j e 0%Z)).
    { intros e He. split; [cbn [corners]; apply in_app_iff; right; apply (in_map (zadd r)); auto|].
      rewrite nth_zadd, Qc_of_Z_add; auto. rewrite (corners_len (shaped_tail H) He). apply H. left. auto. }
    assert (K : forall e, In e (corners M dim) -> In e (corners (r :: M) dim)) by (intros e He; cbn [corners]; apply in_app_iff; auto).
    destruct (A c Hc) as [Ac Ec]. destruct (A d Hd) as [Ad Ed]. generalize dependent (comp (vmat dim f (map (map Qc_of_Z) M)) j). intros v Lc Ld.
    destruct (Z.le_gt_cases 0 (nth j r 0%Z)) as [P|P].
    + apply Qc_of_Z_le in P. change (Qc_of_Z 0) with 0 in P. exists c, (zadd r d). split; [auto|]. split; [auto|]. rewrite Ed.
      revert P Lc Ld. generalize (Qc_of_Z (nth j r 0%Z)) (Qc_of_Z (nth j c 0%Z)) (Qc_of_Z (nth j d 0%Z)). intros a x y P Lc Ld. split; qcnra.
    + assert (P' : (nth j r 0 <= 0)%Z) by lia. apply Qc_of_Z_le in P'. change (Qc_of_Z 0) with 0 in P'. exists (zadd r c), d. split; [auto|]. split; [auto|]. rewrite Ec.
      revert P' Lc Ld. generalize (Qc_of_Z (nth j r 0%Z)) (Qc_of_Z (nth j c 0%Z)) (Qc_of_Z (nth j d 0%Z)). intros a x y P' Lc Ld. split; qcnra.
Qed.

(** ** Lists *)
Lemma matches_gen {A} (f : A -> bool) (l : list A) : forall o j, (j < length l)%nat -> (forall i y, nth_error l i = Some y -> (f y = true <-> i = j)) ->
  map fst (filter (fun p => f (snd p)) (combine (seq o (length l)) l)) = [(o + j)%nat].
Proof.
  induction l as [|a l IH]; intros o j L H; simpl in L; [lia|]. cbn [length seq combine filter snd]. destruct j as [|j].
  - rewrite (proj2 (H 0%nat a eq_refl) eq_refl). cbn [map fst]. rewrite Nat.add_0_r. f_equal.
    assert (N : forall y, In y l -> f y = false).
    { intros y Hy. apply In_nth_error in Hy as (i & Hi). destruct (f y) eqn:E; auto. apply (H (S i) y Hi) in E. discriminate E. }
    clear -N. generalize (S o). induction l as [|b l IH]; intros k; auto. cbn [length seq combine filter snd]. rewrite N by (left; auto). apply IH. intros; apply N; right; auto.
  - assert (E : f a = false). { destruct (f a) eqn:E; auto. apply (H 0%nat a eq_refl) in E. discriminate E. }
    rewrite E. rewrite (IH (S o) j); [f_equal; lia|lia|]. intros i y Hi. rewrite (H (S i) y Hi). lia.
Qed.
Lemma list_prod_map {A B C} (g : B -> C) (l : list A) (m : list B) : list_prod l (map g m) = map (fun q => (fst q, g (snd q))) (list_prod l m).
Proof. induction l as [|a l IH]; auto. cbn [list_prod]. rewrite IH, map_app, !map_map. auto. Qed.
Lemma list_prod_nodup {A B} (l : list A) (m : list B) : NoDup l -> NoDup m -> NoDup (list_prod l m).
Proof.
  intros Dl Dm. induction l as [|a l IH]; cbn [list_prod]; [constructor|]. inversion Dl as [|? ? Ha D']; subst. apply NoDup_app_intro; auto.
  - apply FinFun.Injective_map_NoDup; auto. intros x y X. injection X. auto.
  - intros x Hx Hy. apply in_map_iff in Hx as (b & <- & _). apply in_prod_iff in Hy as [Hy _]. auto.
Qed.
Lemma nodup_pos {A} (l : list A) i j x : NoDup l -> nth_error l i = Some x -> nth_error l j = Some x -> i = j.
Proof. intros D Hi Hj. apply (proj1 (NoDup_nth_error l) D); [apply nth_error_Some; congruence|congruence]. Qed.
Lemma zvec_ext (s t : list Z) : length s = length t -> (forall j, nth j s 0%Z = nth j t 0%Z) -> s = t.
Proof. intros L H. apply (nth_ext _ _ 0%Z 0%Z L). intros j _. apply H. Qed.

Lemma nth_zeros n j : nth j (repeat 0%Z n) 0%Z = 0%Z.
Proof. revert j. induction n as [|n IH]; intros [|j]; simpl; auto. Qed.

(** ** Supercells *)
Section Supercell.
Variables (dim : nat) (tol : Qc) (G : list (list Qc)) (sites : list (list Qc)) (ops : list symop) (M : list (list Z)) (Minv : list (list Qc)).
Hypothesis CR : crystal dim tol G sites ops.
Hypothesis SU : supercell dim tol sites M Minv.
Notation site := (site dim sites).
Notation svec := (svec dim M).
Notation scell := (scell dim M).
Notation P := (cell_points dim M Minv).
Notation MQ := (map (map Qc_of_Z) M).
Definition fr (x : list Qc) : list Qc := vmat dim x Minv.

Lemma MQ_shape : shaped dim MQ.
Proof using SU. intros r Hr. apply in_map_iff in Hr as (s & <- & Hs). rewrite map_length. apply (su_cols SU Hs). Qed.
Lemma len_svec t : length (svec t) = dim.
Proof using SU. apply length_zmat. exact (su_cols SU). Qed.
Lemma len_fr x : length (fr x) = dim.
Proof using SU. apply length_vmat. exact (su_icols SU). Qed.
Lemma fr_add x y : length x = dim -> length y = dim -> fr (qvadd x y) = qvadd (fr x) (fr y).
Proof using SU. intros Lx Ly. apply vmat_add; [exact (su_icols SU)| |]; rewrite (su_irows SU); auto. Qed.
Lemma len_of_Z t : length (map Qc_of_Z t) = length t.
Proof using. apply map_length. Qed.
Lemma fr_svec t : length t = dim -> fr (map Qc_of_Z (svec t)) = map Qc_of_Z t.
Proof using SU. intros L. unfold svec, OrbitIndicesSpec.svec. rewrite zmat_vmat by exact (su_cols SU). apply (su_left SU). rewrite len_of_Z. auto. Qed.
Lemma fr_inj x y : length x = dim -> length y = dim -> fr x = fr y -> x = y.
Proof using SU. intros Lx Ly E. rewrite <- (su_right SU Lx), <- (su_right SU Ly). f_equal. exact E. Qed.
Lemma svec_add s t : length s = dim -> length t = dim -> svec (zadd s t) = zadd (svec s) (svec t).
Proof using SU.
  intros Ls Lt. apply of_Z_inj. rewrite of_Z_zadd. unfold OrbitIndicesSpec.svec. rewrite !zmat_vmat by exact (su_cols SU). rewrite of_Z_zadd.
  apply vmat_add; [apply MQ_shape| |]; rewrite !map_length, (su_rows SU); auto.
Qed.
Lemma fr_shift_svec x t : length x = dim -> length t = dim -> fr (shift x (svec t)) = shift (fr x) t.
Proof using SU. intros Lx Lt. unfold shift. rewrite fr_add, fr_svec; auto. rewrite len_of_Z. apply len_svec. Qed.
Lemma scell_fr x y : length x = dim -> length y = dim -> (scell x y <-> exists t, length t = dim /\ fr x = shift (fr y) t).
Proof using SU.
  intros Lx Ly. split; intros (t & Lt & E); exists t; split; auto.
  - rewrite E. apply fr_shift_svec; auto.
  - apply fr_inj; auto; [rewrite length_shift; rewrite ?len_svec; auto|]. rewrite E. symmetry. apply fr_shift_svec; auto.
Qed.
Lemma svec_0 : svec (repeat 0%Z dim) = repeat 0%Z dim.
Proof using SU.
  apply of_Z_inj. apply fr_inj; [rewrite len_of_Z; apply len_svec|rewrite len_of_Z; apply repeat_length|]. rewrite fr_svec by apply repeat_length.
  assert (E : fr (qvadd (map Qc_of_Z (repeat 0%Z dim)) (map Qc_of_Z (repeat 0%Z dim))) = qvadd (fr (map Qc_of_Z (repeat 0%Z dim))) (fr (map Qc_of_Z (repeat 0%Z dim)))) by (apply fr_add; rewrite len_of_Z; apply repeat_length).
  assert (Z0 : qvadd (map Qc_of_Z (repeat 0%Z dim)) (map Qc_of_Z (repeat 0%Z dim)) = map Qc_of_Z (repeat 0%Z dim)).
  { rewrite <- of_Z_zadd. f_equal. apply zvec_ext; [rewrite length_zadd; auto|]. intros j. rewrite nth_zadd by auto. rewrite nth_zeros. auto. }
  rewrite Z0 in E. apply vec_ext; [rewrite len_of_Z, repeat_length, len_fr; auto|]. intros j _. apply (f_equal (fun l => nth j l 0)) in E. rewrite nth_qvadd in E by auto.
  rewrite zeros, nth_repeat0. rewrite zeros in E. revert E. generalize (nth j (fr (repeat (Q2Qc 0) dim)) 0). intros a E. qclra.
Qed.
Lemma svec_neg t : length t = dim -> svec (zneg t) = zneg (svec t).
Proof using SU.
  intros L. assert (E : zadd (svec t) (svec (zneg t)) = repeat 0%Z dim).
  { rewrite <- svec_add by (rewrite ?length_zneg; auto). rewrite <- svec_0. f_equal. apply zvec_ext; [rewrite length_zadd, length_zneg, repeat_length; auto; rewrite length_zneg; auto|].
    intros j. rewrite nth_zadd, nth_zneg, nth_zeros by (rewrite length_zneg; auto). lia. }
  apply zvec_ext; [rewrite length_zneg, !len_svec; auto|]. intros j. apply (f_equal (fun l => nth j l 0%Z)) in E. rewrite nth_zadd, nth_zeros in E by (rewrite !len_svec; auto). rewrite nth_zneg. lia.
Qed.
Lemma scell_refl x : length x = dim -> scell x x.
Proof using SU. intros L. exists (repeat 0%Z dim). split; [apply repeat_length|]. rewrite svec_0, shift_0; auto. Qed.
Lemma scell_sym x y : length y = dim -> scell x y -> scell y x.
Proof using SU.
  intros L (t & Lt & ->). exists (zneg t). split; [rewrite length_zneg; auto|]. rewrite svec_neg, shift_back; auto. rewrite len_svec. auto.
Qed.
Lemma scell_trans x y z : length z = dim -> scell x y -> scell y z -> scell x z.
Proof using SU.
  intros L (t & Lt & ->) (u & Lu & ->). exists (zadd u t). split; [rewrite length_zadd; congruence|]. rewrite svec_add by auto. apply shift_shift; rewrite ?len_svec; auto.
Qed.

(** *** Lattice points *)
Lemma point_in p : In p P <-> length p = dim /\ forall x, In x (fr (map Qc_of_Z p)) -> 0 <= x /\ x < 1.
Proof using SU.
  unfold cell_points. rewrite filter_In, grid_in, forallb_forall. fold (fr (map Qc_of_Z p)).
  assert (T : forall x, (Qcleb 0 x && Qcltb x 1 = true <-> 0 <= x /\ x < 1)).
  { intros x. rewrite andb_true_iff. rewrite <- (reflect_iff _ _ (Qcleb_spec 0 x)), <- (reflect_iff _ _ (Qcltb_spec x 1)). tauto. }
  split.
  - intros [F H]. split; [apply Forall2_length in F; rewrite F, map_length, seq_length; auto|]. intros x Hx. apply T. auto.
  - intros [L H]. split; [|intros x Hx; apply T; auto].
    set (f := fun j => let col := map (fun c => nth j c 0%Z) (corners M dim) in zrange (zmin col) (zmax col + 1)).
    assert (B : forall j, (j < dim)%nat -> In (nth j p 0%Z) (f j)).
    { intros j Hj. unfold f. apply zrange_in. destruct (@corners_bound dim j M (fr (map Qc_of_Z p))) as (c & d & Hc & Hd & Lc & Ld); [exact (su_cols SU)|rewrite len_fr, (su_rows SU); auto| |].
      - intros x Hx. destruct (H x Hx) as [H0 H1]. split; [auto|apply Qclt_le_weak; auto].
      - unfold fr in Lc, Ld. rewrite (su_right SU) in Lc, Ld by (rewrite len_of_Z; auto). rewrite nth_of_Z in Lc, Ld. apply Qc_of_Z_le in Lc. apply Qc_of_Z_le in Ld.
        assert (Ic := in_map (fun c => nth j c 0%Z) _ _ Hc). assert (Id := in_map (fun c => nth j c 0%Z) _ _ Hd). apply zmin_le in Ic. apply zmax_ge in Id. cbn beta in *. lia. }
    clearbody f.
    assert (E : p = map (fun j => nth j p 0%Z) (seq 0 dim)) by (rewrite <- L; symmetry; apply map_nth_seq). rewrite E.
    assert (K : forall j, In j (seq 0 dim) -> In (nth j p 0%Z) (f j)) by (intros j Hj; apply in_seq in Hj; apply B; lia). clear -K.
    induction (seq 0 dim) as [|a l IH]; simpl; constructor; [apply K; left; auto|apply IH; intros; apply K; right; auto].
Qed.
Lemma point_len p : In p P -> length p = dim.
Proof using SU. intros H. apply point_in in H. apply H. Qed.
Lemma points_nodup : NoDup P.
Proof using. unfold cell_points. apply NoDup_filter, grid_nodup. intros r Hr. apply in_map_iff in Hr as (j & <- & _). apply zrange_nodup. Qed.
Lemma point_rep v : length v = dim -> exists p t, In p P /\ length t = dim /\ v = zadd p (svec t).
Proof using SU.
  intros L. set (t := map qfloor (fr (map Qc_of_Z v))). assert (Lt : length t = dim) by (unfold t; rewrite map_length; apply len_fr).
  exists (zadd v (svec (zneg t))), t. assert (Ln : length (zneg t) = dim) by (rewrite length_zneg; auto). split; [|split; auto].
  - apply point_in. split; [rewrite length_zadd; rewrite len_svec; auto|]. intros x Hx. apply In_nth with (d := 0) in Hx as (j & Hj & <-).
    rewrite of_Z_zadd, fr_add by (rewrite len_of_Z, ?len_svec; auto). rewrite fr_svec by auto. rewrite nth_qvadd by (rewrite len_of_Z, len_fr; auto). rewrite nth_of_Z, nth_zneg.
    assert (E : nth j t 0%Z = qfloor (nth j (fr (map Qc_of_Z v)) 0)).
    { unfold t. rewrite (nth_indep _ 0%Z (qfloor 0)); [apply map_nth|]. rewrite map_length, len_fr. rewrite len_fr in Hj. auto. }
    rewrite E, Qc_of_Z_opp'. destruct (qfloor_spec (nth j (fr (map Qc_of_Z v)) 0)) as [F1 F2]. split; qclra.
  - apply zvec_ext; [rewrite length_zadd; rewrite len_svec; auto; rewrite length_zadd; rewrite len_svec; auto|]. intros j. rewrite nth_zadd; [|rewrite length_zadd; rewrite !len_svec; auto].
    rewrite nth_zadd by (rewrite len_svec; auto). rewrite svec_neg, nth_zneg by auto. lia.
Qed.
Lemma point_unique p q t : In p P -> In q P -> length t = dim -> p = zadd q (svec t) -> p = q.
Proof using SU.
  intros Hp Hq Lt E. apply point_in in Hp as [Lp Hp]. apply point_in in Hq as [Lq Hq].
  assert (T : t = repeat 0%Z dim).
  { apply zvec_ext; [rewrite repeat_length; auto|]. intros j. rewrite nth_zeros. destruct (Nat.lt_ge_cases j dim) as [Hj|Hj]; [|apply nth_overflow; lia].
    assert (A := Hp (nth j (fr (map Qc_of_Z p)) 0) (nth_In _ 0 (eq_ind_r (fun n => (j < n)%nat) Hj (len_fr _)))).
    assert (B := Hq (nth j (fr (map Qc_of_Z q)) 0) (nth_In _ 0 (eq_ind_r (fun n => (j < n)%nat) Hj (len_fr _)))).
    rewrite E, of_Z_zadd, fr_add in A by (rewrite len_of_Z, ?len_svec; auto). rewrite fr_svec in A by auto. rewrite nth_qvadd in A by (rewrite len_of_Z, len_fr; auto). rewrite nth_of_Z in A.
    destruct A as [A1 A2]. destruct B as [B1 B2]. revert A1 A2 B1 B2. generalize (nth j (fr (map Qc_of_Z q)) 0). intros a A1 A2 B1 B2.
    assert (U : (nth j t 0 <= 0)%Z) by (apply Z_of_lt; change (Qc_of_Z 0) with 0; qclra).
    assert (V : (0 <= nth j t 0)%Z) by (apply Z_of_lt; change (Qc_of_Z 0) with 0; qclra). lia. }
  rewrite E, T, svec_0. apply zvec_ext; [rewrite length_zadd; rewrite repeat_length; auto|]. intros j. rewrite nth_zadd, nth_zeros by (rewrite repeat_length; auto). lia.
Qed.

(** *** Sites of the supercell *)
Definition cells : list (list Qc) := flat_map (fun s => map (shift s) P) sites.
Lemma coords_cells : supercell_coords dim Minv sites (frac_points dim M Minv) = map fr cells.
Proof using CR SU.
  unfold supercell_coords, frac_points, cells. assert (H : forall s, In s sites -> length s = dim) by apply (cr_dim CR).
  revert H. generalize sites. intros l. induction l as [|s l IH]; intros H; auto. cbn [flat_map]. rewrite map_app. f_equal; [|apply IH; intros; apply H; right; auto].
  rewrite !map_map. apply map_ext_in. intros p Hp. unfold shift. rewrite fr_add; auto; [apply H; left; auto|rewrite len_of_Z; apply point_len; auto].
Qed.
Lemma cell_in y : In y cells <-> exists s p, In s sites /\ In p P /\ y = shift s p.
Proof using.
  unfold cells. rewrite in_flat_map. split.
  - intros (s & Hs & H). apply in_map_iff in H as (p & <- & Hp). eauto.
  - intros (s & p & Hs & Hp & ->). exists s. split; auto. apply in_map. auto.
Qed.
Lemma cell_site y : In y cells -> site y.
Proof using SU. intros H. apply cell_in in H as (s & p & Hs & Hp & ->). apply In_nth_error in Hs as (i & Hi). exists i, s, p. split; auto. split; auto. apply point_len. auto. Qed.
Lemma located_cell j x : site x -> (located dim sites M Minv j x <-> exists y, nth_error cells j = Some y /\ scell x y).
Proof using CR SU.
  intros Hx. assert (Lx := site_len CR Hx). unfold located. rewrite coords_cells. split.
  - intros (c & t & E & Lt & F). rewrite nth_error_map in E. destruct (nth_error cells j) as [y|] eqn:Ey; [|discriminate E]. injection E as <-. exists y. split; auto.
    apply scell_fr; auto; [apply (site_len CR); apply cell_site; eapply nth_error_In; eauto|]. exists t. auto.
  - intros (y & E & S). assert (Ly : length y = dim) by (apply (site_len CR); apply cell_site; eapply nth_error_In; eauto).
    apply (scell_fr Lx Ly) in S as (t & Lt & F). exists (fr y), t. rewrite nth_error_map, E. auto.
Qed.
Lemma site_cell x : site x -> exists y, In y cells /\ scell x y.
Proof using CR SU.
  intros (i & s & u & E & Lu & ->). assert (Ls := cr_dim CR (nth_error_In _ _ E)). destruct (point_rep Lu) as (p & t & Hp & Lt & ->). exists (shift s p). split.
  - apply cell_in. exists s, p. split; [eapply nth_error_In; eauto|auto].
  - exists t. split; auto. symmetry. apply shift_shift; rewrite ?len_svec, (point_len Hp); auto.
Qed.
Lemma site_unique s s' t t' : In s sites -> In s' sites -> length t = dim -> length t' = dim -> shift s t = shift s' t' -> exists i, nth_error sites i = Some s /\ nth_error sites i = Some s'.
Proof using CR.
  intros Hs Hs' Lt Lt' E. apply In_nth_error in Hs as (i & Hi). apply In_nth_error in Hs' as (k & Hk).
  assert (i = k) by (apply (cr_kind CR (x := shift s t)); [exists s, t; auto|exists s', t'; auto]). subst k. exists i. auto.
Qed.
Lemma shift_vec s t u : length s = dim -> length t = dim -> length u = dim -> shift s t = shift s u -> t = u.
Proof using.
  intros Ls Lt Lu E. apply zvec_ext; [congruence|]. intros j. apply (f_equal (fun l => nth j l 0)) in E. rewrite !comp_shift in E by congruence.
  apply Z.le_antisymm; apply (proj2 (Qc_of_Z_le _ _)); revert E; generalize (Qc_of_Z (nth j t 0%Z)) (Qc_of_Z (nth j u 0%Z)) (nth j s 0); intros a b c E; qclra.
Qed.
Lemma cell_unique y z : In y cells -> In z cells -> scell y z -> y = z.
Proof using CR SU.
  intros Hy Hz (t & Lt & E). apply cell_in in Hy as (s & p & Hs & Hp & ->). apply cell_in in Hz as (s' & q & Hs' & Hq & ->).
  assert (Ls := cr_dim CR Hs). assert (Ls' := cr_dim CR Hs'). assert (Lp := point_len Hp). assert (Lq := point_len Hq).
  rewrite shift_shift in E by (rewrite ?len_svec; congruence). assert (Lz : length (zadd q (svec t)) = dim) by (rewrite length_zadd; rewrite len_svec; auto).
  destruct (site_unique Hs Hs' Lp Lz E) as (i & E1 & E2). rewrite E1 in E2. injection E2 as <-. apply shift_vec in E; auto. rewrite (point_unique Hp Hq Lt E). auto.
Qed.
Lemma sites_nodup : NoDup sites.
Proof using CR.
  apply NoDup_nth_error. intros i j Hi E. destruct (nth_error sites i) as [s|] eqn:Es; [|apply nth_error_Some in Hi; congruence].
  apply (cr_kind CR (x := shift s (repeat 0%Z dim))); exists s, (repeat 0%Z dim); (split; [auto|split; [apply repeat_length|auto]]).
Qed.
Lemma cells_nodup : NoDup cells.
Proof using CR SU.
  unfold cells. assert (K : forall s, In s sites -> In s sites) by auto. assert (D := sites_nodup). revert K D. generalize sites at 1 3 4. intros l.
  induction l as [|s l IH]; intros K D; cbn [flat_map]; [constructor|]. inversion D as [|? ? Hs D']; subst. apply NoDup_app_intro.
  - assert (Ls := cr_dim CR (K s (or_introl eq_refl))). apply NoDup_map_inj; [|apply points_nodup]. intros p q Hp Hq E. apply (shift_vec Ls (point_len Hp) (point_len Hq) E).
  - apply IH; auto. intros; apply K; right; auto.
  - intros x Hx Hy. apply in_map_iff in Hx as (p & <- & Hp). apply in_flat_map in Hy as (s' & Hs' & Hy). apply in_map_iff in Hy as (q & E & Hq).
    destruct (site_unique (K s' (or_intror Hs')) (K s (or_introl eq_refl)) (point_len Hq) (point_len Hp) E) as (i & E1 & E2). rewrite E1 in E2. injection E2 as <-. auto.
Qed.
Lemma close_cell x y : site x -> site y -> (pbc_close tol (fr x) (fr y) = true <-> scell x y).
Proof using CR SU.
  intros Hx Hy. assert (Lx := site_len CR Hx). assert (Ly := site_len CR Hy). destruct (cr_tol CR) as [T _]. unfold pbc_close. rewrite forallb_forall.
  assert (NC : forall j, (j < dim)%nat -> nth j (combine (fr x) (fr y)) (0, 0) = (nth j (fr x) 0, nth j (fr y) 0)) by (intros j _; apply combine_nth; rewrite !len_fr; auto).
  assert (LC : length (combine (fr x) (fr y)) = dim) by (rewrite combine_length, !len_fr; lia). split.
  - intros H. apply (su_sep SU Hx Hy). intros j Hj. fold (fr x). fold (fr y). specialize (H (nth j (combine (fr x) (fr y)) (0, 0))). rewrite (NC j Hj) in H. cbn [fst snd] in H.
    exists (qround (nth j (fr x) 0 - nth j (fr y) 0)). assert (A : In (nth j (fr x) 0, nth j (fr y) 0) (combine (fr x) (fr y))) by (rewrite <- (NC j Hj); apply nth_In; lia).
    specialize (H A). apply (reflect_iff _ _ (Qcleb_spec _ _)) in H. revert H. generalize (nth j (fr x) 0 - nth j (fr y) 0 - Qc_of_Z (qround (nth j (fr x) 0 - nth j (fr y) 0))). intros d.
    unfold qabs. destruct (Qcleb_spec 0 d) as [N|N]; [|apply Qcnot_le_lt in N]; intros; split; qclra.
  - intros S p Hp. apply (scell_fr Lx Ly) in S as (t & Lt & E). apply In_nth with (d := (0, 0)) in Hp as (j & Hj & <-). rewrite LC in Hj. rewrite (NC j Hj). cbn [fst snd].
    rewrite E, comp_shift by (rewrite len_fr; auto). assert (D : nth j (fr y) 0 + Qc_of_Z (nth j t 0%Z) - nth j (fr y) 0 = Qc_of_Z (nth j t 0%Z)) by ring. rewrite D.
    assert (R : qround (Qc_of_Z (nth j t 0%Z)) = nth j t 0%Z).
    { apply qround_unique. assert (HH : 0 < Qc_frac 1 2) by reflexivity. split; revert HH; generalize (Qc_frac 1 2) (Qc_of_Z (nth j t 0%Z)); intros; qclra. }
    rewrite R. apply (reflect_iff _ _ (Qcleb_spec _ _)). assert (Z0 : Qc_of_Z (nth j t 0%Z) - Qc_of_Z (nth j t 0%Z) = 0) by ring. rewrite Z0. apply Qclt_le_weak. exact T.
Qed.
Lemma located_one x : site x -> exists j, located dim sites M Minv j x /\ (j < length cells)%nat /\ (forall i, located dim sites M Minv i x -> i = j) /\ pbc_matches tol (fr x) (map fr cells) = [j].
Proof using CR SU.
  intros Hx. destruct (site_cell Hx) as (y & Hy & S). assert (Lx := site_len CR Hx). apply In_nth_error in Hy as (j & Hj). exists j.
  assert (U : forall i z, nth_error cells i = Some z -> scell x z -> i = j).
  { intros i z Hi Sz. assert (z = y).
    { apply cell_unique; try (eapply nth_error_In; eauto). apply (scell_trans (site_len CR (cell_site (nth_error_In _ _ Hj))) (scell_sym (site_len CR (cell_site (nth_error_In _ _ Hi))) Sz) S). }
    subst z. apply (nodup_pos cells_nodup Hi Hj). }
  split; [apply (located_cell _ Hx); eauto|]. split; [apply nth_error_Some; congruence|]. split.
  - intros i Li. apply (located_cell _ Hx) in Li as (z & Hz & Sz). eauto.
  - unfold pbc_matches. apply (matches_gen (f := pbc_close tol (fr x)) (l := map fr cells) 0); [rewrite map_length; apply nth_error_Some; congruence|].
    intros i c Hc. rewrite nth_error_map in Hc. destruct (nth_error cells i) as [z|] eqn:Ez; [|discriminate Hc]. injection Hc as <-.
    rewrite (close_cell Hx (cell_site (nth_error_In _ _ Ez))). split; [apply U; auto|]. intros ->. rewrite Hj in Ez. injection Ez as <-. exact S.
Qed.
End Supercell.
