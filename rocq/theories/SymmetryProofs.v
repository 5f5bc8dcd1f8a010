(** Proofs about the correlations of symmetrically equivalent occupancies. *)
From Verif Require Import LibProofs SublatticeProofs EvaluatorProps TensorProofs OrbitProps GroundEnergyProofs.
From Verif Require Export SymmetrySpec OrbitIndicesProofs.
From Coq Require Import Lia Permutation.
Set Implicit Arguments.
Unset Strict Implicit.
Local Open Scope Qc_scope.

(** ** Products of site functions under permutations of sites *)
Definition qprod (l : list Qc) : Qc := fold_right Qcmult 1 l.
Lemma qprod_perm l m : Permutation l m -> qprod l = qprod m.
Proof. induction 1; cbn [qprod fold_right] in *; auto; [unfold qprod in *; congruence|unfold qprod; ring|congruence]. Qed.
Definition factor (basis : list (list (list Qc))) (bits codes : list nat) (i : nat) : Qc := nth (nth i codes 0%nat) (nth (nth i bits 0%nat) (nth i basis []) []) 0.
Lemma bprod_factors basis : forall bits codes, bits_in basis bits -> length codes = length basis ->
  bprod basis bits codes = qprod (map (factor basis bits codes) (seq 0 (length basis))).
Proof.
  induction basis as [|B basis IH]; intros bits codes Hb L; inversion Hb as [|? b ? bits' Hlt Hbs]; subst.
  - destruct codes; [reflexivity|discriminate L].
  - destruct codes as [|c codes]; [discriminate L|]. injection L as L. specialize (IH bits' codes Hbs L). unfold bprod in *. cbn [pick_rows].
    destruct (nth_error B b) as [r|] eqn:E; [|apply nth_error_None in E; lia]. cbn [option_bind].
    assert (S : exists rs, pick_rows basis bits' = Some rs).
    { clear - Hbs. induction Hbs as [|B b basis bits Hlt H IH]; cbn [pick_rows]; [eauto|]. destruct IH as (rs & ->). destruct (nth_error B b) eqn:E; [cbn; eauto|apply nth_error_None in E; lia]. }
    destruct S as (rs & Es). rewrite Es in *. cbn [option_bind rprod length seq map]. cbn [qprod fold_right]. rewrite IH. f_equal.
    + unfold factor. cbn [nth]. rewrite (nth_error_nth _ _ _ E). auto.
    + unfold qprod. rewrite <- seq_shift, map_map. auto.
Qed.
Lemma act_inj n p a b : is_perm n p -> length a = n -> length b = n -> act a p = act b p -> a = b.
Proof.
  intros Pp La Lb E. apply (nth_ext _ _ 0%nat 0%nat); [congruence|]. intros i Hi. rewrite La in Hi.
  assert (I : In i p) by (eapply Permutation_in; [apply Permutation_sym, (perm_seq Pp)|apply in_seq; lia]). apply (In_nth _ _ 0%nat) in I as (k & Hk & <-).
  apply (f_equal (fun l => nth k l 0%nat)) in E. rewrite !nth_act in E; auto.
Qed.
Lemma bprod_act basis bits codes p : is_perm (length basis) p -> bits_in basis bits -> bits_in basis (act bits p) -> length codes = length basis ->
  (forall i j, nth_error p i = Some j -> nth_error basis j = nth_error basis i) -> bprod basis (act bits p) (act codes p) = bprod basis bits codes.
Proof.
  intros Pp Hb Hb' L S. assert (La : length (act codes p) = length basis) by (unfold act; rewrite map_length; apply Pp). rewrite !bprod_factors by auto.
  transitivity (qprod (map (factor basis bits codes) p)); [|apply qprod_perm, Permutation_map, (perm_seq Pp)]. f_equal.
  apply (nth_ext _ _ 0 0); [rewrite !map_length, seq_length; symmetry; apply Pp|]. intros i Hi. rewrite map_length, seq_length in Hi.
  assert (Lp := proj1 Pp). rewrite (nth_indep _ 0 (factor basis (act bits p) (act codes p) 0)) by (rewrite map_length, seq_length; auto). rewrite map_nth, seq_nth by auto.
  rewrite (nth_indep _ 0 (factor basis bits codes 0)) by (rewrite map_length; lia). rewrite map_nth. cbn [Nat.add]. unfold factor. rewrite !nth_act by lia.
  assert (E : nth_error p i = Some (nth i p 0%nat)) by (apply nth_error_nth'; lia). apply S in E.
  assert (E' : nth (nth i p 0%nat) basis [] = nth i basis []). { destruct (nth_error basis i) as [x|] eqn:Ei; [|apply nth_error_None in Ei; lia]. rewrite (nth_error_nth _ _ _ Ei), (nth_error_nth _ _ _ E). auto. }
  rewrite E'. auto.
Qed.
(** A sum over a group of function indices that is closed under a permutation. *)
Lemma group_sum basis (g : list (list nat)) codes p : is_perm (length basis) p -> (forall b, In b g -> bits_in basis b) -> NoDup g -> (forall b, In b g -> In (act b p) g) ->
  length codes = length basis -> (forall i j, nth_error p i = Some j -> nth_error basis j = nth_error basis i) ->
  qsum (map (fun b => bprod basis b (act codes p)) g) = qsum (map (fun b => bprod basis b codes) g).
Proof.
  intros Pp Hb D C L S. assert (LB : forall b, In b g -> length b = length basis) by (intros b H; symmetry; apply (Forall2_length (Hb b H))).
  assert (PM : Permutation (map (fun b => act b p) g) g).
  { apply NoDup_Permutation_bis; [|rewrite map_length; lia|].
    - apply NoDup_map_inj; auto. intros x y Hx Hy. apply (act_inj Pp); auto.
    - intros x Hx. apply in_map_iff in Hx as (b & <- & H). auto. }
  rewrite <- (qsum_perm (Permutation_map (fun b => bprod basis b (act codes p)) PM)). rewrite map_map. f_equal. apply map_ext_in. intros b H. apply bprod_act; auto.
Qed.

(** ** Images of a cluster, in order *)
Section Images.
Variables (dim : nat) (tol : Qc) (G : list (list Qc)) (sites : list (list Qc)) (ops : list symop).
Hypothesis CR : crystal dim tol G sites ops.
Notation site := (site dim sites).
Notation same_op := (same_op dim sites).
Definition image (g : symop) (t : list Z) (B : list (list Qc)) : list (list Qc) := map (fun x => shift (operate g x) t) B.
Definition ordered (B X : list (list Qc)) : Prop := exists g t, In g ops /\ length t = dim /\ X = image g t B.
Variable b : cluster.
Hypothesis PB : proper dim sites b.
Notation B := (c_coords b).
Lemma ordered_sites X : ordered B X -> forall x, In x X -> site x.
Proof using CR PB. intros (g & t & Hg & Lt & ->) x Hx. apply in_map_iff in Hx as (y & <- & Hy). apply (site_shift CR); auto. apply (cr_op CR Hg). apply (B_sites CR PB Hy). Qed.
Lemma ordered_self : ordered B B.
Proof using CR PB.
  destruct (cr_id CR) as (g & Hg & t & Lt & E). exists g, (zneg t). split; auto. split; [rewrite length_zneg; auto|]. unfold image. transitivity (map (fun x => x) B); [symmetry; apply map_id|].
  apply map_ext_in. intros x Hx. assert (Sx := B_sites CR PB Hx). rewrite (E x Sx), shift_back; auto. rewrite Lt. apply (site_len CR Sx).
Qed.
Lemma ordered_clusters p : orbit_parts dim tol ops b = Some p -> forall c, In c (o_clusters p) -> ordered B (c_coords c).
Proof using CR PB.
  intros E c Hc. unfold orbit_parts in E. destruct (equiv_clusters dim tol ops b) as [cs|] eqn:Ec; [|discriminate E]. cbn [option_bind] in E.
  destruct (symops_loop dim tol b ops) as [ss|]; [|discriminate E]. cbn [option_bind] in E. destruct (_ =? _)%nat; [|discriminate E]. injection E as <-. cbn [o_clusters] in Hc.
  destruct (@equiv_loop_ok _ _ _ _ _ CR b PB ops [b]) as (cs' & E1 & _ & _ & _ & E5 & _); [apply incl_refl|intros c' [<- |[]]; auto| |].
  { intros [|[|i]] [|[|j]] x y; simpl; intros; try discriminate; auto. }
  unfold equiv_clusters in Ec. rewrite Ec in E1. injection E1 as <-. destruct (E5 c Hc) as [[<- |[]]|(g & Hg & ->)]; [apply ordered_self|].
  destruct (img_ok CR PB Hg) as (Ei & _ & _). assert (S := sc_image CR Hg (B_cluster CR PB)). destruct (C57_normal (sc_points CR S)) as (c' & t & E' & Lt & Ek & _).
  rewrite Ei in E'. injection E' as <-. exists g, t. split; auto. split; auto. rewrite Ek. unfold image, translate. rewrite map_map. auto.
Qed.
Lemma ordered_translate X t : length t = dim -> ordered B X -> ordered B (translate t X).
Proof using CR PB.
  intros Lt (g & u & Hg & Lu & ->). exists g, (zadd u t). split; auto. split; [rewrite length_zadd; congruence|]. unfold image, translate. rewrite map_map. apply map_ext_in. intros x Hx.
  apply shift_shift; try congruence. rewrite Lu. apply (site_len CR), (cr_op CR Hg), (B_sites CR PB Hx).
Qed.
Lemma ordered_op X h t : In h ops -> length t = dim -> ordered B X -> ordered B (image h t X).
Proof using CR PB.
  intros Hh Lt (g & u & Hg & Lu & ->). destruct (cr_comp CR Hh Hg) as (k & Hk & w & Lw & E). destruct (cr_lattice CR Hh Lu) as (u' & Lu' & E').
  exists k, (zadd w (zadd u' t)). assert (L1 : length (zadd u' t) = dim) by (rewrite length_zadd; congruence). split; auto. split; [rewrite length_zadd; congruence|].
  unfold image. rewrite map_map. apply map_ext_in. intros x Hx. assert (Sx := B_sites CR PB Hx). rewrite E' by (apply (cr_op CR Hg Sx)). rewrite (E x Sx).
  assert (Lk := site_len CR (cr_op CR Hk Sx)). rewrite shift_shift; rewrite ?length_shift; try congruence. rewrite shift_shift; congruence.
Qed.
Lemma ordered_len X : ordered B X -> length X = length B.
Proof using. intros (g & t & _ & _ & ->). apply map_length. Qed.
(** Two images with the same sites differ by one of the permutations of the orbit. *)
Lemma ordered_perm p X Y : orbit_parts dim tol ops b = Some p -> ordered B X -> ordered B Y -> Permutation X Y ->
  exists q, In q (o_perms p) /\ forall i, (i < length B)%nat -> nth i Y [] = nth (nth i q 0%nat) X [].
Proof using CR PB.
  intros Ep OX OY PXY. assert (OX' := OX). assert (OY' := OY). destruct OX as (g & t & Hg & Lt & EX). destruct OY as (g' & t' & Hg' & Lt' & EY).
  destruct (cr_inv CR Hg') as (k & Hk & I). destruct (cr_comp CR Hk Hg) as (m & Hm & C).
  assert (OB : on_sites dim sites (fun x : list Qc => x)) by (intros x Hx; auto).
  assert (OM := on_op CR Hm). assert (OG := on_op CR Hg). assert (OG' := on_op CR Hg'). assert (OK := on_op CR Hk).
  (* g' after m is g *)
  assert (GM : same_op (fun x => operate g' (operate m x)) (operate g)).
  { apply (same_cancel CR Hk); [intros x Hx; auto|auto|]. apply (same_trans CR (h := operate m)); [intros x Hx; auto| |].
    - apply (same_trans CR (h := fun x => (fun y => y) (operate m x))); [exact OM| |].
      + apply (same_right (f := fun x => operate k (operate g' x)) (h := fun y => y) OM I).
      + exists (repeat 0%Z dim). split; [apply repeat_length|]. intros x Hx. symmetry. apply shift_0. apply (site_len CR), OM, Hx.
    - apply (same_sym CR); [exact OM|exact C]. }
  destruct GM as (w & Lw & GM).
  (* m maps the base cluster to a translate of it *)
  assert (HB := fun x => @B_sites _ _ _ _ _ CR b PB x). assert (SX := ordered_sites OX'). assert (SY := ordered_sites OY').
  assert (MX : moved dim X (map (operate g) B)) by (exists t; split; auto; rewrite EX; unfold image, translate; rewrite map_map; auto).
  assert (MY : moved dim Y (map (operate g') B)) by (exists t'; split; auto; rewrite EY; unfold image, translate; rewrite map_map; auto).
  assert (GB := image_sites CR Hg HB). assert (GB' := image_sites CR Hg' HB).
  assert (MG : moved dim (map (operate g) B) (map (operate g') B)).
  { apply (moved_trans CR GB' (moved_sym CR GB MX)). destruct MY as (v & Lv & Pv). exists v. split; auto. eapply perm_trans; eauto. }
  assert (ST : moved dim (map (operate m) B) B).
  { assert (A1 := moved_image CR Hk GB' MG). rewrite !map_map in A1. assert (A2 := moved_same I HB). rewrite map_id in A2. assert (A3 := moved_same C HB).
    refine (moved_trans CR HB (moved_sym CR (image_sites CR Hm HB) A3) (moved_trans CR HB A1 A2)). }
  destruct (parts_ok CR PB) as (p' & E' & _ & _ & _ & _ & _ & _ & C7 & _). rewrite Ep in E'. injection E' as <-.
  destruct (site_permutation_ok CR PB Hm) as (r & _ & R1 & R2). assert (SM : stab dim tol b m = true) by (apply (stab_iff CR PB Hm); exact ST).
  apply R1 in SM. destruct r as [q|]; [|congruence]. assert (Q := R2 q eq_refl). exists q. split; [apply C7; exists m; auto|].
  destruct Q as [Pq (u & Lu & Q)]. destruct (cr_lattice CR Hg' Lu) as (u' & Lu' & EU).
  (* a constant translation remains *)
  set (v := zadd (zadd (zadd (zneg t) w) u') t').
  assert (L1 : length (zadd (zneg t) w) = dim) by (rewrite length_zadd; rewrite ?length_zneg; congruence).
  assert (L2 : length (zadd (zadd (zneg t) w) u') = dim) by (rewrite length_zadd; congruence).
  assert (Lv : length v = dim) by (unfold v; rewrite length_zadd; congruence).
  assert (NX : forall i, (i < length B)%nat -> nth i X [] = shift (operate g (nth i B [])) t).
  { intros i Hi. rewrite EX. unfold image. rewrite (nth_indep _ [] (shift (operate g []) t)) by (rewrite map_length; auto). apply (map_nth (fun x => shift (operate g x) t)). }
  assert (NY : forall i, (i < length B)%nat -> nth i Y [] = shift (operate g' (nth i B [])) t').
  { intros i Hi. rewrite EY. unfold image. rewrite (nth_indep _ [] (shift (operate g' []) t')) by (rewrite map_length; auto). apply (map_nth (fun x => shift (operate g' x) t')). }
  assert (K : forall i, (i < length B)%nat -> nth i Y [] = shift (nth (nth i q 0%nat) X []) v).
  { intros i Hi. assert (Hq := nth_perm Pq Hi). rewrite (NY i Hi), (NX _ Hq), (Q i Hi). assert (Sj := nth_B CR PB Hq).
    rewrite EU by (apply (cr_op CR Hm Sj)). rewrite (GM _ Sj). assert (Lg := site_len CR (cr_op CR Hg Sj)). set (z := operate g (nth (nth i q 0%nat) B [])) in *.
    apply vec_ext.
    - rewrite !length_shift; rewrite ?length_shift; try congruence; rewrite ?length_shift; congruence.
    - intros j _. rewrite !comp_shift; rewrite ?length_shift; try congruence; rewrite ?length_shift; try congruence. unfold v.
      rewrite !nth_zadd; rewrite ?length_zadd, ?length_zneg; try congruence; rewrite ?length_zadd, ?length_zneg; try congruence. rewrite nth_zneg, !Qc_of_Z_add, Qc_of_Z_opp'. ring. }
  assert (LX := ordered_len OX'). assert (LY := ordered_len OY').
  assert (PY : Permutation Y (translate v X)).
  { set (F := fun j => shift (nth j X []) v). apply (perm_trans (l' := map F q)).
    - apply perm_eq. transitivity (map (fun i => nth i Y []) (seq 0 (length Y))); [symmetry; apply map_nth_seq|].
      transitivity (map F (map (fun i => nth i q 0%nat) (seq 0 (length q)))); [|rewrite map_nth_seq; auto]. rewrite map_map, (proj1 Pq), LY. apply map_ext_in. intros i Hi. apply in_seq in Hi. apply K. lia.
    - eapply perm_trans; [apply Permutation_map, (perm_seq Pq)|]. apply perm_eq. unfold F, translate. rewrite <- LX. rewrite <- (map_map (fun j => nth j X []) (fun x => shift x v)). rewrite map_nth_seq. auto. }
  assert (V0 : v = repeat 0%Z dim).
  { apply (@translate_unique _ _ _ _ _ CR X); auto; [apply repeat_length| |].
    - intros ->. destruct (B_cluster CR PB) as [N _]. destruct B; [congruence|discriminate LX].
    - eapply perm_trans; [apply Permutation_sym; exact PY|]. eapply perm_trans; [apply Permutation_sym; exact PXY|]. apply perm_eq. symmetry.
      transitivity (map (fun x => x) X); [|apply map_id]. apply map_ext_in. intros x Hx. apply shift_0. apply (site_len CR (SX x Hx)). }
  intros i Hi. rewrite (K i Hi), V0. apply shift_0. apply (site_len CR). apply SX. apply nth_In. rewrite LX. apply (nth_perm Pq Hi).
Qed.
End Images.

(** ** Sums over rows *)
Lemma choose {A C} (R : A -> C -> Prop) l : (forall a, In a l -> exists c, R a c) -> exists cs, Forall2 R l cs.
Proof.
  induction l as [|a l IH]; intros H; [exists []; constructor|]. destruct (H a (or_introl eq_refl)) as (c & Hc). destruct IH as (cs & F); [intros; apply H; right; auto|]. exists (c :: cs). constructor; auto.
Qed.
Lemma choose_perm n (R : nat -> nat -> Prop) : (forall i, (i < n)%nat -> exists j, (j < n)%nat /\ R i j) -> (forall i i' j, (i < n)%nat -> (i' < n)%nat -> R i j -> R i' j -> i = i') ->
  exists js, Permutation js (seq 0 n) /\ Forall2 R (seq 0 n) js.
Proof.
  intros E U. destruct (@choose _ _ (fun i j => (j < n)%nat /\ R i j) (seq 0 n)) as (js & F); [intros i Hi; apply in_seq in Hi; apply E; lia|]. exists js. split.
  - apply NoDup_Permutation_bis; [|rewrite (Forall2_length F); auto|].
    + assert (K : forall i, In i (seq 0 n) -> (i < n)%nat) by (intros i Hi; apply in_seq in Hi; lia). assert (D := seq_NoDup n 0). clear E.
      induction F as [|i j l js Hij F IH]; [constructor|]. inversion D as [|? ? Hi D']; subst. constructor; [|apply IH; auto; intros; apply K; right; auto].
      intros Hj. assert (X : exists i', In i' l /\ R i' j).
      { clear - F Hj. induction F as [|a c l js [_ Hac] F IH]; [destruct Hj|]. destruct Hj as [<- |Hj]; [exists a; split; [left|]; auto|]. destruct (IH Hj) as (i' & Hi' & Ri'). exists i'. split; [right|]; auto. }
      destruct X as (i' & Hi' & Ri'). assert (i = i') by (apply (U i i' j); try (apply K; simpl; auto; fail); [apply Hij|auto]). subst. auto.
    + intros j Hj. apply in_seq. clear - F Hj. induction F as [|a c l js [L _] F IH]; [destruct Hj|]. destruct Hj as [<- |Hj]; [lia|auto].
  - clear - F. induction F as [|a c l js [_ H] F IH]; constructor; auto.
Qed.
Lemma perm_map_inj {A C} (f : A -> C) l m : (forall x y, In x l -> In y m -> f x = f y -> x = y) -> Permutation (map f l) (map f m) -> Permutation l m.
Proof.
  intros I P. apply Permutation_map_inv in P as (l' & E & P). apply Permutation_sym in P. replace l with l'; auto.
  assert (K : forall y, In y l' -> In y m) by (intros y Hy; eapply Permutation_in; eauto). clear P. revert l' E K. induction l as [|x l IH]; intros [|y l'] E K; try discriminate E; auto.
  injection E as E1 E2. f_equal; [symmetry; apply I; [left; auto|apply K; left; auto|auto]|]. apply IH; auto; [intros; apply I; auto; right; auto|intros; apply K; right; auto].
Qed.

Lemma nth_of_error {A} (l m : list A) i j d : nth_error l i = nth_error m j -> nth i l d = nth j m d.
Proof.
  intros E. destruct (nth_error l i) as [x|] eqn:El; [rewrite (nth_error_nth _ _ _ El), (nth_error_nth _ _ _ (eq_sym E)); auto|].
  symmetry in E. apply nth_error_None in El, E. rewrite !nth_overflow; auto.
Qed.

Section Carry.
Variables (dim : nat) (tol : Qc) (G : list (list Qc)) (sites : list (list Qc)) (ops : list symop) (M : list (list Z)) (Minv : list (list Qc)).
Hypothesis CR : crystal dim tol G sites ops.
Hypothesis SU : supercell dim tol sites M Minv.
Notation site := (site dim sites).
Notation svec := (svec dim M).
Notation located := (located dim sites M Minv).
Variables (b : cluster) (p : parts).
Hypothesis PB : proper dim sites b.
Hypothesis EP : orbit_parts dim tol ops b = Some p.
Notation B := (c_coords b).
Variables (h : symop) (tau : list Z).
Hypothesis Hh : In h ops.
Hypothesis Ltau : length tau = dim.
Hypothesis KS : keeps_supercell dim sites M h.
Notation F := (fun x => shift (operate h x) tau).
Variable Xs : list (list (list Qc)).
Hypothesis OX : forall X, In X Xs -> ordered dim ops B X.
Hypothesis RX : representatives dim M ops B Xs.

Lemma smoved_back X Y Z : ordered dim ops B X -> ordered dim ops B Y -> (forall z, In z Z -> site z) -> smoved dim M (map F X) Z -> smoved dim M (map F Y) Z -> smoved dim M X Y.
Proof using CR SU PB Hh Ltau KS.
  intros OX' OY SZ (a & La & Pa) (c & Lc & Pc). assert (SX := ordered_sites CR PB OX'). assert (SY := ordered_sites CR PB OY).
  assert (Ln : length (zneg c) = dim) by (rewrite length_zneg; auto). set (d := zadd (zneg c) a). assert (Ld : length d = dim) by (unfold d; rewrite length_zadd; congruence).
  destruct (proj2 KS d Ld) as (s & Ls & Es). exists s. split; auto. assert (LS := len_svec SU).
  assert (FY : forall y, In y (map F Y) -> site y) by (intros y Hy; apply in_map_iff in Hy as (x & <- & Hx); apply (site_shift CR); auto; apply (cr_op CR Hh); auto).
  apply (@perm_map_inj _ _ F).
  - intros x y Hx Hy E. assert (Sy : site y) by (apply in_map_iff in Hy as (z & <- & Hz); apply (site_shift CR (SY z Hz)); apply LS).
    apply (op_inj CR Hh (SX x Hx) Sy). apply (shift_inj (t := tau)); auto; rewrite Ltau; apply (site_len CR), (cr_op CR Hh); auto.
  - assert (E : map F (translate (svec s) Y) = translate (svec d) (map F Y)).
    { unfold translate. rewrite !map_map. apply map_ext_in. intros y Hy. change (qvadd y (map Qc_of_Z (svec s))) with (shift y (svec s)). rewrite Es by auto.
      assert (Lh := site_len CR (cr_op CR Hh (SY y Hy))). change (qvadd (shift (operate h y) tau) (map Qc_of_Z (svec d))) with (shift (shift (operate h y) tau) (svec d)).
      apply vec_ext; [rewrite !length_shift; rewrite ?length_shift; rewrite ?LS; congruence|]. intros j _. rewrite !comp_shift; rewrite ?length_shift; rewrite ?LS; try congruence. ring. }
    rewrite E. eapply perm_trans; [exact Pa|].
    assert (PZ : Permutation Z (translate (svec (zneg c)) (map F Y))).
    { rewrite (svec_neg SU Lc). rewrite <- (@translate_back _ _ _ _ _ CR Z (svec c) (LS c) SZ). apply Permutation_map. apply Permutation_sym. exact Pc. }
    eapply perm_trans; [apply Permutation_map; exact PZ|]. apply perm_eq. change (map (fun x => qvadd x (map Qc_of_Z (svec a)))) with (translate (svec a)).
    rewrite (translate_add CR); auto. unfold d. rewrite (svec_add SU) by auto. auto.
Qed.
Lemma carry : exists js, Permutation js (seq 0 (length Xs)) /\ Forall2 (fun i j => smoved dim M (map F (nth i Xs [])) (nth j Xs [])) (seq 0 (length Xs)) js.
Proof using CR SU PB Hh Ltau KS OX RX.
  assert (OF : forall X, In X Xs -> ordered dim ops B (map F X)) by (intros X HX; apply (ordered_op CR PB Hh Ltau (OX HX))).
  assert (RO : forall X, ordered dim ops B X -> related dim ops X B) by (intros X (g & t & Hg & Lt & ->); exists g, t; auto).
  apply choose_perm.
  - intros i Hi. destruct RX as [_ R]. destruct (R _ (RO _ (OF _ (nth_In _ [] Hi)))) as (j & Y & Hj & SY & _). exists j. split; [apply nth_error_Some; congruence|]. rewrite (nth_error_nth _ _ _ Hj). auto.
  - intros i i' j Hi Hi' S S'. assert (Hj : (j < length Xs)%nat \/ (length Xs <= j)%nat) by lia. destruct Hj as [Hj|Hj].
    + assert (SB := smoved_back (OX (nth_In _ [] Hi)) (OX (nth_In _ [] Hi')) (ordered_sites CR PB (OX (nth_In _ [] Hj))) S S').
      assert (SR : smoved dim M (nth i Xs []) (nth i Xs [])).
      { exists (repeat 0%Z dim). split; [apply repeat_length|]. apply perm_eq. rewrite (svec_0 SU). symmetry. transitivity (map (fun x => x) (nth i Xs [])); [|apply map_id]. apply map_ext_in. intros x Hx.
        apply shift_0. apply (site_len CR (ordered_sites CR PB (OX (nth_In _ [] Hi)) Hx)). }
      destruct RX as [_ R]. destruct (R _ (RO _ (OX (nth_In _ [] Hi)))) as (m & Y & _ & _ & U). rewrite (U i _ (nth_error_nth' _ [] Hi) SR), (U i' _ (nth_error_nth' _ [] Hi') SB). auto.
    + exfalso. rewrite (nth_overflow Xs [] Hj) in S. destruct S as (t & _ & P). apply Permutation_length in P. rewrite map_length in P. cbn [translate map length] in P.
      assert (LX := ordered_len (OX (nth_In _ [] Hi))). destruct (B_cluster CR PB) as [N _]. destruct B; [congruence|]. simpl in LX. lia.
Qed.
Definition codes (occu row : list nat) : list nat := map (fun s => nth s occu 0%nat) row.
Variables (occu occu' : list nat) (rows : list (list nat)).
Hypothesis LR : Forall2 (Forall2 located) rows Xs.
Hypothesis CA : carried dim sites M Minv h tau occu occu'.
Lemma located_nth row X m : Forall2 located row X -> (m < length X)%nat -> located (nth m row 0%nat) (nth m X []).
Proof using. intros F'. revert m. clear -F'. induction F' as [|j x row X H F' IH]; intros [|m] L; simpl in *; try lia; auto. apply IH. lia. Qed.
Lemma rows_nth i : (i < length Xs)%nat -> Forall2 located (nth i rows []) (nth i Xs []).
Proof using LR. revert i. clear -LR. induction LR as [|r X rs Xs' H F' IH]; intros [|i] L; simpl in *; try lia; auto. apply IH; auto. lia. Qed.
Lemma located_scell j x t : site x -> length t = dim -> located j x -> located j (shift x (svec t)).
Proof using CR SU.
  intros Sx Lt H. assert (LS := len_svec SU). assert (Sx' := site_shift CR Sx (LS t)). apply (located_cell CR SU j Sx) in H as (y & Hy & S). apply (located_cell CR SU j Sx').
  exists y. split; auto. apply (@scell_trans _ _ _ _ _ SU _ x); auto; [apply (site_len CR), (cell_site SU (nth_error_In _ _ Hy))|]. exists t. auto.
Qed.
Lemma carry_codes i j : (i < length Xs)%nat -> (j < length Xs)%nat -> smoved dim M (map F (nth i Xs [])) (nth j Xs []) ->
  exists q, In q (o_perms p) /\ codes occu' (nth j rows []) = act (codes occu (nth i rows [])) q.
Proof using CR SU PB EP Hh Ltau OX LR CA.
  intros Hi Hj (a & La & Pa). assert (OXi := OX (nth_In _ [] Hi)). assert (OXj := OX (nth_In _ [] Hj)). assert (LS := len_svec SU).
  destruct (ordered_perm CR PB EP (ordered_op CR PB Hh Ltau OXi) (ordered_translate CR PB (LS a) OXj) Pa) as (q & Hq & E). exists q. split; auto.
  destruct (parts_ok CR PB) as (p' & E' & _ & _ & _ & _ & _ & _ & _ & PG). rewrite EP in E'. injection E' as <-. assert (Pq := pg_perm PG q Hq).
  assert (LXi := ordered_len OXi). assert (LXj := ordered_len OXj). assert (Ri := rows_nth Hi). assert (Rj := rows_nth Hj). assert (Lri := Forall2_length Ri). assert (Lrj := Forall2_length Rj).
  apply (nth_ext _ _ 0%nat 0%nat); [unfold codes, act; rewrite !map_length; rewrite (proj1 Pq); congruence|]. intros m Hm. unfold codes in Hm. rewrite map_length in Hm.
  assert (Hm' : (m < length B)%nat) by congruence. assert (Hqm := nth_perm Pq Hm'). assert (Hmq : (m < length q)%nat) by (rewrite (proj1 Pq); auto).
  rewrite (nth_act (codes occu (nth i rows [])) Hmq). unfold codes.
  rewrite (nth_indep _ 0%nat (nth 0 occu' 0%nat)) by (rewrite map_length; auto). rewrite (map_nth (fun s => nth s occu' 0%nat)).
  rewrite (nth_indep (map (fun s => nth s occu 0%nat) (nth i rows [])) 0%nat (nth 0 occu 0%nat)) by (rewrite map_length; congruence). rewrite (map_nth (fun s => nth s occu 0%nat)).
  specialize (E m Hm'). set (x := nth (nth m q 0%nat) (nth i Xs []) []). assert (Sx : site x) by (apply (ordered_sites CR PB OXi), nth_In; congruence).
  assert (EL : nth m (translate (svec a) (nth j Xs [])) [] = shift (nth m (nth j Xs []) []) (svec a)).
  { unfold translate. rewrite (nth_indep _ [] (shift [] (svec a))) by (rewrite map_length; congruence). apply (map_nth (fun x => shift x (svec a))). }
  assert (ER : nth (nth m q 0%nat) (image h tau (nth i Xs [])) [] = F x).
  { unfold image. rewrite (nth_indep _ [] (F [])) by (rewrite map_length; congruence). apply (map_nth F). }
  rewrite EL, ER in E. assert (Sy : site (nth m (nth j Xs []) [])) by (apply (ordered_sites CR PB OXj), nth_In; congruence).
  assert (L1 : located (nth m (nth j rows []) 0%nat) (F x)) by (rewrite <- E; apply located_scell; auto; apply located_nth; auto; congruence).
  assert (L2 : located (nth (nth m q 0%nat) (nth i rows []) 0%nat) x) by (apply located_nth; auto; congruence).
  assert (CE := CA Sx L2 L1). apply nth_of_error. exact CE.
Qed.
(** Sums of a function of the codes that the permutations of the orbit leave unchanged. *)
Lemma carry_sum (Phi : list nat -> Qc) : (forall i q, (i < length Xs)%nat -> In q (o_perms p) -> Phi (act (codes occu (nth i rows [])) q) = Phi (codes occu (nth i rows []))) ->
  qsum (map (fun row => Phi (codes occu' row)) rows) = qsum (map (fun row => Phi (codes occu row)) rows).
Proof using CR SU PB EP Hh Ltau KS OX RX LR CA.
  intros I. destruct carry as (js & PJ & FJ). assert (LL := Forall2_length LR).
  assert (N : forall o, map (fun row => Phi (codes o row)) rows = map (fun i => Phi (codes o (nth i rows []))) (seq 0 (length Xs))).
  { intros o. rewrite <- LL. transitivity (map (fun row => Phi (codes o row)) (map (fun i => nth i rows []) (seq 0 (length rows)))); [rewrite map_nth_seq; auto|]. rewrite map_map. auto. }
  rewrite !N. rewrite <- (qsum_perm (Permutation_map (fun i => Phi (codes occu' (nth i rows []))) PJ)). f_equal.
  assert (KI : forall i, In i (seq 0 (length Xs)) -> (i < length Xs)%nat) by (intros i Hi; apply in_seq in Hi; lia).
  assert (KJ : forall j, In j js -> (j < length Xs)%nat) by (intros j Hj; apply KI; eapply Permutation_in; eauto). clear PJ N.
  induction FJ as [|i j l js S FJ IH]; auto. cbn [map]. f_equal; [|apply IH; [intros; apply KI; right; auto|intros; apply KJ; right; auto]].
  destruct (carry_codes (KI i (or_introl eq_refl)) (KJ j (or_introl eq_refl)) S) as (q & Hq & ->). apply I; auto. apply KI. left. auto.
Qed.
End Carry.
