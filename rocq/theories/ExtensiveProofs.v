(** Proofs about the correlations of the same arrangement in different supercells. *)
From Verif Require Import LibProofs SublatticeProofs EvaluatorProofs EvaluatorProps TensorProofs OrbitProps GroundEnergyProofs OrbitSearchProofs OrbitGenProps.
From Verif Require Export ExtensiveSpec OrbitIndicesProofs SymmetryProofs OrbitIndicesProps SymmetryProps.
From Coq Require Import Lia Permutation.
Set Implicit Arguments.
Unset Strict Implicit.
Local Open Scope Qc_scope.

Lemma qsum_prod {A B} (f : A -> B -> Qc) (l : list A) (m : list B) : qsum (map (fun q => f (fst q) (snd q)) (list_prod l m)) = qsum (map (fun a => qsum (map (f a) m)) l).
Proof. induction l as [|a l IH]; auto. cbn [list_prod map]. rewrite map_app, qsum_app, IH, map_map. reflexivity. Qed.
Lemma map_rel {A B C} (R : A -> B -> Prop) (f : A -> C) (g : B -> C) l m : Forall2 R l m -> (forall a b, In a l -> In b m -> R a b -> f a = g b) -> map f l = map g m.
Proof. induction 1 as [|a b l m H F IH]; intros E; auto. cbn [map]. f_equal; [apply E; auto; left; auto|apply IH; intros; apply E; auto; right; auto]. Qed.

(** ** Sums over the lattice points of a supercell *)
Section Points.
Variables (dim : nat) (tol : Qc) (sites : list (list Qc)) (M : list (list Z)) (Minv : list (list Qc)).
Hypothesis SU : supercell dim tol sites M Minv.
Notation P := (cell_points dim M Minv).
Notation svec := (svec dim M).
Lemma shift_sum (k : list Z -> Qc) w : length w = dim -> (forall v t, length v = dim -> length t = dim -> k (zadd v (svec t)) = k v) ->
  qsum (map (fun v => k (zadd v w)) P) = qsum (map k P).
Proof using SU.
  intros Lw K. assert (LS := len_svec SU).
  destruct (@choose _ _ (fun v v' => In v' P /\ exists t, length t = dim /\ zadd v w = zadd v' (svec t)) P) as (Q & F).
  { intros v Hv. assert (Lv : length (zadd v w) = dim) by (rewrite length_zadd; rewrite ?(point_len SU Hv); auto). destruct (point_rep SU Lv) as (p & t & Hp & Lt & E). exists p. eauto. }
  assert (PQ : Permutation Q P).
  { apply NoDup_Permutation_bis; [|rewrite (Forall2_length F); auto|].
    - assert (D := points_nodup dim M Minv).
      assert (GEN : forall l, (forall v, In v l -> In v P) -> forall Q, Forall2 (fun v v' => In v' P /\ exists t, length t = dim /\ zadd v w = zadd v' (svec t)) l Q -> NoDup l -> NoDup Q); [|apply (GEN P (fun v H => H) Q F D)].
      clear F D Q. intros l HP Q F. revert HP. induction F as [|v v' l Q (Hv' & t & Lt & E) F IH]; intros HP D; [constructor|].
      apply NoDup_cons_iff in D as [Nv D']. constructor; [|apply IH; auto; intros; apply HP; right; auto].
      intros I. assert (X : exists u, In u l /\ exists t, length t = dim /\ zadd u w = zadd v' (svec t)).
      { clear IH HP D' Nv. induction F as [|a c l Q [_ H] F IH]; [destruct I|]. destruct I as [<- |I]; [exists a; split; [left|]; auto|]. destruct (IH I) as (u & Hu & ?). exists u. split; [right|]; auto. }
      destruct X as (u & Hu & t' & Lt' & E'). assert (Pv := HP v (or_introl eq_refl)). assert (Pu := HP u (or_intror Hu)). assert (Lv := point_len SU Pv). assert (Lu := point_len SU Pu). assert (Lv' := point_len SU Hv').
      assert (v = u); [|congruence]. apply (point_unique SU (t := zadd t (zneg t')) Pv Pu); [rewrite length_zadd; rewrite length_zneg; congruence|].
      rewrite (svec_add SU), (svec_neg SU) by (rewrite ?length_zneg; auto). apply zvec_ext.
      + rewrite !length_zadd; rewrite ?length_zadd, ?length_zneg, ?LS; auto; rewrite ?length_zneg, ?LS; auto.
      + intros m. apply (f_equal (fun l => nth m l 0%Z)) in E, E'. rewrite !nth_zadd in E, E' by (rewrite ?LS; congruence).
        rewrite !nth_zadd; rewrite ?length_zadd, ?length_zneg, ?LS; auto; rewrite ?length_zneg, ?LS; auto. rewrite nth_zneg. lia.
    - intros v Hv. revert F Hv. generalize P at 2. intros l F Hv. induction F as [|a c l Q [H _] F IH]; [destruct Hv|]. destruct Hv as [<- |Hv]; auto. }
  rewrite <- (qsum_perm (Permutation_map k PQ)). f_equal. apply (map_rel F). intros v v' Hv Hv' (_ & t & Lt & E). rewrite E. apply K; auto. apply (point_len SU). eapply Permutation_in; eauto.
Qed.
End Points.

Section Two.
Variables (dim : nat) (tol : Qc) (G : list (list Qc)) (sites : list (list Qc)) (ops : list symop).
Hypothesis CR : crystal dim tol G sites ops.
Notation site := (site dim sites).
Variables (h : symop) (tau : list Z).
Hypothesis Hh : In h ops.
Hypothesis Ltau : length tau = dim.
Notation F := (fun x => shift (operate h x) tau).
(** The lattice vector [w] is the image of [u]. *)
Definition turned (u w : list Z) : Prop := length u = dim /\ length w = dim /\ forall x, site x -> operate h (shift x u) = shift (operate h x) w.
Lemma turned_fwd u : length u = dim -> exists w, turned u w.
Proof using CR Hh. intros L. destruct (cr_lattice CR Hh L) as (w & Lw & E). exists w. split; auto. Qed.
Lemma turned_bwd w : length w = dim -> exists u, turned u w.
Proof using CR Hh.
  intros Lw. destruct (cr_inv CR Hh) as (h' & Hh' & I). destruct I as (z & Lz & I). destruct (cr_lattice CR Hh' Lw) as (u & Lu & E). exists u. split; auto. split; auto. intros x Sx.
  assert (Sh := cr_op CR Hh Sx). assert (Lh := site_len CR Sh). assert (Lx := site_len CR Sx).
  assert (S1 : site (shift x u)) by (apply (site_shift CR Sx Lu)). apply (op_inj CR Hh' (cr_op CR Hh S1)); [apply (site_shift CR Sh Lw)|].
  rewrite (E _ Sh), (I _ S1), (I _ Sx). apply vec_ext; [rewrite !length_shift; rewrite ?length_shift; congruence|]. intros j _. rewrite !comp_shift; rewrite ?length_shift; try congruence. ring.
Qed.
Lemma turned_add u w u' w' : turned u w -> turned u' w' -> turned (zadd u u') (zadd w w').
Proof using CR Hh.
  intros (Lu & Lw & E) (Lu' & Lw' & E'). split; [rewrite length_zadd; congruence|]. split; [rewrite length_zadd; congruence|]. intros x Sx. assert (Lx := site_len CR Sx). assert (Lh := site_len CR (cr_op CR Hh Sx)).
  rewrite <- (@shift_shift x u u') by congruence. rewrite (E' _ (site_shift CR Sx Lu)), (E _ Sx). apply shift_shift; congruence.
Qed.
Lemma turned_F u w A : turned u w -> (forall x, In x A -> site x) -> map F (translate u A) = translate w (map F A).
Proof using CR Hh Ltau.
  intros (Lu & Lw & E) SA. unfold translate. rewrite !map_map. apply map_ext_in. intros x Hx. assert (Sx := SA x Hx). change (qvadd x (map Qc_of_Z u)) with (shift x u). rewrite (E x Sx).
  change (qvadd (shift (operate h x) tau) (map Qc_of_Z w)) with (shift (shift (operate h x) tau) w). assert (Lh := site_len CR (cr_op CR Hh Sx)).
  apply vec_ext; [rewrite !length_shift; rewrite ?length_shift; congruence|]. intros j _. rewrite !comp_shift; rewrite ?length_shift; try congruence. ring.
Qed.

Variables (M : list (list Z)) (Minv : list (list Qc)) (M' : list (list Z)) (Minv' : list (list Qc)).
Hypothesis SU : supercell dim tol sites M Minv.
Hypothesis SU' : supercell dim tol sites M' Minv'.
Notation P := (cell_points dim M Minv).
Notation P' := (cell_points dim M' Minv').
(** Averages over the two supercells of a function and of the function that it becomes when the lattice is turned. *)
Lemma turned_mean (g k : list Z -> Qc) t : length t = dim ->
  (forall v s, length v = dim -> length s = dim -> g (zadd v (svec dim M s)) = g v) -> (forall v s, length v = dim -> length s = dim -> k (zadd v (svec dim M' s)) = k v) ->
  (forall u w, turned u w -> g u = k (zadd w t)) -> Qc_of_nat (length P') * qsum (map g P) = Qc_of_nat (length P) * qsum (map k P').
Proof using CR Hh SU SU'.
  clear Ltau tau. intros Lt Kg Kk E.
  destruct (@choose _ _ turned P) as (Ws & FW); [intros u Hu; apply turned_fwd, (point_len SU Hu)|].
  assert (LW : forall w, In w Ws -> length w = dim) by (intros w Hw; clear - FW Hw; induction FW as [|a c l Q (_ & H & _) FW IH]; [destruct Hw|destruct Hw as [<- |Hw]; auto]).
  assert (A1 : qsum (map (fun w => qsum (map (fun v => k (zadd v (zadd w t))) P')) Ws) = Qc_of_nat (length P) * qsum (map k P')).
  { rewrite (qsum_map_ext _ (fun _ => qsum (map k P'))); [rewrite qsum_const, (Forall2_length FW); auto|]. intros w Hw. apply (shift_sum SU'); auto. rewrite length_zadd; auto. rewrite (LW w Hw). auto. }
  rewrite qsum_swap in A1. rewrite <- A1. transitivity (qsum (map (fun _ => qsum (map g P)) P')); [symmetry; apply qsum_const|]. apply qsum_map_ext.
  intros v Hv. assert (Lv := point_len SU' Hv). destruct (turned_bwd Lv) as (u' & T'). assert (T'' := T'). destruct T'' as (Lu' & _ & _).
  rewrite <- (shift_sum SU Lu' Kg). f_equal. apply (map_rel FW). intros u w Hu Hw T. rewrite (E _ _ (turned_add T T')). f_equal. assert (Lw := LW w Hw).
  apply zvec_ext; [rewrite !length_zadd; rewrite ?length_zadd; congruence|]. intros j. rewrite !nth_zadd; rewrite ?length_zadd; try congruence. lia.
Qed.

(** ** The species on a site of the crystal *)
Definition deco (tol' : Qc) (sites' : list (list Qc)) (A : list (list Z)) (Ainv : list (list Qc)) (occu : list nat) (x : list Qc) : nat :=
  nth (hd 0%nat (pbc_matches tol' (fr dim Ainv x) (map (fr dim Ainv) (cells dim sites' A Ainv)))) occu 0%nat.
Lemma deco_at A Ainv occu x j : supercell dim tol sites A Ainv -> site x -> located dim sites A Ainv j x -> deco tol sites A Ainv occu x = nth j occu 0%nat.
Proof using CR. intros S Sx Lj. destruct (located_one CR S Sx) as (i & Li & _ & U & E). unfold deco. rewrite E. cbn [hd]. rewrite (U j Lj). auto. Qed.
Lemma deco_svec A Ainv occu x t : supercell dim tol sites A Ainv -> site x -> length t = dim -> deco tol sites A Ainv occu (shift x (svec dim A t)) = deco tol sites A Ainv occu x.
Proof using CR.
  intros S Sx Lt. destruct (located_one CR S Sx) as (j & Lj & _). rewrite (@deco_at A Ainv occu x j) by auto. apply deco_at; auto; [apply (site_shift CR Sx), (len_svec S)|]. apply (located_scell CR S Sx Lt Lj).
Qed.
Lemma deco_codes A Ainv occu row X : supercell dim tol sites A Ainv -> (forall x, In x X -> site x) -> Forall2 (located dim sites A Ainv) row X -> codes occu row = map (deco tol sites A Ainv occu) X.
Proof using CR.
  intros S SX FL. unfold codes. apply (map_rel FL). intros j x Hj Hx Lj. symmetry. apply deco_at; auto.
Qed.
Variables (occu occu' : list nat).
Hypothesis MA : moved_arrangement dim sites h tau M Minv occu M' Minv' occu'.
Notation d := (deco tol sites M Minv occu).
Notation d' := (deco tol sites M' Minv' occu').
Lemma deco_moved x : site x -> d' (F x) = d x.
Proof using CR SU SU' MA Hh Ltau.
  intros Sx. assert (Sy : site (F x)) by (apply (site_shift CR); auto; apply (cr_op CR Hh Sx)). destruct (located_one CR SU Sx) as (j & Lj & _). destruct (located_one CR SU' Sy) as (k & Lk & _).
  rewrite (@deco_at M Minv occu x j), (@deco_at M' Minv' occu' _ k) by auto. apply nth_of_error. apply (MA Sx Lj Lk).
Qed.

Variables (b : cluster) (p : parts).
Hypothesis PB : proper dim sites b.
Hypothesis EP : orbit_parts dim tol ops b = Some p.
Notation B := (c_coords b).
Notation cs := (o_clusters p).
Lemma cluster_sites c x : In c cs -> In x (c_coords c) -> site x.
Proof using CR PB EP. destruct (parts_ok CR PB) as (p' & E' & P1 & _). rewrite EP in E'. injection E' as <-. intros Hc. apply (proper_coords CR (P1 c Hc)). Qed.
(** The operation permutes the clusters of the orbit. *)
Lemma carry_clusters : exists js, Permutation js (seq 0 (length cs)) /\
  Forall2 (fun i j => moved dim (map F (c_coords (nth i cs b))) (c_coords (nth j cs b))) (seq 0 (length cs)) js.
Proof using CR PB EP Hh Ltau.
  destruct (parts_ok CR PB) as (p' & E' & P1 & P2 & P3 & P4 & _). rewrite EP in E'. injection E' as <-.
  assert (SC := cluster_sites). assert (SF : forall c x, In c cs -> In x (map F (c_coords c)) -> site x).
  { intros c x Hc Hx. apply in_map_iff in Hx as (y & <- & Hy). apply (site_shift CR); auto. apply (cr_op CR Hh), (SC c y Hc Hy). }
  apply choose_perm.
  - intros i Hi. assert (Hc : In (nth i cs b) cs) by (apply nth_In; auto). set (c := nth i cs b) in *. assert (O := ordered_op CR PB Hh Ltau (ordered_clusters CR PB EP Hc)). destruct O as (g & t & Hg & Lt & Eg).
    destruct (P4 g Hg) as (c' & Hc' & Mc'). destruct (In_nth _ _ b Hc') as (j & Hj & Ej). exists j. split; auto. rewrite Ej.
    assert (MG : moved dim (map F (c_coords c)) (map (operate g) B)). { exists t. split; auto. unfold image in Eg. rewrite Eg. apply perm_eq. apply map_shift_op. }
    apply (moved_trans CR (fun x => SC c' x Hc') MG). apply (moved_sym CR (image_sites CR Hg (fun x => @B_sites _ _ _ _ _ CR b PB x)) Mc').
  - intros i i' j Hi Hi' S S'. assert (Hc : In (nth i cs b) cs) by (apply nth_In; auto). assert (Hc' : In (nth i' cs b) cs) by (apply nth_In; auto).
    apply (P2 i i' (nth i cs b) (nth i' cs b)); try (apply nth_error_nth'; auto). set (c := nth i cs b) in *. set (c' := nth i' cs b) in *.
    assert (SJ : forall x, In x (c_coords (nth j cs b)) -> site x).
    { destruct (Nat.ltb_spec j (length cs)) as [L|L]; [intros x; apply SC, nth_In; auto|rewrite (nth_overflow cs b L); intros x; apply (B_sites CR PB)]. }
    destruct (moved_trans CR (fun x => SF c' x Hc') S (moved_sym CR SJ S')) as (w & Lw & Pw).
    destruct (turned_bwd Lw) as (u & T). exists u. split; [apply T|].
    apply (@perm_map_inj _ _ F).
    + intros x y Hx Hy E. assert (Sx := SC c x Hc Hx). assert (Sy : site y) by (apply in_map_iff in Hy as (z & <- & Hz); apply (site_shift CR (SC c' z Hc' Hz)); apply T).
      apply (op_inj CR Hh Sx Sy). apply (shift_inj (t := tau)); auto; rewrite Ltau; apply (site_len CR), (cr_op CR Hh); auto.
    + rewrite (turned_F T (fun x => SC c' x Hc')). exact Pw.
Qed.
(** Sums of a function of the codes that the permutations of the orbit leave unchanged. *)
Variable Phi : list nat -> Qc.
Hypothesis PI : forall X q, ordered dim ops B X -> In q (o_perms p) -> Phi (act (map d X) q) = Phi (map d X).
Notation g := (fun c u => Phi (map d (translate u (c_coords c)))).
Notation k := (fun c u => Phi (map d' (translate u (c_coords c)))).
Lemma carry_deco X Y : ordered dim ops B X -> ordered dim ops B Y -> Permutation (map F X) Y -> Phi (map d' Y) = Phi (map d X).
Proof using CR SU SU' MA Hh Ltau PB EP PI.
  intros OX OY PXY. destruct (ordered_perm CR PB EP (ordered_op CR PB Hh Ltau OX) OY PXY) as (q & Hq & E). rewrite <- (PI OX Hq). f_equal.
  destruct (parts_ok CR PB) as (p' & E' & _ & _ & _ & _ & _ & _ & _ & PG). rewrite EP in E'. injection E' as <-. assert (Pq := pg_perm PG q Hq).
  assert (LX := ordered_len OX). assert (LY := ordered_len OY).
  apply (nth_ext _ _ 0%nat 0%nat); [unfold act; rewrite !map_length; rewrite (proj1 Pq); auto|]. intros m Hm. rewrite map_length in Hm.
  assert (Hm' : (m < length B)%nat) by congruence. assert (Hqm := nth_perm Pq Hm'). assert (Hmq : (m < length q)%nat) by (rewrite (proj1 Pq); auto).
  rewrite (nth_act (map d X) Hmq). rewrite (nth_indep _ 0%nat (d' [])) by (rewrite map_length; auto). rewrite (map_nth d'). rewrite (E m Hm').
  assert (Hx : (nth m q 0 < length X)%nat) by congruence.
  unfold image. rewrite (nth_indep (map F X) [] (F [])) by (rewrite map_length; auto). rewrite (map_nth F). rewrite (nth_indep (map d X) 0%nat (d [])) by (rewrite map_length; auto). rewrite (map_nth d).
  apply deco_moved. apply (ordered_sites CR PB OX). apply nth_In. auto.
Qed.
Lemma periodic A Ainv oc c v s : supercell dim tol sites A Ainv -> In c cs -> length v = dim -> length s = dim ->
  Phi (map (deco tol sites A Ainv oc) (translate (zadd v (svec dim A s)) (c_coords c))) = Phi (map (deco tol sites A Ainv oc) (translate v (c_coords c))).
Proof using CR PB EP.
  intros S Hc Lv Ls. f_equal. assert (LS := len_svec S s). rewrite <- (translate_add CR Lv LS (fun x => @cluster_sites c x Hc)). unfold translate. rewrite !map_map. apply map_ext_in. intros x Hx.
  apply deco_svec; auto. apply (site_shift CR (cluster_sites Hc Hx) Lv).
Qed.
Lemma carry_mean : Qc_of_nat (length P') * qsum (map (fun X => Phi (map d X)) (map (fun q => translate (snd q) (c_coords (fst q))) (list_prod cs P))) =
  Qc_of_nat (length P) * qsum (map (fun X => Phi (map d' X)) (map (fun q => translate (snd q) (c_coords (fst q))) (list_prod cs P'))).
Proof using CR SU SU' MA Hh Ltau PB EP PI.
  rewrite !map_map. rewrite (qsum_prod g), (qsum_prod k). destruct carry_clusters as (js & PJ & FJ).
  assert (N : forall f : cluster -> Qc, qsum (map f cs) = qsum (map (fun i => f (nth i cs b)) (seq 0 (length cs)))) by (intros f; rewrite <- (map_map (fun i => nth i cs b) f), map_nth_seq; auto).
  rewrite !N. rewrite <- (qsum_perm (Permutation_map (fun i => qsum (map (k (nth i cs b)) P')) PJ)). rewrite <- !qsum_map_scale. f_equal.
  apply (map_rel FJ). intros i j Hi Hj (t & Lt & Pt). apply in_seq in Hi. assert (Hj' : In j (seq 0 (length cs))) by (eapply Permutation_in; eauto). apply in_seq in Hj'.
  assert (Hc : In (nth i cs b) cs) by (apply nth_In; lia). assert (Hc' : In (nth j cs b) cs) by (apply nth_In; lia). set (c := nth i cs b) in *. set (c' := nth j cs b) in *.
  apply (@turned_mean (g c) (k c') t Lt).
  - intros v s Lv Ls. apply (periodic (A := M)); auto.
  - intros v s Lv Ls. apply (periodic (A := M')); auto.
  - intros u w T. assert (Lu := proj1 T). assert (Lw := proj1 (proj2 T)). symmetry. apply carry_deco.
    + apply (ordered_translate CR PB Lu), (ordered_clusters CR PB EP Hc).
    + apply (ordered_translate CR PB); [rewrite length_zadd; congruence|]. apply (ordered_clusters CR PB EP Hc').
    + rewrite (turned_F T (fun x => @cluster_sites c x Hc)). eapply perm_trans; [apply Permutation_map; exact Pt|]. apply perm_eq.
      change (map (fun x => qvadd x (map Qc_of_Z w))) with (translate w). rewrite (translate_add CR Lt Lw (fun x => @cluster_sites c' x Hc')). f_equal.
      apply zvec_ext; [rewrite !length_zadd; congruence|]. intros m. rewrite !nth_zadd by congruence. lia.
Qed.
End Two.
