(** C91: the site indices of the clusters of an orbit in a supercell.  See OrbitIndicesSpec for the
    notions used in the statements. *)
From Verif Require Import LibProofs SublatticeProofs OrbitProps GroundEnergyProofs.
From Verif Require Import OrbitGenProps OrbitIndicesProofs.
From Coq Require Import Lia Permutation.
Set Implicit Arguments.
Unset Strict Implicit.
Local Open Scope Qc_scope.

Section Rows.
Variables (dim : nat) (tol : Qc) (G : list (list Qc)) (sites : list (list Qc)) (ops : list symop) (M : list (list Z)) (Minv : list (list Qc)).
Hypothesis CR : crystal dim tol G sites ops.
Hypothesis SU : supercell dim tol sites M Minv.
Notation site := (site dim sites).
Notation P := (cell_points dim M Minv).
Notation located := (located dim sites M Minv).
Notation smoved := (smoved dim M).

Lemma mapping_located X : (forall x, In x X -> site x) ->
  exists row, pbc_mapping tol (map (fr dim Minv) X) (supercell_coords dim Minv sites (frac_points dim M Minv)) = Some row /\ Forall2 located row X.
Proof using CR SU.
  intros H. rewrite (coords_cells CR SU). unfold pbc_mapping.
  destruct (@opt_map_rel _ _ (fun x => match pbc_matches tol x (map (fr dim Minv) (cells dim sites M Minv)) with [j] => Some j | _ => None end)
    (fun c j => forall x, site x -> c = fr dim Minv x -> located j x) (map (fr dim Minv) X)) as (row & E & F).
  - intros c Hc. apply in_map_iff in Hc as (x & <- & Hx). destruct (located_one CR SU (H x Hx)) as (j & Lj & _ & _ & Ej). exists j. rewrite Ej. split; auto.
    intros y Hy Ey. apply (fr_inj SU (site_len CR (H x Hx)) (site_len CR Hy)) in Ey. subst y. exact Lj.
  - exists row. split; auto. clear E. revert row F. induction X as [|x X IH]; intros row F; inversion F as [|? j ? r Fj Fr]; subst; constructor.
    + apply Fj; auto. apply H. left. auto.
    + apply IH; auto. intros; apply H; right; auto.
Qed.
Lemma rows_located cs : (forall c x, In c cs -> In x (c_coords c) -> site x) ->
  exists rows, index_rows dim tol sites M Minv cs = Some rows /\ Forall2 (Forall2 located) rows (map (fun q => translate (snd q) (c_coords (fst q))) (list_prod cs P)).
Proof using CR SU.
  intros H. unfold index_rows. unfold frac_points at 2. rewrite list_prod_map.
  assert (K : forall q, In q (list_prod cs P) -> (forall x, In x (c_coords (fst q)) -> site x) /\ length (snd q) = dim).
  { intros [c p] Hq. apply in_prod_iff in Hq as [Hc Hp]. split; [intros x; apply H; auto|apply (point_len SU Hp)]. }
  revert K. generalize (list_prod cs P). intros l K. induction l as [|[c p] l IH]; [exists []; split; [auto|constructor]|].
  destruct IH as (rows & E & F); [intros; apply K; right; auto|]. destruct (K (c, p) (or_introl eq_refl)) as [Kc Kp]. cbn [fst snd] in Kc, Kp.
  assert (S : forall x, In x (translate p (c_coords c)) -> site x). { intros x Hx. apply in_map_iff in Hx as (y & <- & Hy). apply (site_shift CR (Kc y Hy) Kp). }
  destruct (mapping_located S) as (row & Er & Fr). exists (row :: rows). split; [|constructor; auto]. cbn [map opt_map fst snd].
  assert (T : map (fun x => qvadd (vmat dim x Minv) (vmat dim (map Qc_of_Z p) Minv)) (c_coords c) = map (fr dim Minv) (translate p (c_coords c))).
  { unfold translate. rewrite map_map. apply map_ext_in. intros x Hx. rewrite (fr_add SU); auto; [apply (site_len CR (Kc x Hx))|rewrite map_length; auto]. }
  rewrite T, Er. cbn [option_bind]. rewrite E. auto.
Qed.
Lemma reps_ok (b : cluster) (cs : list cluster) : proper dim sites b -> (forall c, In c cs -> proper dim sites c) -> apart dim cs ->
  (forall c, In c cs -> exists g, In g ops /\ moved dim (c_coords c) (map (operate g) (c_coords b))) ->
  (forall g, In g ops -> exists c, In c cs /\ moved dim (c_coords c) (map (operate g) (c_coords b))) ->
  representatives dim M ops (c_coords b) (map (fun q => translate (snd q) (c_coords (fst q))) (list_prod cs P)).
Proof using CR SU.
  intros PB PC AP S1 S2. assert (SB : forall x, In x (c_coords b) -> site x) by apply (proper_coords CR PB).
  assert (SC : forall c x, In c cs -> In x (c_coords c) -> site x) by (intros c x Hc; apply (proper_coords CR (PC c Hc))).
  assert (GB : forall g, In g ops -> forall x, In x (map (operate g) (c_coords b)) -> site x) by (intros g Hg; apply (image_sites CR Hg SB)).
  assert (DC : NoDup cs).
  { apply NoDup_nth_error. intros i j Hi E. destruct (nth_error cs i) as [c|] eqn:Ec; [|apply nth_error_Some in Hi; congruence].
    apply (AP i j c c); auto. apply (moved_refl CR (proper_coords CR (PC c (nth_error_In _ _ Ec)))). }
  assert (DP := list_prod_nodup DC (points_nodup dim M Minv)). split.
  - intros X HX. apply in_map_iff in HX as ([c p] & <- & Hq). apply in_prod_iff in Hq as [Hc Hp]. cbn [fst snd]. apply related_moved. destruct (S1 c Hc) as (g & Hg & Mg). exists g. split; auto.
    refine (moved_trans CR (GB g Hg) _ Mg). exists p. split; [apply (point_len SU Hp)|auto].
  - intros X R. apply related_moved in R as (g & Hg & Mx). destruct (S2 g Hg) as (c & Hc & Mc).
    assert (N : moved dim X (c_coords c)) by (apply (moved_trans CR (fun x => SC c x Hc) Mx); apply (moved_sym CR (GB g Hg) Mc)).
    destruct N as (u & Lu & Pu). destruct (point_rep SU Lu) as (p & t & Hp & Lt & Eu). assert (Lp := point_len SU Hp).
    assert (I : In (c, p) (list_prod cs P)) by (apply in_prod; auto). apply In_nth_error in I as (i & Hi). exists i, (translate p (c_coords c)).
    split; [rewrite nth_error_map, Hi; auto|]. split.
    + exists t. split; auto. rewrite (translate_add CR); auto; [rewrite <- Eu; auto|apply (len_svec SU)|intros x; apply SC; auto].
    + intros j Y Hj (t' & Lt' & Pt). rewrite nth_error_map in Hj. destruct (nth_error (list_prod cs P) j) as [[c' p']|] eqn:Ej; [|discriminate Hj]. injection Hj as <-. cbn [fst snd] in Pt.
      assert (I := nth_error_In _ _ Ej). apply in_prod_iff in I as [Hc' Hp']. assert (Lp' := point_len SU Hp').
      rewrite (translate_add CR) in Pt; auto; [|apply (len_svec SU)|intros x; apply SC; auto].
      assert (Lz : length (zadd p' (svec dim M t')) = dim) by (rewrite length_zadd; rewrite (len_svec SU); auto).
      assert (c' = c).
      { destruct (In_nth_error _ _ Hc) as (k & Hk). destruct (In_nth_error _ _ Hc') as (k' & Hk').
        assert (k = k'). { apply (AP k k' c c'); auto. refine (@moved_trans _ _ _ _ _ CR _ X _ (fun x => SC c' x Hc') _ _); [apply (moved_sym CR (fun x => SC c x Hc)); exists u; auto|exists (zadd p' (svec dim M t')); auto]. }
        congruence. }
      subst c'. assert (E : u = zadd p' (svec dim M t')).
      { apply (@translate_unique _ _ _ _ _ CR (c_coords c)); auto; [apply (proper_coords CR (PC c Hc))|intros x; apply SC; auto|]. eapply perm_trans; [apply Permutation_sym; exact Pu|exact Pt]. }
      assert (p = p').
      { apply (point_unique SU (t := zadd t' (zneg t)) Hp Hp'); [rewrite length_zadd; rewrite length_zneg; congruence|].
        rewrite (svec_add SU), (svec_neg SU) by (rewrite ?length_zneg; auto). rewrite Eu in E. assert (LS := len_svec SU). apply zvec_ext.
        - rewrite !length_zadd; rewrite ?length_zadd, ?length_zneg, ?LS; auto; rewrite ?length_zneg, ?LS; auto.
        - intros m. apply (f_equal (fun l => nth m l 0%Z)) in E. rewrite !nth_zadd in E by (rewrite LS; auto).
          rewrite !nth_zadd; rewrite ?length_zadd, ?length_zneg, ?LS; auto; rewrite ?length_zneg, ?LS; auto. rewrite nth_zneg. lia. }
      subst p'. apply (nodup_pos DP Ej Hi).
Qed.
End Rows.

(** ** C91 *)
(** The lattice points of a supercell: every lattice vector equals exactly one of them up to a supercell vector. *)
Theorem C91_points dim tol sites M Minv : supercell dim tol sites M Minv ->
  NoDup (cell_points dim M Minv) /\ (forall p, In p (cell_points dim M Minv) -> length p = dim) /\
  forall v, length v = dim -> exists p, (In p (cell_points dim M Minv) /\ exists t, length t = dim /\ v = zadd p (svec dim M t)) /\
    forall q t, In q (cell_points dim M Minv) -> length t = dim -> v = zadd q (svec dim M t) -> q = p.
Proof.
  intros SU. split; [apply points_nodup|]. split; [intros p; apply (point_len SU)|]. intros v Lv. destruct (point_rep SU Lv) as (p & t & Hp & Lt & E). exists p. split; [eauto|].
  intros q t' Hq Lt' E'. assert (LS := len_svec SU). assert (Lp := point_len SU Hp). assert (Lq := point_len SU Hq).
  apply (point_unique SU (t := zadd t (zneg t')) Hq Hp); [rewrite length_zadd; rewrite length_zneg; congruence|].
  rewrite (svec_add SU), (svec_neg SU) by (rewrite ?length_zneg; auto). rewrite E in E'. apply zvec_ext.
  - rewrite !length_zadd; rewrite ?length_zadd, ?length_zneg, ?LS; auto; rewrite ?length_zneg, ?LS; auto.
  - intros m. apply (f_equal (fun l => nth m l 0%Z)) in E'. rewrite !nth_zadd in E' by (rewrite LS; auto).
    rewrite !nth_zadd; rewrite ?length_zadd, ?length_zneg, ?LS; auto; rewrite ?length_zneg, ?LS; auto. rewrite nth_zneg. lia.
Qed.
(** Every site of the crystal is one site of the supercell, and two sites are the same one exactly if they differ by a supercell vector. *)
Theorem C91_sites dim tol G sites ops M Minv : crystal dim tol G sites ops -> supercell dim tol sites M Minv ->
  length (supercell_coords dim Minv sites (frac_points dim M Minv)) = (length sites * length (cell_points dim M Minv))%nat /\
  (forall x, site dim sites x -> exists j, located dim sites M Minv j x /\ forall i, located dim sites M Minv i x -> i = j) /\
  forall x y j, site dim sites x -> site dim sites y -> located dim sites M Minv j x -> (located dim sites M Minv j y <-> scell dim M x y).
Proof.
  intros CR SU. split; [|split].
  - rewrite (coords_cells CR SU), map_length. unfold cells. clear. induction sites as [|s l IH]; auto. cbn [flat_map length]. rewrite app_length, IH, map_length. lia.
  - intros x Hx. destruct (located_one CR SU Hx) as (j & Lj & _ & U & _). eauto.
  - intros x y j Hx Hy Lx. assert (Ly := site_len CR Hy). assert (Lx' := site_len CR Hx). apply (located_cell CR SU j Hx) in Lx as (z & Hz & Sz).
    assert (Lz : length z = dim) by (apply (site_len CR), (cell_site SU (nth_error_In _ _ Hz))). rewrite (located_cell CR SU j Hy). split.
    + intros (z' & Hz' & Sz'). rewrite Hz in Hz'. injection Hz' as <-. apply (scell_trans SU Ly Sz). apply (scell_sym SU Lz Sz').
    + intros S. exists z. split; auto. apply (scell_trans SU Lz (scell_sym SU Ly S) Sz).
Qed.
(** The rows are the sites of clusters equivalent to the base cluster, each of which is, up to a supercell vector, in exactly one row. *)
Theorem C91_rows dim tol G sites ops M Minv A b : crystal dim tol G sites ops -> supercell dim tol sites M Minv -> site_cluster dim sites A -> mk_cluster dim A = Some b ->
  exists p rows Xs, orbit_parts dim tol ops b = Some p /\ index_rows dim tol sites M Minv (o_clusters p) = Some rows /\
    length rows = (length (o_clusters p) * length (cell_points dim M Minv))%nat /\
    Forall2 (Forall2 (located dim sites M Minv)) rows Xs /\ representatives dim M ops A Xs.
Proof.
  intros CR SU SA E. assert (PB : proper dim sites b) by (exists A; auto). destruct (parts_ok CR PB) as (p & Ep & P1 & P2 & P3 & P4 & _).
  assert (SC : forall c x, In c (o_clusters p) -> In x (c_coords c) -> site dim sites x) by (intros c x Hc; apply (proper_coords CR (P1 c Hc))).
  destruct (rows_located CR SU SC) as (rows & Er & F). exists p, rows. eexists. split; [exact Ep|]. split; [exact Er|].
  split; [apply Forall2_length in F; rewrite F, map_length, prod_length; auto|]. split; [exact F|].
  destruct (reps_ok CR SU PB P1 P2 P3 P4) as [R1 R2]. destruct (mk_coords CR SA E) as [SB MB].
  assert (HA : forall x, In x A -> site dim sites x) by apply SA. assert (HB : forall x, In x (c_coords b) -> site dim sites x) by apply SB.
  assert (T : forall X, related dim ops X (c_coords b) <-> related dim ops X A).
  { intros X. rewrite !related_moved. split; intros (g & Hg & N); exists g; (split; [auto|]).
    - apply (moved_trans CR (image_sites CR Hg HA) N). apply (moved_image CR Hg HA MB).
    - apply (moved_trans CR (image_sites CR Hg HB) N). apply (moved_image CR Hg HB). apply (moved_sym CR HA MB). }
  split; [intros X HX; apply T; auto|]. intros X HX. apply R2. apply T. auto.
Qed.
Print Assumptions C91_points.
Print Assumptions C91_sites.
Print Assumptions C91_rows.

(** *** Case: a supercell of two cells, turned by 45 degrees, of the cubic lattice; the pair of nearest neighbors along the first axis. *)
Unset Implicit Arguments.
Definition turnM : list (list Z) := [[1; 1; 0]; [-1; 1; 0]; [0; 0; 1]]%Z.
Definition turnI : list (list Qc) := [[half; - half; 0]; [half; half; 0]; [0; 0; 1]].
Lemma half_2 : half = Q2Qc (1 # 2).
Proof. apply Qc_is_canon. reflexivity. Qed.
Lemma near_int tol (a : Z) : tol < half -> - (tol) <= half * Qc_of_Z a -> half * Qc_of_Z a <= tol -> a = 0%Z.
Proof.
  intros T H1 H2. rewrite half_2 in *. assert (A : Qc_of_Z a < Qc_of_Z 0 + 1) by (change (Qc_of_Z 0) with 0; qclra). assert (B : Qc_of_Z 0 < Qc_of_Z a + 1) by (change (Qc_of_Z 0) with 0; qclra).
  apply Z_of_lt in A. apply Z_of_lt in B. lia.
Qed.
Lemma turn_fr x y z : vmat 3 [x; y; z] turnI = [half * x + half * y; half * y - half * x; z].
Proof. cbv [vmat turnI qvadd qvscale qmap2 map combine fst snd repeat]. apply v3; ring. Qed.
Lemma turn_back x y z : vmat 3 [x; y; z] (map (map Qc_of_Z) turnM) = [x - y; x + y; z].
Proof. cbv [vmat turnM qvadd qvscale qmap2 map combine fst snd repeat]. change (Qc_of_Z 1) with 1. change (Qc_of_Z 0) with 0. change (Qc_of_Z (-1)) with (- (1)). apply v3; ring. Qed.
Lemma turn_supercell : supercell 3 tol6 [[0; 0; 0]] turnM turnI.
Proof.
  constructor; try reflexivity.
  - intros r [<- |[<- |[<- |[]]]]; reflexivity.
  - intros r [<- |[<- |[<- |[]]]]; reflexivity.
  - intros x L. destruct (vec3 _ L) as (a & b & c & ->). rewrite turn_back, turn_fr, half_2. apply v3; qclra.
  - intros x L. destruct (vec3 _ L) as (a & b & c & ->). rewrite turn_fr, turn_back, half_2. apply v3; qclra.
  - intros x y (i & Hi) (k & Hk) H. apply lat_site in Hi as (_ & a & b & c & ->). apply lat_site in Hk as (_ & a' & b' & c' & ->).
    destruct (H 0%nat ltac:(lia)) as (n0 & A0 & B0). destruct (H 1%nat ltac:(lia)) as (n1 & A1 & B1). destruct (H 2%nat ltac:(lia)) as (n2 & A2 & B2). clear H.
    rewrite !turn_fr in *. cbn [nth] in *. assert (T : tol6 < half) by reflexivity.
    assert (D : forall u v, Qc_of_Z (u - v) = Qc_of_Z u - Qc_of_Z v) by (intros u v; unfold Z.sub; rewrite Qc_of_Z_add, Qc_of_Z_opp'; auto).
    assert (W : forall u, Qc_of_Z (2 * u) = Qc_of_Z u + Qc_of_Z u) by (intros u; replace (2 * u)%Z with (u + u)%Z by lia; apply Qc_of_Z_add).
    assert (E0 : (a + b - (a' + b') - 2 * n0 = 0)%Z) by (apply (near_int tol6 _ T); rewrite !D, !Qc_of_Z_add, W, half_2 in *; qclra).
    assert (E1 : (b - a - (b' - a') - 2 * n1 = 0)%Z) by (apply (near_int tol6 _ T); rewrite !D, W, half_2 in *; qclra).
    assert (E2 : (2 * (c - c' - n2) = 0)%Z) by (apply (near_int tol6 _ T); rewrite W, !D, half_2 in *; qclra).
    exists [n0; n1; n2]. split; auto. unfold svec, turnM. cbv [zmat combine map fst snd repeat shift qvadd qmap2].
    assert (Ea : a = (a' + (n0 * 1 + (n1 * -1 + (n2 * 0 + 0))))%Z) by lia. assert (Eb : b = (b' + (n0 * 1 + (n1 * 1 + (n2 * 0 + 0))))%Z) by lia. assert (Ec : c = (c' + (n0 * 0 + (n1 * 0 + (n2 * 1 + 0))))%Z) by lia.
    rewrite Ea, Eb, Ec. rewrite !(Qc_of_Z_add a'), !(Qc_of_Z_add b'), !(Qc_of_Z_add c'). apply v3; ring.
Qed.
Example C91_case : crystal 3 tol6 cubeG cube_sites both /\ supercell 3 tol6 cube_sites turnM turnI /\ site_cluster 3 cube_sites cube_pair /\
  cell_points 3 turnM turnI = [[0; 0; 0]; [0; 1; 0]]%Z /\ length (supercell_coords 3 turnI cube_sites (frac_points 3 turnM turnI)) = 2%nat /\
  (let? b := mk_cluster 3 cube_pair in let? p := orbit_parts 3 tol6 both b in index_rows 3 tol6 cube_sites turnM turnI (o_clusters p)) = Some [[0; 1]; [1; 0]]%nat.
Proof.
  split; [apply cube_crystal|]. split; [apply turn_supercell|]. split; [apply C89_case|]. split; [vm_compute; reflexivity|]. split; [vm_compute; reflexivity|]. vm_compute. reflexivity.
Qed.
