(** C88: the orbits generated from diameter cutoffs; C89: the clusters, operations and permutations of an orbit. *)
From Verif Require Import LibProofs SublatticeProofs OrbitProps CompSpaceProps.
From Verif Require Export OrbitReachProofs.
From Coq Require Import Lia Lqa Permutation.
Set Implicit Arguments.
Unset Strict Implicit.
Local Open Scope Qc_scope.

(** ** C89: clusters, operations and permutations of an orbit *)
(** For a crystal SymmetryError is never raised.  The clusters are the images of the base cluster under the operations, once each up to
    lattice vectors; the operations are those that map it to a periodic image; their numbers multiply to the order of the group; and the permutations are
    those that the operations induce on the sites of the cluster, and form a group. *)
Theorem C89_orbit : forall dim tol G sites ops A b, crystal dim tol G sites ops -> site_cluster dim sites A -> mk_cluster dim A = Some b ->
  exists P, orbit_parts dim tol ops b = Some P /\
    (forall c, In c (o_clusters P) -> exists g, In g ops /\ moved dim (c_coords c) (map (operate g) (c_coords b))) /\
    (forall g, In g ops -> exists i c, nth_error (o_clusters P) i = Some c /\ moved dim (c_coords c) (map (operate g) (c_coords b)) /\
      forall j c', nth_error (o_clusters P) j = Some c' -> moved dim (c_coords c') (map (operate g) (c_coords b)) -> j = i) /\
    (forall g, In g (o_symops P) <-> In g ops /\ moved dim (map (operate g) (c_coords b)) (c_coords b)) /\
    (length (o_clusters P) * length (o_symops P) = length ops)%nat /\
    (forall p, In p (o_perms P) <-> is_perm (length A) p /\ exists g t, In g ops /\ length t = dim /\
      forall i, (i < length A)%nat -> nth i (c_coords b) [] = shift (operate g (nth (nth i p 0%nat) (c_coords b) [])) t) /\
    perm_group (length A) (o_perms P).
Proof.
  intros dim tol G sites ops A b CR SA Eb. assert (PB : proper dim sites b) by (exists A; auto). destruct (mk_coords CR SA Eb) as [SB MB]. assert (LB := moved_len MB).
  destruct (parts_ok CR PB) as (P & E & C1 & C2 & C3 & C4 & C5 & C6 & C7 & C8). rewrite LB in C8. exists P. split; auto. split; auto. split; [|split; auto; split; auto; split; auto].
  - intros g Hg. destruct (C4 g Hg) as (c & Hc & M). apply In_nth_error in Hc as (i & Hi). exists i, c. split; auto. split; auto. intros j c' Hj M'.
    apply (C2 j i c' c); auto. apply (moved_trans CR) with (2 := M'); [apply (proper_coords CR); apply C1; eapply nth_error_In; eauto|]. apply (moved_sym CR) with (2 := M). apply (image_sites CR Hg). apply SB.
  - intros p. rewrite C7. unfold site_perm. rewrite LB. split.
    + intros (g & Hg & Pp & t & Lt & H). split; auto. exists g, t. auto.
    + intros (Pp & g & t & Hg & Lt & H). exists g. split; auto. split; auto. exists t. auto.
Qed.
Print Assumptions C89_orbit.

(** The multiplicity of the orbit, its clusters per prim cell, divides the number of operations, and the number of its functions is defined. *)
Theorem C89_multiplicity : forall dim tol G sites ops A b P, crystal dim tol G sites ops -> site_cluster dim sites A -> mk_cluster dim A = Some b ->
  orbit_parts dim tol ops b = Some P -> Nat.divide (length (o_clusters P)) (length ops) /\ (1 <= length (o_clusters P))%nat.
Proof.
  intros dim tol G sites ops A b P CR SA Eb E. destruct (C89_orbit CR SA Eb) as (P' & E' & _ & _ & _ & L & _). rewrite E in E'. injection E' as <-. split.
  - exists (length (o_symops P)). lia.
  - destruct (cr_id CR) as (g & Hg & _). destruct ops; [destruct Hg|]. destruct (o_clusters P); simpl in *; lia.
Qed.
Print Assumptions C89_multiplicity.

(** When the operations preserve the number of site functions, sites exchanged by the permutations have the same functions, so the groups of
    function indices of the orbit partition the products of site functions ([C35_partition]). *)
Theorem C89_functions : forall dim tol G sites ops nbits A ks o P, crystal dim tol G sites ops -> site_cluster dim sites A -> Forall2 (is_site dim sites) ks A ->
  (forall g x i j, In g ops -> is_site dim sites i x -> is_site dim sites j (operate g x) -> nth i nbits 0%nat = nth j nbits 0%nat) ->
  mk_orbit dim ks A = Some o -> orbit_parts dim tol ops (g_base o) = Some P -> sym_bits (g_bits nbits o) (o_perms P).
Proof.
  intros dim tol G sites ops nbits A ks o P CR SA FK HB Eo E. destruct (mk_orbit_ok CR SA FK) as (o' & t & E' & OK & Lt & Ec & Ek). rewrite Eo in E'. injection E' as <-.
  destruct (parts_ok CR (oo_proper OK)) as (P' & EP & _ & _ & _ & _ & _ & _ & C7 & _). rewrite E in EP. injection EP as <-.
  intros p i j Hp Hi. apply C7 in Hp as (g & Hg & Pp & u & Lu & H). assert (K := oo_kinds OK). assert (LK := Forall2_length K).
  assert (Li : (i < length (c_coords (g_base o)))%nat) by (rewrite <- (proj1 Pp); apply nth_error_Some; congruence).
  assert (Lj : (j < length (c_coords (g_base o)))%nat) by (apply Pp; eapply nth_error_In; eauto).
  specialize (H i Li). rewrite (nth_error_nth _ _ 0%nat Hi) in H.
  assert (KI : forall m, (m < length (c_coords (g_base o)))%nat -> is_site dim sites (nth m (g_kinds o) 0%nat) (nth m (c_coords (g_base o)) [])).
  { clear - K. induction K as [|k x ks A Hk K IH]; intros [|m] L; simpl in *; try lia; auto. apply IH. lia. }
  assert (N : nth (nth i (g_kinds o) 0%nat) nbits 0%nat = nth (nth j (g_kinds o) 0%nat) nbits 0%nat).
  { symmetry. apply (HB g (nth j (c_coords (g_base o)) [])); auto. assert (KII := KI i Li). rewrite H in KII.
    assert (So : site dim sites (operate g (nth j (c_coords (g_base o)) []))) by (apply (cr_op CR Hg); exists (nth j (g_kinds o) 0%nat); auto).
    assert (S := is_site_shift CR KII (eq_trans (length_zneg u) Lu)). rewrite shift_back in S; auto. rewrite Lu. apply (site_len CR So). }
  unfold g_bits. rewrite !nth_error_map. rewrite (nth_error_nth' (g_kinds o) 0%nat) by (rewrite LK; auto). rewrite (nth_error_nth' (g_kinds o) 0%nat) by (rewrite LK; auto). simpl. rewrite N. auto.
Qed.
Print Assumptions C89_functions.

(** ** C88: generation *)
Section Main.
Variables (dim : nat) (tol : Qc) (G : list (list Qc)) (sites : list (list Qc)) (ops : list symop).
Hypothesis CR : crystal dim tol G sites ops.
Variables (nbits : list nat) (nbrs : Qc -> list (nat * list Qc)) (cutoffs : list (nat * option Qc)).
Hypothesis NBS : forall d i x, In (i, x) (nbrs d) -> is_site dim sites i x.
Hypothesis CD : cutoff_dict cutoffs.

Lemma sort_fst (l : list (nat * Qc)) : map fst (sort_by (fun a b => (fst a <=? fst b)%nat) l) = sort_by Nat.leb (map fst l).
Proof.
  induction l as [|a l IH]; simpl; auto. rewrite <- IH. generalize (sort_by (fun a b => (fst a <=? fst b)%nat) l). clear. intros l. induction l as [|b l IH]; simpl; auto.
  destruct (fst a <=? fst b)%nat; simpl; auto. rewrite IH. auto.
Qed.
Lemma rest_cuts rest cs : rest = filter (fun c => negb (is_point c)) cutoffs -> opt_map (fun c => option_map (pair (fst c)) (snd c)) rest = Some cs ->
  map fst cs = map fst rest /\ forall k d, In (k, d) cs <-> In (k, Some d) cutoffs /\ k <> 1%nat.
Proof.
  intros -> E. set (rest := filter (fun c => negb (is_point c)) cutoffs) in *.
  assert (H : map fst cs = map fst rest /\ forall k d, In (k, d) cs <-> In (k, Some d) rest).
  { clearbody rest. revert cs E. induction rest as [|[k c] rest IH]; intros cs E; simpl in E; [injection E as <-; split; auto; tauto|].
    destruct c as [d|]; simpl in E; [|discriminate]. destruct (opt_map _ rest) as [cs'|]; [|discriminate]. injection E as <-. destruct (IH cs' eq_refl) as [I1 I2]. split; [simpl; congruence|].
    intros j e. simpl. rewrite I2. split; intros [H|H]; auto; left; congruence. }
  destruct H as [H1 H2]. split; auto. intros k d. rewrite H2. unfold rest. rewrite filter_In. unfold is_point. simpl. destruct (Nat.eqb_spec k 1); simpl; intuition congruence.
Qed.
Lemma numbers rest cs : rest = filter (fun c => negb (is_point c)) cutoffs -> opt_map (fun c => option_map (pair (fst c)) (snd c)) rest = Some cs ->
  exists L, L = sort_by (fun a b => (fst a <=? fst b)%nat) cs /\ (forall k d, In (k, d) L <-> In (k, Some d) cutoffs /\ k <> 1%nat) /\ (forall p, In p L -> (2 <= fst p)%nat) /\ StronglySorted lt (map fst L).
Proof.
  intros ER E. destruct (rest_cuts ER E) as [H1 H2]. eexists. split; [reflexivity|].
  assert (HI : forall k d, In (k, d) (sort_by (fun a b => (fst a <=? fst b)%nat) cs) <-> In (k, Some d) cutoffs /\ k <> 1%nat).
  { intros k d. rewrite <- H2. split; intros H; [apply (Permutation_in _ (Permutation_sym (sort_by_perm _ cs)) H)|apply (Permutation_in _ (sort_by_perm _ cs) H)]. }
  split; auto. split.
  - intros [k d] H. apply HI in H as [H N]. apply (proj2 CD) in H. simpl. lia.
  - rewrite sort_fst. apply sort_codes_sorted. rewrite H1, ER. destruct CD as [D _]. clear - D. induction cutoffs as [|c l IH]; simpl; [constructor|].
    inversion D as [|? ? N D']; subst. destruct (negb (is_point c)); simpl; auto. constructor; auto. intros I. apply N. apply in_map_iff in I as (x & <- & I). apply filter_In in I as [I _]. apply in_map. auto.
Qed.
Lemma one_inv points : minv dim G sites ops nbrs [] points [] [(1%nat, points)].
Proof.
  constructor; auto; [|intros K _ k d _ []]. intros k os. unfold get_size. simpl. destruct k as [|[|k]]; simpl; try discriminate. intros [= <-]. left; auto.
Qed.
Lemma start_inv cuts points : minv dim G sites ops nbrs cuts points [] [(1%nat, points)].
Proof. destruct (one_inv points) as [H1 H2 H3]. constructor; auto. intros K _ k d _ []. Qed.
Lemma gen_main D rest : gen_orbits dim tol ops nbits G nbrs sites cutoffs = (Some D, rest) ->
  (D = [] /\ In (1%nat, None) cutoffs) \/
  exists L points, (forall k d, In (k, d) L <-> In (k, Some d) cutoffs /\ k <> 1%nat) /\
    (forall o, In o points -> sized dim sites 1 o) /\ unrelated dim ops points /\ (forall x, site dim sites x -> exists o, In o points /\ related dim ops (c_coords (g_base o)) [x]) /\
    minv dim G sites ops nbrs L points L D.
Proof.
  unfold gen_orbits. set (rs := filter (fun c => negb (is_point c)) cutoffs). intros E.
  destruct (gen_points_ok CR nbits) as (points & Ep & P1 & P2 & P3).
  assert (GEN : (let? points := gen_points dim tol ops nbits G sites in match rs with [] => Some [(1%nat, points)] | _ => let? cs := opt_map (fun c => option_map (pair (fst c)) (snd c)) rs in gen_multi dim tol ops nbits G nbrs points cs end) = Some D ->
    exists L points, (forall k d, In (k, d) L <-> In (k, Some d) cutoffs /\ k <> 1%nat) /\
    (forall o, In o points -> sized dim sites 1 o) /\ unrelated dim ops points /\ (forall x, site dim sites x -> exists o, In o points /\ related dim ops (c_coords (g_base o)) [x]) /\
    minv dim G sites ops nbrs L points L D).
  { rewrite Ep. cbn [option_bind]. intros E'. destruct rs as [|r0 rs0] eqn:Ers.
    - injection E' as <-. exists [], points. split.
      + intros k d. split; [intros []|]. intros [H N]. assert (I : In (k, Some d) rs) by (unfold rs; apply filter_In; split; auto; unfold is_point; simpl; apply negb_true_iff, Nat.eqb_neq; auto). rewrite Ers in I. destruct I.
      + split; auto. split; auto. split; auto. apply one_inv.
    - rewrite <- Ers in E'. assert (E2 : (let? cs := opt_map (fun c => option_map (pair (fst c)) (snd c)) rs in gen_multi dim tol ops nbits G nbrs points cs) = Some D) by (rewrite Ers in *; exact E').
      destruct (opt_map (fun c => option_map (pair (fst c)) (snd c)) rs) as [cs|] eqn:Ec; [|discriminate]. cbn [option_bind] in E2.
      destruct (numbers eq_refl Ec) as (L & EL & L1 & L2 & L3). unfold gen_multi in E2. rewrite <- EL in E2. exists L, points. split; auto. split; auto. split; auto. split; auto.
      destruct (@multi_run dim tol G sites ops CR nbits nbrs NBS L points P1 P3 L [] [(1%nat, points)] (start_inv L points)) as [M _]; auto; try (intros p q []). }
  destruct (find is_point cutoffs) as [[k [d|]]|] eqn:F; try (injection E as E _; right; apply GEN; exact E). left.
  apply find_some in F as [F1 F2]. unfold is_point in F2. simpl in F2. apply Nat.eqb_eq in F2. subst k. split; auto. destruct rs; [|discriminate]. injection E as <- _. auto.
Qed.
Lemma represent os X : unrelated dim ops os -> (forall o, In o os -> orb_ok dim sites o) -> (forall x, In x X -> site dim sites x) -> (exists o, In o os /\ related dim ops (c_coords (g_base o)) X) -> represented dim ops os X.
Proof.
  intros U OK SX (o & Ho & R). apply In_nth_error in Ho as (i & Hi). exists i, o. split; auto. split; auto. intros j o' Hj R'. apply (U j i o' o); auto.
  assert (So : forall x, In x (c_coords (g_base o)) -> site dim sites x) by (intros x Hx; apply (oo_sites CR (OK o (nth_error_In _ _ Hi)) Hx)).
  apply (related_trans CR So R'). apply (related_sym CR So SX R).
Qed.
Lemma main_sound D rest : gen_orbits dim tol ops nbits G nbrs sites cutoffs = (Some D, rest) -> forall k os, get_size k D = Some os ->
  inequivalent dim ops os /\ (forall o, In o os -> orb_ok dim sites o) /\
  forall o, In o os -> orbit_sound dim sites k o /\ (k = 1%nat \/ exists d, In (k, Some d) cutoffs /\ diam_le G (c_coords (g_base o)) (d + diam_eps)).
Proof.
  intros E k os Hk. apply gen_main in E as [[-> _]|(L & points & L1 & P1 & P2 & P3 & M)]; [discriminate|].
  destruct (mi_sound M Hk) as [[-> ->]|(Gk & d & Hd & F1 & F2)].
  - split; auto. split; [intros o Ho; apply (P1 o Ho)|]. intros o Ho. destruct (P1 o Ho) as [OK LO]. split; auto. split; [apply (oo_cluster CR OK)|]. split; auto. apply (oo_kinds OK).
  - split; auto. split; [intros o Ho; apply (F1 o Ho)|]. intros o Ho. destruct (F1 o Ho) as [[OK LO] DO]. split.
    + split; [apply (oo_cluster CR OK)|]. split; auto. apply (oo_kinds OK).
    + right. exists d. split; auto. apply L1 in Hd. apply Hd.
Qed.
Lemma main_complete D rest K : gen_orbits dim tol ops nbits G nbrs sites cutoffs = (Some D, rest) -> decreasing cutoffs -> ~ In (1%nat, None) cutoffs ->
  (forall k d, (S k <= K)%nat -> (1 <= k)%nat -> In (S k, Some d) cutoffs -> reaches dim G sites (nbrs d) k d) ->
  forall X, site_cluster dim sites X -> (length X <= K)%nat -> length X = 1%nat \/ (exists d, In (length X, Some d) cutoffs /\ diam_le G X d) ->
  exists os, get_size (length X) D = Some os /\ represented dim ops os X.
Proof.
  intros E [DP DD] NN HR X SX LK HX. assert (S := main_sound E). assert (SX' := proj2 (proj2 SX)). apply gen_main in E as [[_ H]|(L & points & L1 & P1 & P2 & P3 & M)]; [contradiction|].
  assert (L0 : (1 <= length X)%nat) by (destruct SX as [N _]; destruct X; [congruence|simpl; lia]).
  destruct (Nat.eq_dec (length X) 1) as [L1X|N1].
  - rewrite L1X. exists points. split; [apply (mi_one M)|]. apply represent; auto; [intros o Ho; apply (P1 o Ho)|]. destruct X as [|x [|y X]]; try discriminate. apply P3. apply SX'. left; auto.
  - destruct HX as [?|(d & Hd & DX)]; [contradiction|].
    assert (CU : cut_ok dim G sites nbrs K L).
    { constructor.
      - intros k e _ He. apply L1 in He as [He _]. apply (DP k e He).
      - intros k e G2 _ He. apply L1 in He as [He _]. destruct (DD k e G2 He) as (e' & He' & Le). exists e'. split; auto. apply L1. split; auto. lia.
      - intros k e HK He. apply L1 in He as [He N]. apply HR; auto. destruct k; [exfalso; auto|lia]. }
    assert (Hd' : In (length X, d) L) by (apply L1; auto).
    destruct (mi_complete M CU LK Hd' SX eq_refl DX) as (o & Ho & R). unfold getd in Ho. destruct (get_size (length X) D) as [os|] eqn:Eo; [|destruct Ho].
    exists os. split; auto. destruct (S _ _ Eo) as (S1 & S2 & _). apply represent; auto. exists o. auto.
Qed.
Lemma main_total : decreasing cutoffs -> (forall k c, In (k, c) cutoffs -> c <> None) ->
  (forall k d, (1 <= k)%nat -> In (S k, Some d) cutoffs -> reaches dim G sites (nbrs d) k d) ->
  (forall k d c, (2 <= k)%nat -> In (k, Some d) cutoffs -> In (S k, c) cutoffs -> exists X, site_cluster dim sites X /\ length X = k /\ diam_le G X d) ->
  exists D, gen_orbits dim tol ops nbits G nbrs sites cutoffs = (Some D, filter (fun c => negb (is_point c)) cutoffs).
Proof.
  intros [DP DD] NN HR IN. unfold gen_orbits. set (rs := filter (fun c => negb (is_point c)) cutoffs).
  destruct (gen_points_ok CR nbits) as (points & Ep & P1 & P2 & P3).
  assert (GEN : exists D, (let? points := gen_points dim tol ops nbits G sites in match rs with [] => Some [(1%nat, points)] | _ => let? cs := opt_map (fun c => option_map (pair (fst c)) (snd c)) rs in gen_multi dim tol ops nbits G nbrs points cs end) = Some D).
  { rewrite Ep. cbn [option_bind]. destruct (@opt_map_all _ _ (fun c => option_map (pair (fst c)) (snd c)) rs) as (cs & Ec).
    { intros [k [d|]] H; [discriminate|]. unfold rs in H. apply filter_In in H as [H _]. destruct (NN k None H); auto. }
    destruct rs as [|r0 rs0] eqn:Ers; [eexists; reflexivity|]. rewrite <- Ers in *. rewrite Ec. cbn [option_bind]. 
    destruct (numbers eq_refl Ec) as (L & EL & L1 & L2 & L3). unfold gen_multi. rewrite <- EL.
    destruct (@multi_run dim tol G sites ops CR nbits nbrs NBS L points P1 P3 L [] [(1%nat, points)] (start_inv L points)) as [_ T]; auto; try (intros p q []).
    apply T.
    - intros K. constructor.
      + intros k e _ He. apply L1 in He as [He _]. apply (DP k e He).
      + intros k e G2 _ He. apply L1 in He as [He _]. destruct (DD k e G2 He) as (e' & He' & Le). exists e'. split; auto. apply L1. split; auto. lia.
      + intros k e HK He. apply L1 in He as [He N]. apply HR; auto. destruct k; [exfalso; auto|lia].
    - intros k d e G2 Hd He. apply L1 in Hd as [Hd _]. apply L1 in He as [He _]. apply (IN k d (Some e)); auto. }
  destruct GEN as (D & GEN). exists D. destruct (find is_point cutoffs) as [[k [d|]]|] eqn:F; try (f_equal; exact GEN).
  apply find_some in F as [F1 _]. destruct (NN _ _ F1); auto.
Qed.
End Main.
(** What the search for neighbors returns: sites, and for the listed cutoffs those in the sphere. *)
Record sphere (dim : nat) (tol : Qc) (G sites : list (list Qc)) (cutoffs : list (nat * option Qc)) (nbrs : Qc -> list (nat * list Qc)) : Prop := {
  sp_sites : forall d i x, In (i, x) (nbrs d) -> is_site dim sites i x;
  sp_near : forall k d i x, In (k, Some d) cutoffs -> k <> 1%nat -> (In (i, x) (nbrs d) <-> is_site dim sites i x /\ in_sphere dim tol G sites d x = true)
}.
(** Every point of the cell is as near to the centre as some site of it is. *)
Definition far_site (dim : nat) (G sites : list (list Qc)) : Prop :=
  forall m, length m = dim -> (forall j, (j < dim)%nat -> 0 <= comp m j /\ comp m j < 1) -> exists s, In s sites /\ dist2 G (centre dim) m <= dist2 G (centre dim) s.
(** The sites of the structure are in the cell. *)
Definition wrapped (sites : list (list Qc)) : Prop := forall s, In s sites -> forall c, In c s -> 0 <= c /\ c < 1.

(** Every generated orbit is a cluster of distinct sites of its size and within its cutoff (but for the grace of 1e-8), no two
    of them are equivalent, and the site bases belong to its sites: for any neighbors that the search returns. *)
Theorem C88_sound : forall dim tol G sites ops nbits nbrs cutoffs D rest, crystal dim tol G sites ops -> (forall d i x, In (i, x) (nbrs d) -> is_site dim sites i x) ->
  cutoff_dict cutoffs -> gen_orbits dim tol ops nbits G nbrs sites cutoffs = (Some D, rest) -> forall k os, get_size k D = Some os ->
  inequivalent dim ops os /\ forall o, In o os -> orbit_sound dim sites k o /\ (k = 1%nat \/ exists d, In (k, Some d) cutoffs /\ diam_le G (c_coords (g_base o)) (d + diam_eps)).
Proof.
  intros dim tol G sites ops nbits nbrs cutoffs D rest CR NBS CD E k os Hk. destruct (main_sound CR NBS CD E Hk) as (S1 & _ & S2). split; auto.
Qed.
Print Assumptions C88_sound.

(** Every single site and every pair within its cutoff is in exactly one orbit. *)
Theorem C88_pairs : forall dim tol G sites ops nbits nbrs cutoffs D rest, crystal dim tol G sites ops -> metric dim G -> wrapped sites ->
  sphere dim tol G sites cutoffs nbrs -> cutoff_dict cutoffs -> decreasing cutoffs -> ~ In (1%nat, None) cutoffs ->
  gen_orbits dim tol ops nbits G nbrs sites cutoffs = (Some D, rest) ->
  forall X, site_cluster dim sites X -> length X = 1%nat \/ (length X = 2%nat /\ exists d, In (2%nat, Some d) cutoffs /\ diam_le G X d) ->
  exists os, get_size (length X) D = Some os /\ represented dim ops os X.
Proof.
  intros dim tol G sites ops nbits nbrs cutoffs D rest CR ME WR SP CD DC NN E X SX HX.
  apply (@main_complete dim tol G sites ops CR nbits nbrs cutoffs (sp_sites SP) CD D rest 2 E DC NN); auto.
  - intros k d LK L1 Hd. assert (k = 1%nat) by lia. subst k. apply (sphere_reaches CR ME).
    + apply (proj1 DC _ _ Hd).
    + intros i x Hi Hs. apply (sp_near SP (k := 2%nat)); auto.
    + intros c Pc Lc. destruct (c_coords c) as [|x [|y l]] eqn:Ec; try discriminate. destruct (centroid_facts CR Pc) as [LC _]. assert (SC := proper_coords CR Pc). rewrite Ec in SC.
      destruct Pc as (A & SA & EA). destruct (C57_normal (sc_points CR SA)) as (c' & t & EA' & Lt & Ec' & _ & CB). rewrite EA in EA'. injection EA' as <-.
      assert (LA : length A = 1%nat) by (rewrite Ec in Ec'; apply (f_equal (@length _)) in Ec'; unfold translate in Ec'; rewrite map_length in Ec'; simpl in Ec'; auto).
      assert (Sx : site dim sites x) by (apply SC; left; auto). assert (Lx := site_len CR Sx). destruct Sx as (i & s & u & Hi & Lu & Ex).
      assert (Hs : In s sites) by (eapply nth_error_In; eauto). assert (Ls := cr_dim CR Hs).
      assert (EQ : c_centroid c = s).
      { apply vec_ext; [congruence|]. intros j Hj. rewrite LC in Hj. destruct (CB j Hj) as (B0 & B1 & B2). rewrite LA, Ec in B2. simpl in B2. change (Qc_of_nat 1) with 1 in B2.
        assert (B3 : comp (c_centroid c) j = comp x j) by (rewrite <- (Qcmult_1_r (comp (c_centroid c) j)), B2; ring). rewrite B3 in *. rewrite Ex in *. rewrite (comp_shift j (eq_trans Ls (eq_sym Lu))) in *.
        assert (W : 0 <= comp s j /\ comp s j < 1) by (apply (WR s Hs); apply nth_In; rewrite Ls; auto). destruct W as [W0 W1]. clear B2 B3.
        assert (Z0 : nth j u 0%Z = 0%Z).
        { assert (H1 : Qc_of_Z 0 < Qc_of_Z (nth j u 0%Z) + 1) by (change (Qc_of_Z 0) with 0; qclra). assert (H2 : Qc_of_Z (nth j u 0%Z) < Qc_of_Z 0 + 1) by (change (Qc_of_Z 0) with 0; qclra). apply Z_of_lt in H1, H2. lia. }
        rewrite Z0. change (Qc_of_Z 0) with 0. ring. }
      rewrite EQ. apply max_lp2_in. auto.
  - destruct HX as [HX|[HX _]]; rewrite HX; lia.
  - destruct HX as [?|[L2 HX]]; auto. rewrite L2. auto.
Qed.
Print Assumptions C88_pairs.

(** Every cluster within its cutoff is in exactly one orbit, if no point of the cell is further from its centre than all sites.  Missing: other cells, of which [C88_skewed_refuted] shows that clusters can be lost. *)
Theorem C88_complete_partial : forall dim tol G sites ops nbits nbrs cutoffs D rest, crystal dim tol G sites ops -> metric dim G -> far_site dim G sites ->
  sphere dim tol G sites cutoffs nbrs -> cutoff_dict cutoffs -> decreasing cutoffs -> ~ In (1%nat, None) cutoffs ->
  gen_orbits dim tol ops nbits G nbrs sites cutoffs = (Some D, rest) ->
  forall X, site_cluster dim sites X -> length X = 1%nat \/ (exists d, In (length X, Some d) cutoffs /\ diam_le G X d) ->
  exists os, get_size (length X) D = Some os /\ represented dim ops os X.
Proof.
  intros dim tol G sites ops nbits nbrs cutoffs D rest CR ME FS SP CD DC NN E X SX HX.
  apply (@main_complete dim tol G sites ops CR nbits nbrs cutoffs (sp_sites SP) CD D rest (length X) E DC NN); auto.
  intros k d _ L1 Hd. apply (sphere_reaches CR ME); [apply (proj1 DC _ _ Hd)| |].
  - intros i x Hi Hs. apply (sp_near SP (k := S k)); auto. lia.
  - intros c Pc Lc. destruct Pc as (A & SA & EA). destruct (C57_normal (sc_points CR SA)) as (c' & t & EA' & Lt & Ec' & LC & CB). rewrite EA in EA'. injection EA' as <-.
    destruct (FS (c_centroid c)) as (s & Hs & Le); auto; [intros j Hj; destruct (CB j Hj) as (B0 & B1 & _); auto|]. apply Qcle_trans with (1 := Le). apply max_lp2_in. auto.
Qed.
Print Assumptions C88_complete_partial.

(** The generation succeeds if further the clusters of every size but the last exist.  Missing: other dictionaries, of which [C88_missing_refuted] shows that a KeyError can be raised. *)
Theorem C88_total_partial : forall dim tol G sites ops nbits nbrs cutoffs, crystal dim tol G sites ops -> metric dim G -> far_site dim G sites ->
  sphere dim tol G sites cutoffs nbrs -> cutoff_dict cutoffs -> decreasing cutoffs -> (forall k c, In (k, c) cutoffs -> c <> None) ->
  (forall k d c, (2 <= k)%nat -> In (k, Some d) cutoffs -> In (S k, c) cutoffs -> exists X, site_cluster dim sites X /\ length X = k /\ diam_le G X d) ->
  exists D, fst (gen_orbits dim tol ops nbits G nbrs sites cutoffs) = Some D.
Proof.
  intros dim tol G sites ops nbits nbrs cutoffs CR ME FS SP CD DC NN IN.
  destruct (@main_total dim tol G sites ops CR nbits nbrs cutoffs (sp_sites SP) CD DC NN) as (D & E); auto; [|exists D; rewrite E; auto].
  intros k d L1 Hd. apply (sphere_reaches CR ME); [apply (proj1 DC _ _ Hd)| |].
  - intros i x Hi Hs. apply (sp_near SP (k := S k)); auto. lia.
  - intros c Pc Lc. destruct Pc as (A & SA & EA). destruct (C57_normal (sc_points CR SA)) as (c' & t & EA' & Lt & Ec' & LC & CB). rewrite EA in EA'. injection EA' as <-.
    destruct (FS (c_centroid c)) as (s & Hs & Le); auto; [intros j Hj; destruct (CB j Hj) as (B0 & B1 & _); auto|]. apply Qcle_trans with (1 := Le). apply max_lp2_in. auto.
Qed.
Print Assumptions C88_total_partial.

(** ** Cases *)
Unset Implicit Arguments.
Definition tol6 : Qc := Qc_frac 1 1000000.
Definition ident : symop := mkOp [[1; 0; 0]; [0; 1; 0]; [0; 0; 1]] [0; 0; 0].
Definition inversion : symop := mkOp [[-(1); 0; 0]; [0; -(1); 0]; [0; 0; -(1)]] [0; 0; 0].
(** Lattices with one site per cell, at the origin or at the centre, with the inversion. *)
Lemma vec3 {A} (t : list A) : length t = 3%nat -> exists a b c, t = [a; b; c].
Proof. destruct t as [|a [|b [|c [|? ?]]]]; try discriminate. intros _. exists a, b, c. auto. Qed.
Lemma v3 (x y z x' y' z' : Qc) : x = x' -> y = y' -> z = z' -> [x; y; z] = [x'; y'; z'].
Proof. congruence. Qed.
Section Lattice.
Variables (s : Qc) (m : Z) (G : list (list Qc)).
Hypothesis Hs : s + s = Qc_of_Z m.
Hypothesis GR : length G = 3%nat.
Hypothesis GC : forall r, In r G -> length r = 3%nat.
Notation sites := [[s; s; s]].
Lemma lat_site i x : is_site 3 sites i x <-> i = 0%nat /\ exists a b c, x = [s + Qc_of_Z a; s + Qc_of_Z b; s + Qc_of_Z c].
Proof.
  split.
  - intros (x0 & t & Hi & Lt & ->). destruct i as [|[|i]]; try discriminate. injection Hi as <-. split; auto. destruct (vec3 _ Lt) as (a & b & c & ->). exists a, b, c. reflexivity.
  - intros (-> & a & b & c & ->). exists [s; s; s], [a; b; c]. auto.
Qed.
Lemma op_id x y z : operate ident [x; y; z] = [x; y; z].
Proof. cbv [operate ident qdot qvadd qmap2 map combine fst snd op_rot op_trans]. apply v3; ring. Qed.
Lemma op_inv x y z : operate inversion [x; y; z] = [- x; - y; - z].
Proof. cbv [operate inversion qdot qvadd qmap2 map combine fst snd op_rot op_trans]. apply v3; ring. Qed.
Lemma inv_site a : - (s + Qc_of_Z a) = s + Qc_of_Z (- m - a).
Proof. replace (- m - a)%Z with (- (m + a))%Z by lia. rewrite Qc_of_Z_opp, Qc_of_Z_add, <- Hs. ring. Qed.
Lemma near_same a b : within (tol6 + tol6) (s + Qc_of_Z a) (s + Qc_of_Z b) -> a = b.
Proof.
  intros [H1 H2]. assert (T : tol6 + tol6 < 1) by reflexivity. assert (A1 : Qc_of_Z a < Qc_of_Z b + 1) by qclra. assert (A2 : Qc_of_Z b < Qc_of_Z a + 1) by qclra. apply Z_of_lt in A1, A2. lia.
Qed.
Lemma lat_crystal : crystal 3 tol6 G sites [ident; inversion].
Proof.
  constructor.
  - split; reflexivity || (unfold Qcle; simpl; lia) || idtac. discriminate.
  - intros x [<- |[]]. reflexivity.
  - intros x y (i & Hi) (j & Hj) W. apply lat_site in Hi as (_ & a & b & c & ->). apply lat_site in Hj as (_ & a' & b' & c' & ->).
    assert (W0 := W 0%nat ltac:(lia)). assert (W1 := W 1%nat ltac:(lia)). assert (W2 := W 2%nat ltac:(lia)). simpl in W0, W1, W2. apply near_same in W0, W1, W2. subst. auto.
  - intros i j x Hi Hj. apply lat_site in Hi as [-> _]. apply lat_site in Hj as [-> _]. auto.
  - intros g x Hg (i & Hi). apply lat_site in Hi as (_ & a & b & c & ->). exists 0%nat. apply lat_site. split; auto. destruct Hg as [<- |[<- |[]]]; [rewrite op_id|rewrite op_inv, !inv_site]; eauto.
  - assert (SH : forall x y z a b c, shift [x; y; z] [a; b; c] = [x + Qc_of_Z a; y + Qc_of_Z b; z + Qc_of_Z c]) by reflexivity.
    intros g t Hg Lt. destruct (vec3 _ Lt) as (a & b & c & ->). destruct Hg as [<- |[<- |[]]]; [exists [a; b; c]|exists [- a; - b; - c]%Z]; split; auto; intros x (i & Hi); apply lat_site in Hi as (_ & a' & b' & c' & ->);
    rewrite ?SH, ?op_id, ?op_inv, ?SH, ?Qc_of_Z_opp; apply v3; ring.
  - exists ident. split; [left; auto|]. exists [0; 0; 0]%Z. split; auto. intros x (i & Hi). apply lat_site in Hi as (_ & a & b & c & ->). rewrite op_id. cbv [shift qvadd qmap2 map combine fst snd]. change (Qc_of_Z 0) with 0. apply v3; ring.
  - assert (T : forall f h, (forall x y z, f [x; y; z] = h [x; y; z]) -> (forall x y z, length (h [x; y; z]) = 3%nat) -> same_op 3 sites f h).
    { intros f h H HL. exists [0; 0; 0]%Z. split; auto. intros x (i & Hi). apply lat_site in Hi as (_ & a & b & c & ->). rewrite H.
      destruct (vec3 _ (HL (s + Qc_of_Z a) (s + Qc_of_Z b) (s + Qc_of_Z c))) as (x & y & z & E). rewrite E. cbv [shift qvadd qmap2 map combine fst snd]. change (Qc_of_Z 0) with 0. apply v3; ring. }
    intros g h [<- |[<- |[]]] [<- |[<- |[]]]; [exists ident|exists inversion|exists inversion|exists ident]; (split; [simpl; auto|apply T; [|reflexivity]]); intros x y z; rewrite ?op_id, ?op_inv; auto; rewrite ?op_id, ?op_inv; auto.
    apply v3; ring.
  - assert (T : forall f, (forall x y z, f [x; y; z] = [x; y; z]) -> same_op 3 sites f (fun x => x)).
    { intros f H. exists [0; 0; 0]%Z. split; auto. intros x (i & Hi). apply lat_site in Hi as (_ & a & b & c & ->). rewrite H. cbv [shift qvadd qmap2 map combine fst snd]. change (Qc_of_Z 0) with 0. apply v3; ring. }
    intros g [<- |[<- |[]]]; [exists ident|exists inversion]; (split; [simpl; auto|apply T]); intros x y z; rewrite ?op_id, ?op_inv; auto; rewrite ?op_id, ?op_inv; auto. apply v3; ring.
  - repeat constructor; simpl; intuition discriminate.
  - assert (T : ~ same_op 3 sites (operate ident) (operate inversion) /\ ~ same_op 3 sites (operate inversion) (operate ident)).
    { split; intros (t & Lt & H); destruct (vec3 _ Lt) as (a & b & c & ->);
      assert (H0 := H [s + Qc_of_Z 0; s + Qc_of_Z 0; s + Qc_of_Z 0] (ex_intro _ 0%nat (proj2 (lat_site 0 _) (conj eq_refl (ex_intro _ 0%Z (ex_intro _ 0%Z (ex_intro _ 0%Z eq_refl)))))));
      assert (H1 := H [s + Qc_of_Z 1; s + Qc_of_Z 1; s + Qc_of_Z 1] (ex_intro _ 0%nat (proj2 (lat_site 0 _) (conj eq_refl (ex_intro _ 1%Z (ex_intro _ 1%Z (ex_intro _ 1%Z eq_refl)))))));
      rewrite op_id, op_inv in H0, H1; cbv [shift qvadd qmap2 map combine fst snd] in H0, H1; apply (f_equal (fun l => nth 0 l 0)) in H0; apply (f_equal (fun l => nth 0 l 0)) in H1; cbv [nth] in H0, H1; change (Qc_of_Z 0) with 0 in *; change (Qc_of_Z 1) with 1 in *; assert (X : 1 <= 0) by qclra; exact (X eq_refl). }
    intros g h [<- |[<- |[]]] [<- |[<- |[]]] S; auto; destruct T as [T1 T2]; contradiction.
  - intros g x y Hg (i & Hi) (j & Hj). apply lat_site in Hi as (_ & a & b & c & ->). apply lat_site in Hj as (_ & a' & b' & c' & ->). destruct Hg as [<- |[<- |[]]]; rewrite ?op_id, ?op_inv; auto.
    destruct (vec3 _ GR) as (r1 & r2 & r3 & EG). assert (GC' := GC). rewrite EG in GC' |- *.
    destruct (vec3 r1) as (a1 & a2 & a3 & ->); [apply GC'; simpl; auto|]. destruct (vec3 r2) as (b1 & b2 & b3 & ->); [apply GC'; simpl; auto|]. destruct (vec3 r3) as (c1 & c2 & c3 & ->); [apply GC'; simpl; auto|].
    cbv [dist2 qvsub qdot qmap2 map combine fst snd]. ring.
Qed.
End Lattice.
Notation qz := Qc_of_Z.
Definition half : Qc := Qc_frac 1 2.
(** A skewed triclinic lattice: its vectors are 3a + 2b, 4a + 3b and c, and the squares of a, b and c are 20, 22 and 2000 with all products 1. *)
Definition skewG : list (list Qc) := [[qz 280; qz 389; qz 5]; [qz 389; qz 542; qz 7]; [qz 5; qz 7; qz 2000]].
(** The sites half the cell diagonal away from the integer combinations of a and b. *)
Definition skew_site (p q : Z) : list Qc := [half + qz (3 * p - 4 * q); half + qz (3 * q - 2 * p); half + qz 0].
Definition skew_sites : list (list Qc) := [[half; half; half]].
Definition skew_nbrs (d : Qc) : list (nat * list Qc) :=
  filter (fun v => in_sphere 3 tol6 skewG skew_sites d (snd v)) (map (fun v => (0%nat, skew_site (fst v) (snd v))) (list_prod [-1; 0; 1] [-1; 0; 1])%Z).
Definition skew_cutoffs (d : Z) : list (nat * option Qc) := [(2%nat, Some (qz d)); (3%nat, Some (qz d))].
Definition both : list symop := [ident; inversion].
Lemma half2 : half + half = qz 1.
Proof. apply Qc_is_canon. reflexivity. Qed.
Lemma skew_crystal : crystal 3 tol6 skewG skew_sites both.
Proof. apply lat_crystal with (m := 1%Z); auto; [apply half2|]. intros r [<- |[<- |[<- |[]]]]; reflexivity. Qed.
Lemma skew_form x y z x' y' z' : dist2 skewG [x; y; z] [x'; y'; z'] =
  let p := qz 3 * (x - x') + qz 4 * (y - y') in let q := qz 2 * (x - x') + qz 3 * (y - y') in let r := z - z' in
  (p + q) * (p + q) + (p + r) * (p + r) + (q + r) * (q + r) + qz 18 * (p * p) + qz 20 * (q * q) + qz 1998 * (r * r).
Proof. cbv [dist2 qvsub qdot qmap2 map combine fst snd skewG Qc_of_Z]. qc2q. unfold inject_Z. ring. Qed.
Lemma skew_metric : metric 3 skewG.
Proof.
  constructor; auto.
  - intros r [<- |[<- |[<- |[]]]]; reflexivity.
  - intros v Lv. destruct (vec3 _ Lv) as (x & y & z & ->). change (repeat 0 3) with [0; 0; 0]. rewrite skew_form. cbv zeta.
    set (p := qz 3 * (x - 0) + qz 4 * (y - 0)). set (q := qz 2 * (x - 0) + qz 3 * (y - 0)). set (r := z - 0). clearbody p q r. clear. assert (S : forall l : Qc, 0 <= l * l) by (intros l; qcnra).
    assert (S1 := S (p + q)). assert (S2 := S (p + r)). assert (S3 := S (q + r)). assert (S4 := S p). assert (S5 := S q). assert (S6 := S r). revert S1 S2 S3 S4 S5 S6.
    generalize ((p + q) * (p + q)), ((p + r) * (p + r)), ((q + r) * (q + r)), (p * p), (q * q), (r * r). clear. intros. unfold Qc_of_Z. qc2q. unfold inject_Z. lra.
Qed.
Lemma skew_int a b c : dist2 skewG (centre 3) [half + qz a; half + qz b; half + qz c] =
  qz (let p := 3 * a + 4 * b in let q := 2 * a + 3 * b in (p + q) * (p + q) + (p + c) * (p + c) + (q + c) * (q + c) + 18 * (p * p) + 20 * (q * q) + 1998 * (c * c))%Z.
Proof.
  change (centre 3) with [half; half; half]. rewrite skew_form. cbv zeta. cbv [Qc_of_Z]. qc2q. rewrite !inject_Z_plus, !inject_Z_mult, !inject_Z_plus, !inject_Z_mult. unfold inject_Z. ring.
Qed.
Lemma sqrt_le_0 x r : sqrt_le x r 0 = true <-> x <= r * r.
Proof.
  unfold sqrt_le. rewrite orb_true_iff, <- !(reflect_iff _ _ (Qcleb_spec _ _)). split; [|left; qclra]. intros [H|H]; [qclra|]. assert (S : forall l : Qc, l * l <= 0 -> l <= 0) by (intros l Hl; apply Qcnot_lt_le; intros P; assert (P' := Qcmult_lt_compat_r 0 l l P P); rewrite Qcmult_0_l in P'; apply (Qcle_not_lt _ _ Hl P')).
  specialize (S (x - r * r - 0)). rewrite Qcmult_0_r in H. specialize (S H). qclra.
Qed.
Lemma skew_sphere D : (0 <= D <= 7)%Z -> sphere 3 tol6 skewG skew_sites (skew_cutoffs D) skew_nbrs.
Proof.
  intros HD. assert (IS : forall p q, is_site 3 skew_sites 0 (skew_site p q)) by (intros p q; apply lat_site; split; auto; unfold skew_site; eauto).
  assert (ST : forall d i x, In (i, x) (skew_nbrs d) -> is_site 3 skew_sites i x).
  { intros d i x H. unfold skew_nbrs in H. apply filter_In in H as [H _]. apply in_map_iff in H as ([p q] & E & H). injection E as <- <-. apply IS. }
  constructor; auto. intros k d i x Hk _. split.
  - intros H. split; [apply (ST _ _ _ H)|]. unfold skew_nbrs in H. apply filter_In in H. apply H.
  - intros [H S]. unfold skew_nbrs. apply filter_In. split; auto. assert (Ed : d = qz D) by (destruct Hk as [E|[E|[]]]; congruence). clear Hk. subst d. unfold in_sphere in S. assert (M : max_lp2 3 skewG skew_sites = 0) by (apply Qc_is_canon; vm_compute; reflexivity). rewrite M in S.
    apply lat_site in H as (-> & a & b & c & ->). apply sqrt_le_0 in S. rewrite skew_int in S. assert (R : (qz 7 + tol6) * (qz 7 + tol6) < qz 49 + 1) by reflexivity.
    assert (R' : (qz D + tol6) * (qz D + tol6) <= (qz 7 + tol6) * (qz 7 + tol6)).
    { assert (D0 : qz 0 <= qz D) by (apply (proj1 (Qc_of_Z_le _ _)); lia). assert (D7 : qz D <= qz 7) by (apply (proj1 (Qc_of_Z_le _ _)); lia). assert (T : 0 < tol6) by reflexivity. change (qz 0) with 0 in D0. apply Qcle_trans with ((qz D + tol6) * (qz 7 + tol6)).
      - rewrite (Qcmult_comm (qz D + tol6) (qz 7 + tol6)). apply Qcmult_le_compat_r; qclra.
      - apply Qcmult_le_compat_r; qclra. }
    assert (L := Qcle_lt_trans _ _ _ (Qcle_trans _ _ _ S R') R). apply Z_of_lt in L. clear S R M. cbv zeta in L. set (p := (3 * a + 4 * b)%Z) in *. set (q := (2 * a + 3 * b)%Z) in *.
    assert (Ea : a = (3 * p - 4 * q)%Z) by lia. assert (Eb : b = (3 * q - 2 * p)%Z) by lia. clearbody p q. subst a b.
    assert (S1 := Z.square_nonneg (p + q)). assert (S2 := Z.square_nonneg (p + c)). assert (S3 := Z.square_nonneg (q + c)). assert (S4 := Z.square_nonneg p). assert (S5 := Z.square_nonneg q). assert (S6 := Z.square_nonneg c).
    assert (B : forall x, (x * x <= 2 -> -1 <= x <= 1)%Z) by (intros x Hx; nia). assert (P1 : (-1 <= p <= 1)%Z) by (apply B; lia). assert (Q1 : (-1 <= q <= 1)%Z) by (apply B; lia).
    assert (C0 : c = 0%Z) by (assert (E0 : (c * c = 0)%Z) by lia; apply Z.mul_eq_0 in E0; tauto). subst c.
    apply in_map_iff. exists (p, q). split; auto. apply in_prod; simpl; lia.
Qed.
Lemma skew_dict D : (0 <= D)%Z -> cutoff_dict (skew_cutoffs D) /\ decreasing (skew_cutoffs D).
Proof.
  intros HD. split; split.
  - repeat constructor; simpl; intuition discriminate.
  - intros k c [E|[E|[]]]; injection E as <- <-; lia.
  - intros k d H. assert (Ed : d = qz D) by (destruct H as [E|[E|[]]]; congruence). subst d. change 0 with (qz 0). apply (proj1 (Qc_of_Z_le _ _)). auto.
  - intros k d G2 [E|[E|[]]].
    + assert (k = 1%nat) by congruence. lia.
    + assert (k = 2%nat) by congruence. assert (d = qz D) by congruence. subst. exists (qz D). split; [left; auto|apply Qcle_refl].
Qed.
(** A cluster of three sites within the cutoff that is equivalent to no orbit: the neighbors are searched around the centre of the cell, and the centre of a pair in a skewed cell can be far from it. *)
Theorem C88_skewed_refuted : exists dim tol G sites ops nbits nbrs cutoffs D rest X os, crystal dim tol G sites ops /\ metric dim G /\ wrapped sites /\
  sphere dim tol G sites cutoffs nbrs /\ cutoff_dict cutoffs /\ decreasing cutoffs /\ ~ In (1%nat, None) cutoffs /\
  gen_orbits dim tol ops nbits G nbrs sites cutoffs = (Some D, rest) /\ site_cluster dim sites X /\ (exists d, In (length X, Some d) cutoffs /\ diam_le G X d) /\
  get_size (length X) D = Some os /\ os <> [] /\ forall o, In o os -> ~ related dim ops (c_coords (g_base o)) X.
Proof.
  set (X := [skew_site 0 0; skew_site 1 0; skew_site 0 1]).
  assert (SX : site_cluster 3 skew_sites X).
  { split; [discriminate|]. split.
    - unfold X. repeat constructor; intros H; repeat (destruct H as [E|H]; [apply (f_equal (map this)) in E; vm_compute in E; discriminate|]); destruct H.
    - intros x H. exists 0%nat. simpl in H. repeat (destruct H as [<- |H]; [apply lat_site; split; auto; unfold skew_site; eauto|]). destruct H. }
  assert (FK : Forall2 (is_site 3 skew_sites) [0; 0; 0]%nat X) by (repeat constructor; apply lat_site; split; auto; unfold skew_site; eauto).
  destruct (@mk_orbit_ok 3 tol6 skewG skew_sites both skew_crystal _ _ SX FK) as (o & t & Eo & OK & Lt & Ec & _).
  destruct (gen_orbits 3 tol6 both [1%nat] skewG skew_nbrs skew_sites (skew_cutoffs 7)) as [[D|] rest] eqn:E; [|exfalso; revert E; vm_compute; discriminate].
  destruct (get_size 3 D) as [os|] eqn:Eos.
  2: { exfalso. assert (T : option_map (get_size 3) (fst (gen_orbits 3 tol6 both [1%nat] skewG skew_nbrs skew_sites (skew_cutoffs 7))) = Some None) by (rewrite E; simpl; congruence). revert T. vm_compute. discriminate. }
  destruct (skew_dict 7 ltac:(lia)) as [CD DC]. assert (SP := @skew_sphere 7 ltac:(lia)).
  destruct (main_sound skew_crystal (sp_sites SP) CD E Eos) as (_ & S2 & _).
  destruct (orbit_in_ok skew_crystal OK S2) as (r & Er & Hr).
  assert (T : (let? D := fst (gen_orbits 3 tol6 both [1%nat] skewG skew_nbrs skew_sites (skew_cutoffs 7)) in let? os := get_size 3 D in let? o := mk_orbit 3 [0; 0; 0]%nat X in let? r := orbit_in 3 tol6 both o os in Some (r, length os)) = Some (r, length os)).
  { rewrite E. cbn [fst option_bind]. rewrite Eos. cbn [option_bind]. rewrite Eo. cbn [option_bind]. rewrite Er. reflexivity. }
  assert (T' : (let? D := fst (gen_orbits 3 tol6 both [1%nat] skewG skew_nbrs skew_sites (skew_cutoffs 7)) in let? os := get_size 3 D in let? o := mk_orbit 3 [0; 0; 0]%nat X in let? r := orbit_in 3 tol6 both o os in Some (r, length os)) = Some (false, 1%nat)) by (vm_compute; reflexivity).
  rewrite T' in T. injection T as Rf Lo. subst r.
  exists 3%nat, tol6, skewG, skew_sites, both, [1%nat], skew_nbrs, (skew_cutoffs 7), D, rest, X, os. split; [apply skew_crystal|]. split; [apply skew_metric|]. split.
  { intros s [<- |[]] c H. repeat (destruct H as [<- |H]; [split; [discriminate|reflexivity]|]). destruct H. }
  split; auto. split; auto. split; auto. split; [intros [H|[H|[]]]; discriminate|]. split; auto. split; auto. split.
  { exists (qz 7). split; [right; left; auto|]. intros x y Hx Hy. apply (reflect_iff _ _ (Qcleb_spec _ _)). simpl in Hx, Hy. repeat (destruct Hx as [<- |Hx]; [repeat (destruct Hy as [<- |Hy]; [vm_compute; reflexivity|]); destruct Hy|]). destruct Hx. }
  split; auto. split; [intros O; rewrite O in Lo; discriminate Lo|]. intros e He R. assert (FT : false = true); [|discriminate FT]. apply Hr. exists e. split; auto. 
  assert (SO : forall x, In x (c_coords (g_base o)) -> site 3 skew_sites x) by (intros x Hx; apply (oo_sites skew_crystal OK Hx)).
  apply (related_trans skew_crystal SO R). apply (moved_related skew_crystal SO). apply (moved_sym skew_crystal (proj2 (proj2 SX))). exists t. split; auto. rewrite Ec. apply Permutation_refl.
Qed.
Print Assumptions C88_skewed_refuted.

(** A dictionary of decreasing cutoffs for which a KeyError is raised: no pair is within the cutoff, so there is no entry to extend. *)
Theorem C88_missing_refuted : exists dim tol G sites ops nbits nbrs cutoffs, crystal dim tol G sites ops /\ metric dim G /\ wrapped sites /\
  sphere dim tol G sites cutoffs nbrs /\ cutoff_dict cutoffs /\ decreasing cutoffs /\ (forall k c, In (k, c) cutoffs -> c <> None) /\
  fst (gen_orbits dim tol ops nbits G nbrs sites cutoffs) = None.
Proof.
  exists 3%nat, tol6, skewG, skew_sites, both, [1%nat], skew_nbrs, (skew_cutoffs 4). split; [apply skew_crystal|]. split; [apply skew_metric|]. split.
  { intros s [<- |[]] c H. repeat (destruct H as [<- |H]; [split; [discriminate|reflexivity]|]). destruct H. }
  split; [apply skew_sphere; lia|]. split; [apply skew_dict; lia|]. split; [apply skew_dict; lia|]. split; [intros k c [E|[E|[]]]; injection E as <- <-; discriminate|]. vm_compute. reflexivity.
Qed.
Print Assumptions C88_missing_refuted.

(** A simple cubic lattice, pairs and triples within 3/2. *)
Definition cubeG : list (list Qc) := [[1; 0; 0]; [0; 1; 0]; [0; 0; 1]].
Definition cube_sites : list (list Qc) := [[0; 0; 0]].
Definition cube_d : Qc := Qc_frac 3 2.
Definition cube_cutoffs : list (nat * option Qc) := [(2%nat, Some cube_d); (3%nat, Some cube_d)].
Definition cube_range : list Z := [-1; 0; 1; 2]%Z.
Definition cube_nbrs (d : Qc) : list (nat * list Qc) :=
  filter (fun v => in_sphere 3 tol6 cubeG cube_sites d (snd v)) (map (fun v => (0%nat, [0 + qz (fst v); 0 + qz (fst (snd v)); 0 + qz (snd (snd v))])) (list_prod cube_range (list_prod cube_range cube_range))).
Lemma cube_crystal : crystal 3 tol6 cubeG cube_sites both.
Proof. apply lat_crystal with (m := 0%Z); auto. intros r [<- |[<- |[<- |[]]]]; reflexivity. Qed.
Lemma cube_form x y z x' y' z' : dist2 cubeG [x; y; z] [x'; y'; z'] = (x - x') * (x - x') + (y - y') * (y - y') + (z - z') * (z - z').
Proof. cbv [dist2 qvsub qdot qmap2 map combine fst snd cubeG]. ring. Qed.
Lemma cube_metric : metric 3 cubeG.
Proof.
  constructor; auto.
  - intros r [<- |[<- |[<- |[]]]]; reflexivity.
  - intros v Lv. destruct (vec3 _ Lv) as (x & y & z & ->). change (repeat 0 3) with [0; 0; 0]. rewrite cube_form. assert (S : forall l : Qc, 0 <= l * l) by (intros l; qcnra).
    assert (S1 := S (x - 0)). assert (S2 := S (y - 0)). assert (S3 := S (z - 0)). revert S1 S2 S3. generalize ((x - 0) * (x - 0)), ((y - 0) * (y - 0)), ((z - 0) * (z - 0)). clear. intros. qclra.
Qed.
Lemma cube_far : far_site 3 cubeG cube_sites.
Proof.
  intros v Lv Hv. exists [0; 0; 0]. split; [left; auto|]. destruct (vec3 _ Lv) as (x & y & z & ->). change (centre 3) with [half; half; half]. rewrite !cube_form.
  assert (V0 := Hv 0%nat ltac:(lia)). assert (V1 := Hv 1%nat ltac:(lia)). assert (V2 := Hv 2%nat ltac:(lia)). cbv [nth] in V0, V1, V2. clear Hv.
  assert (B : forall u, 0 <= u /\ u < 1 -> (half - u) * (half - u) <= (half - 0) * (half - 0)).
  { intros u [U0 U1]. assert (P := Qcmult_le_compat_r 0 (1 - u) u). rewrite Qcmult_0_l in P. assert (P' : 0 <= (1 - u) * u) by (apply P; qclra). assert (E : (half - 0) * (half - 0) - (half - u) * (half - u) = (half + half) * u - u * u) by ring. rewrite half2 in E. change (qz 1) with 1 in E.
    assert (E' : (1 - u) * u = 1 * u - u * u) by ring. qclra. }
  apply B in V0, V1, V2. qclra.
Qed.
Lemma cube_int a b c : dist2 cubeG (centre 3) [0 + qz a; 0 + qz b; 0 + qz c] = qz (a * a - a + (b * b - b) + (c * c - c)) + Qc_frac 3 4.
Proof.
  change (centre 3) with [half; half; half]. rewrite cube_form. unfold half, Qc_frac, Qc_of_Z. qc2q. rewrite !inject_Z_plus. unfold Z.sub. rewrite !inject_Z_plus, !inject_Z_opp, !inject_Z_mult. field.
Qed.
Lemma cube_sphere : sphere 3 tol6 cubeG cube_sites cube_cutoffs cube_nbrs.
Proof.
  assert (ST : forall d i x, In (i, x) (cube_nbrs d) -> is_site 3 cube_sites i x).
  { intros d i x H. unfold cube_nbrs in H. apply filter_In in H as [H _]. apply in_map_iff in H as ([a [b c]] & E & H). injection E as <- <-. apply lat_site. split; auto. exists a, b, c. reflexivity. }
  constructor; auto. intros k d i x Hk _. split.
  - intros H. split; [apply (ST _ _ _ H)|]. unfold cube_nbrs in H. apply filter_In in H. apply H.
  - intros [H S]. unfold cube_nbrs. apply filter_In. split; auto. assert (Ed : d = cube_d) by (destruct Hk as [E|[E|[]]]; congruence). clear Hk. subst d. unfold in_sphere in S.
    assert (M : max_lp2 3 cubeG cube_sites = Qc_frac 3 4) by (apply Qc_is_canon; vm_compute; reflexivity). rewrite M in S.
    apply lat_site in H as (-> & a & b & c & ->). rewrite cube_int in S. set (n := (a * a - a + (b * b - b) + (c * c - c))%Z) in *.
    assert (N : (n < 6)%Z).
    { apply Z.nle_gt. intros N. assert (N' : qz 6 <= qz n) by (apply (proj1 (Qc_of_Z_le _ _)); auto). assert (R : (cube_d + tol6) * (cube_d + tol6) < qz 3) by reflexivity. assert (R0 : 0 <= (cube_d + tol6) * (cube_d + tol6)) by discriminate.
      unfold sqrt_le in S. revert R R0 S. generalize ((cube_d + tol6) * (cube_d + tol6)). intros r R R0 S. set (l := qz n + Qc_frac 3 4 - r - Qc_frac 3 4) in *. assert (L3 : qz 3 < l).
      { assert (E : l = qz n - r) by (unfold l; ring). rewrite E. assert (E6 : qz 6 = qz 3 + qz 3) by (apply Qc_is_canon; reflexivity). qclra. }
      clearbody l. assert (Z3 : 0 < qz 3) by reflexivity. apply orb_true_iff in S as [S|S]; apply (reflect_iff _ _ (Qcleb_spec _ _)) in S; [apply (Qcle_not_lt _ _ S); qclra|].
      assert (LL : qz 3 * qz 3 < l * l) by (apply Qclt_trans with (qz 3 * l); [rewrite (Qcmult_comm (qz 3) l)|]; apply Qcmult_lt_compat_r; qclra).
      assert (E : Q2Qc 4 * r * Qc_frac 3 4 = qz 3 * r) by (assert (E4 : Q2Qc 4 * Qc_frac 3 4 = qz 3) by (apply Qc_is_canon; reflexivity); rewrite <- E4; ring). rewrite E in S.
      assert (R3 : r * qz 3 < qz 3 * qz 3) by (apply Qcmult_lt_compat_r; auto). rewrite (Qcmult_comm (qz 3) r) in S. apply (Qcle_not_lt _ _ S). apply Qclt_trans with (1 := R3). auto. }
    assert (P : forall x, (0 <= x * x - x)%Z) by (intros x; nia). assert (Pa := P a). assert (Pb := P b). assert (Pc := P c). unfold n in N. clear - N Pa Pb Pc.
    assert (B : forall x, (x * x - x < 6 -> x = -1 \/ x = 0 \/ x = 1 \/ x = 2)%Z) by (intros x Hx; assert (-1 <= x <= 2)%Z by nia; lia).
    apply in_map_iff. exists (a, (b, c)). split; auto. apply in_prod; [|apply in_prod]; unfold cube_range; simpl; [specialize (B a)|specialize (B b)|specialize (B c)]; intuition lia.
Qed.
Lemma cube_dict : cutoff_dict cube_cutoffs /\ decreasing cube_cutoffs.
Proof.
  split; split.
  - repeat constructor; simpl; intuition discriminate.
  - intros k c [E|[E|[]]]; injection E as <- <-; lia.
  - intros k d H. assert (Ed : d = cube_d) by (destruct H as [E|[E|[]]]; congruence). subst d. discriminate.
  - intros k d G2 [E|[E|[]]].
    + assert (k = 1%nat) by congruence. lia.
    + assert (k = 2%nat) by congruence. assert (d = cube_d) by congruence. subst. exists cube_d. split; [left; auto|apply Qcle_refl].
Qed.
Example C88_case : crystal 3 tol6 cubeG cube_sites both /\ metric 3 cubeG /\ far_site 3 cubeG cube_sites /\ wrapped cube_sites /\ sphere 3 tol6 cubeG cube_sites cube_cutoffs cube_nbrs /\
  cutoff_dict cube_cutoffs /\ decreasing cube_cutoffs /\ ~ In (1%nat, None) cube_cutoffs /\ (forall k c, In (k, c) cube_cutoffs -> c <> None) /\
  (forall k d c, (2 <= k)%nat -> In (k, Some d) cube_cutoffs -> In (S k, c) cube_cutoffs -> exists X, site_cluster 3 cube_sites X /\ length X = k /\ diam_le cubeG X d) /\
  option_map (map (fun e => (fst e, length (snd e)))) (fst (gen_orbits 3 tol6 both [1%nat] cubeG cube_nbrs cube_sites cube_cutoffs)) = Some [(1, 1); (2, 9); (3, 10)]%nat.
Proof.
  split; [apply cube_crystal|]. split; [apply cube_metric|]. split; [apply cube_far|]. split.
  { intros s [<- |[]] c H. repeat (destruct H as [<- |H]; [split; [discriminate|reflexivity]|]). destruct H. }
  split; [apply cube_sphere|]. split; [apply cube_dict|]. split; [apply cube_dict|]. split; [intros [H|[H|[]]]; discriminate|]. split; [intros k c [E|[E|[]]]; injection E as <- <-; discriminate|]. split.
  - intros k d c G2 Hd Hc. assert (d = cube_d) by (destruct Hd as [E|[E|[]]]; congruence). subst d. assert (k = 2%nat) by (destruct Hd as [E|[E|[]]], Hc as [E'|[E'|[]]]; congruence). subst k.
    exists [[0 + qz 0; 0 + qz 0; 0 + qz 0]; [0 + qz 1; 0 + qz 0; 0 + qz 0]]. split; [|split; auto].
    + split; [discriminate|]. split.
      * repeat constructor; intros H; repeat (destruct H as [E|H]; [apply (f_equal (map this)) in E; vm_compute in E; discriminate|]); destruct H.
      * intros x H. exists 0%nat. simpl in H. repeat (destruct H as [<- |H]; [apply lat_site; split; auto; eexists; eexists; eexists; reflexivity|]). destruct H.
    + intros x y Hx Hy. apply (reflect_iff _ _ (Qcleb_spec _ _)). simpl in Hx, Hy. repeat (destruct Hx as [<- |Hx]; [repeat (destruct Hy as [<- |Hy]; [vm_compute; reflexivity|]); destruct Hy|]). destruct Hx.
  - vm_compute. reflexivity.
Qed.

(** The orbit of a pair: two clusters would be equivalent only through the inversion, which maps it to itself and exchanges its sites. *)
Definition cube_pair : list (list Qc) := [[0 + qz 0; 0 + qz 0; 0 + qz 0]; [0 + qz 1; 0 + qz 0; 0 + qz 0]].
Definition cube_ell : list (list Qc) := cube_pair ++ [[0 + qz 0; 0 + qz 1; 0 + qz 0]].
Example C89_case : site_cluster 3 cube_sites cube_pair /\ site_cluster 3 cube_sites cube_ell /\ Forall2 (is_site 3 cube_sites) [0; 0]%nat cube_pair /\
  (forall g x i j, In g both -> is_site 3 cube_sites i x -> is_site 3 cube_sites j (operate g x) -> nth i [1%nat] 0%nat = nth j [1%nat] 0%nat) /\
  option_map (fun p => (length (o_clusters p), length (o_symops p), o_perms p)) (let? b := mk_cluster 3 cube_pair in orbit_parts 3 tol6 both b) = Some (1, 2, [[0; 1]; [1; 0]])%nat /\
  option_map (fun p => (length (o_clusters p), length (o_symops p), o_perms p)) (let? b := mk_cluster 3 cube_ell in orbit_parts 3 tol6 both b) = Some (2, 1, [[0; 1; 2]])%nat.
Proof.
  assert (S : forall A, A <> [] -> NoDup A -> (forall x, In x A -> exists a b c, x = [0 + qz a; 0 + qz b; 0 + qz c]) -> site_cluster 3 cube_sites A).
  { intros A NA ND H. split; auto. split; auto. intros x Hx. exists 0%nat. apply lat_site. split; auto. }
  split; [apply S|split; [apply S|]]; try discriminate.
  - repeat constructor; intros H; repeat (destruct H as [E|H]; [apply (f_equal (map this)) in E; vm_compute in E; discriminate|]); destruct H.
  - intros x H. repeat (destruct H as [<- |H]; [eexists; eexists; eexists; reflexivity|]). destruct H.
  - repeat constructor; intros H; repeat (destruct H as [E|H]; [apply (f_equal (map this)) in E; vm_compute in E; discriminate|]); destruct H.
  - intros x H. repeat (destruct H as [<- |H]; [eexists; eexists; eexists; reflexivity|]). destruct H.
  - split; [|split; [|split]].
    + repeat constructor; apply lat_site; split; auto; eexists; eexists; eexists; reflexivity.
    + intros g x i j _ Hi Hj. apply lat_site in Hi as [-> _]. apply lat_site in Hj as [-> _]. auto.
    + vm_compute. reflexivity.
    + vm_compute. reflexivity.
Qed.

(** ** C90: the cutoff of points *)
(** [None] excludes the points: nothing is generated, and larger clusters raise. *)
Theorem C90_excluded : forall dim tol ops nbits G nbrs sites cutoffs, cutoff_dict cutoffs -> In (1%nat, None) cutoffs ->
  fst (gen_orbits dim tol ops nbits G nbrs sites cutoffs) = (if (length cutoffs =? 1)%nat then Some [] else None).
Proof.
  intros dim tol ops nbits G nbrs sites cutoffs [ND _] H. unfold gen_orbits.
  assert (F : find is_point cutoffs = Some (1%nat, None) /\ length (filter (fun c => negb (is_point c)) cutoffs) = (length cutoffs - 1)%nat).
  { assert (NP : forall l, ~ In 1%nat (map fst l) -> filter (fun c => negb (is_point c)) l = l).
    { induction l as [|c l IH]; simpl; auto. intros N. unfold is_point at 1. destruct (Nat.eqb_spec (fst c) 1); [exfalso; auto|]. simpl. rewrite IH; auto. }
    induction cutoffs as [|c l IH]; [destruct H|]. inversion ND as [|? ? N ND']; subst. destruct H as [-> |H].
    - split; auto. simpl. rewrite NP; auto. lia.
    - simpl. unfold is_point at 1 3. destruct (Nat.eqb_spec (fst c) 1) as [E|E]; [exfalso; apply N; rewrite E; apply (in_map fst _ _ H)|]. simpl. destruct (IH ND' H) as [I1 I2]. split; auto. rewrite I2. destruct l; [destruct H|simpl; lia]. }
  destruct F as [F1 F2]. rewrite F1. cbn [fst]. destruct (filter _ cutoffs) as [|r rs] eqn:Er; simpl in F2.
  - replace (length cutoffs) with 1%nat; auto. destruct cutoffs; [destruct H|simpl in *; lia].
  - replace (length cutoffs =? 1)%nat with false; auto. symmetry. apply Nat.eqb_neq. lia.
Qed.
Print Assumptions C90_excluded.

(** Any other cutoff of points is ignored. *)
Theorem C90_ignored : forall dim tol ops nbits G nbrs sites cutoffs, cutoff_dict cutoffs -> ~ In (1%nat, None) cutoffs ->
  fst (gen_orbits dim tol ops nbits G nbrs sites cutoffs) = fst (gen_orbits dim tol ops nbits G nbrs sites (filter (fun c => negb (fst c =? 1)%nat) cutoffs)).
Proof.
  intros dim tol ops nbits G nbrs sites cutoffs _ H. unfold gen_orbits. change (fun c => negb (fst c =? 1)%nat) with (fun c : nat * option Qc => negb (is_point c)).
  assert (I : filter (fun c => negb (is_point c)) (filter (fun c => negb (is_point c)) cutoffs) = filter (fun c => negb (is_point c)) cutoffs).
  { induction cutoffs as [|c l IH]; simpl; auto. destruct (is_point c) eqn:E; simpl; auto.
    - apply IH. intros X. apply H. right; auto.
    - rewrite E. simpl. f_equal. apply IH. intros X. apply H. right; auto. }
  assert (N : find is_point (filter (fun c => negb (is_point c)) cutoffs) = None).
  { destruct (find is_point (filter _ cutoffs)) as [c|] eqn:E; auto. apply find_some in E as [E1 E2]. apply filter_In in E1 as [_ E1]. rewrite E2 in E1. discriminate. }
  rewrite I, N. destruct (find is_point cutoffs) as [[k [d|]]|] eqn:F; auto. apply find_some in F as [F1 F2]. apply Nat.eqb_eq in F2. simpl in F2. subst k. contradiction.
Qed.
Print Assumptions C90_ignored.

(** The dictionary that was passed is unchanged when it has no cutoff of points.  Missing: other dictionaries, see [C90_repeat_refuted]. *)
Theorem C90_unchanged_partial : forall dim tol ops nbits G nbrs sites cutoffs, ~ In 1%nat (map fst cutoffs) -> snd (gen_orbits dim tol ops nbits G nbrs sites cutoffs) = cutoffs.
Proof.
  intros dim tol ops nbits G nbrs sites cutoffs H. unfold gen_orbits. assert (E : filter (fun c => negb (is_point c)) cutoffs = cutoffs).
  { induction cutoffs as [|c l IH]; simpl; auto. unfold is_point at 1. destruct (Nat.eqb_spec (fst c) 1); [exfalso; apply H; left; auto|]. simpl. f_equal. apply IH. intros X. apply H. right. auto. }
  rewrite E. destruct (find is_point cutoffs) as [[k [d|]]|]; auto.
Qed.
Print Assumptions C90_unchanged_partial.

(** The key is removed from the dictionary, so that a second call with the same dictionary generates the excluded points. *)
Theorem C90_repeat_refuted : exists dim tol G sites ops nbits nbrs cutoffs rest D, crystal dim tol G sites ops /\ cutoff_dict cutoffs /\
  gen_orbits dim tol ops nbits G nbrs sites cutoffs = (Some [], rest) /\ rest <> cutoffs /\
  fst (gen_orbits dim tol ops nbits G nbrs sites rest) = Some D /\ D <> [].
Proof.
  destruct (fst (gen_orbits 3 tol6 both [1%nat] cubeG cube_nbrs cube_sites [])) as [D|] eqn:E.
  - exists 3%nat, tol6, cubeG, cube_sites, both, [1%nat], cube_nbrs, [(1%nat, None)], [], D. split; [apply cube_crystal|]. split.
    + split; [repeat constructor; simpl; tauto|]. intros k c [H|[]]. injection H as <- <-. lia.
    + split; [reflexivity|]. split; [discriminate|]. split; [exact E|]. intros ->. apply (f_equal (option_map (@length _))) in E. vm_compute in E. discriminate E.
  - apply (f_equal (option_map (@length _))) in E. vm_compute in E. discriminate E.
Qed.
Print Assumptions C90_repeat_refuted.

(** The documented way to exclude points, a cutoff of zero, does not. *)
Theorem C90_zero_refuted : exists dim tol G sites ops nbits nbrs cutoffs D, crystal dim tol G sites ops /\ cutoffs = [(1%nat, Some 0)] /\
  fst (gen_orbits dim tol ops nbits G nbrs sites cutoffs) = Some D /\ exists o os, get_size 1 D = Some (o :: os).
Proof.
  destruct (fst (gen_orbits 3 tol6 both [1%nat] cubeG cube_nbrs cube_sites [(1%nat, Some 0)])) as [D|] eqn:E.
  - exists 3%nat, tol6, cubeG, cube_sites, both, [1%nat], cube_nbrs, [(1%nat, Some 0)], D. split; [apply cube_crystal|]. split; auto. split; [exact E|].
    destruct (get_size 1 D) as [[|o os]|] eqn:S; [| exists o, os; auto |]; apply (f_equal (option_map (fun D => option_map (@length _) (get_size 1 D)))) in E; simpl in E; rewrite S in E; vm_compute in E; discriminate E.
  - apply (f_equal (option_map (@length _))) in E. vm_compute in E. discriminate E.
Qed.
Print Assumptions C90_zero_refuted.
Example C90_case : cutoff_dict [(1%nat, None); (2%nat, Some cube_d)] /\ cutoff_dict ((1%nat, Some 0) :: cube_cutoffs) /\ ~ In (1%nat, None) ((1%nat, Some 0) :: cube_cutoffs) /\ ~ In 1%nat (map fst cube_cutoffs).
Proof.
  split; [|split; [|split]].
  - split; [repeat constructor; simpl; intuition discriminate|]. intros k c [H|[H|[]]]; injection H as <- <-; lia.
  - split; [repeat constructor; simpl; intuition discriminate|]. intros k c [H|[H|[H|[]]]]; injection H as <- <-; lia.
  - intros [H|[H|[H|[]]]]; discriminate.
  - simpl. intuition discriminate.
Qed.
