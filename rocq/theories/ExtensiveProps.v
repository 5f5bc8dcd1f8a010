(** C98: the correlations of an arrangement of species do not depend on the supercell.  See ExtensiveSpec for the notions used in the statements. *)
From Verif Require ArrangeProofs CompSpaceProofs.
From Verif Require Import LibProofs SublatticeProofs EvaluatorProofs EvaluatorProps TensorProofs OrbitProps OrbitSearchProofs OrbitGenProps OrbitIndicesProofs OrbitIndicesProps SymmetryProofs SymmetryProps ExtensiveProofs.
From Coq Require Import Lia Permutation.
Set Implicit Arguments.
Unset Strict Implicit.
Local Open Scope Qc_scope.

Section Orbits.
Variables (dim : nat) (tol : Qc) (G : list (list Qc)) (sites : list (list Qc)) (ops : list symop) (M : list (list Z)) (Minv : list (list Qc)) (M' : list (list Z)) (Minv' : list (list Qc)).
Hypothesis CR : crystal dim tol G sites ops.
Hypothesis SU : supercell dim tol sites M Minv.
Hypothesis SU' : supercell dim tol sites M' Minv'.
Notation site := (site dim sites).
Notation is_site := (is_site dim sites).
Variables (fb : nat -> list (list Qc)) (ns : nat -> nat) (nbits : list nat).
Hypothesis SF : site_functions dim sites ops fb ns nbits.
(** The second occupancy gives every site a species that it can have. *)
Lemma moved_occupied h tau occu occu' : In h ops -> length tau = dim -> occupied dim sites M Minv ns occu -> moved_arrangement dim sites h tau M Minv occu M' Minv' occu' -> occupied dim sites M' Minv' ns occu'.
Proof using CR SU SU' SF.
  intros Hh Lt OC CA y i k Hi Hk. assert (Sy : site y) by (exists i; auto). destruct (preimage CR Hh Lt Sy) as (x & Sx & Ex).
  destruct (located_one CR SU Sx) as (j & Lj & _). assert (EC := CA x j k Sx Lj). rewrite Ex in EC. rewrite (EC Hk). destruct Sx as (i' & Hi'). destruct (OC x i' j Hi' Lj) as (c & Hc & Hlt). exists c. split; auto.
  assert (Hi2 := Hi). rewrite <- Ex in Hi2. destruct (same_kind CR SF Hh Lt Hi' Hi2) as [_ <-]. auto.
Qed.
Lemma mean_moved (a b c : nat) (x y : Qc) : a <> 0%nat -> b <> 0%nat -> c <> 0%nat -> Qc_of_nat b * x = Qc_of_nat a * y -> x / Qc_of_nat (c * a) = y / Qc_of_nat (c * b).
Proof using.
  intros Ha Hb Hc E. assert (NZ := Qc_of_nat_nz).
  assert (Na := NZ a Ha). assert (Nb := NZ b Hb). assert (Nc := NZ c Hc). rewrite !ArrangeProofs.Qc_of_nat_mul. apply (f_equal (fun z => z / (Qc_of_nat a * Qc_of_nat b * Qc_of_nat c))) in E.
  transitivity (Qc_of_nat b * x / (Qc_of_nat a * Qc_of_nat b * Qc_of_nat c)); [field; auto|]. rewrite E. field. auto.
Qed.
Lemma orbit_moved so rows od h tau occu occu' : built_in_both dim tol sites ops M Minv M' Minv' nbits fb so rows -> orbit_data so = Some od -> In h ops -> length tau = dim ->
  occupied dim sites M Minv ns occu -> moved_arrangement dim sites h tau M Minv occu M' Minv' occu' ->
  corr_writes occu' od (snd rows) = corr_writes occu od (fst rows) /\ corr_writes occu od (fst rows) <> None.
Proof using CR SU SU' SF.
  intros (ks & A & o & p & cs & SA & FK & Eo & Ep & Er & Er2 & Ec & Eb & IC) Ed Hh Lt OC CA.
  destruct (mk_orbit_ok CR SA FK) as (o' & t & E' & OK & Lt' & Eco & Ek). rewrite Eo in E'. injection E' as <-.
  assert (SB : sym_bits (g_bits nbits o) (o_perms p)).
  { apply (C89_functions CR SA FK) with (3 := Ep); auto. intros g x i j Hg Hi Hj. destruct (sf_rows SF (kind_lt Hi)) as [<- _]. destruct (sf_rows SF (kind_lt Hj)) as [<- _]. rewrite (sf_sym SF Hg Hi Hj). auto. }
  assert (PB := oo_proper OK). assert (KB := oo_kinds OK). rewrite Ek in KB.
  destruct (parts_ok CR PB) as (p' & Ep' & P1 & P2 & P3 & P4 & _ & _ & P7 & PG). rewrite Ep in Ep'. injection Ep' as <-.
  assert (LK := Forall2_length KB).
  assert (LB : length (g_bits nbits o) = length (c_coords (g_base o))) by (unfold g_bits; rewrite map_length, Ek; auto).
  destruct (C35_partition PG SB LB) as (cs' & Ec' & ND & INC & NE & GR). rewrite Ec in Ec'. injection Ec' as <-.
  assert (KL : forall k, In k ks -> (k < length sites)%nat) by (intros k Hk; clear - KB Hk; induction KB as [|k' x ks A H F IH]; [destruct Hk|destruct Hk as [<- |Hk]; [apply (kind_lt H)|auto]]).
  assert (BI : forall c a, In c cs -> In a c -> bits_in (s_basis so) a).
  { intros c a Hc Ha. assert (Hx : In a (cart (g_bits nbits o))) by (apply INC; apply in_concat; eauto). apply cart_in in Hx. rewrite Eb. unfold g_bits in Hx. rewrite Ek in Hx. clear - Hx KL SF. 
    revert a Hx. induction ks as [|k l IH]; intros a Hx; inversion Hx as [|x ? a' ? H1 H2]; subst; cbn [map]; constructor; [|apply IH; auto; intros; apply KL; right; auto].
    apply in_seq in H1. destruct (sf_rows SF (KL k (or_introl eq_refl))) as [-> _]. lia. }
  assert (SO : sorbit_ok (map ns ks) so).
  { constructor.
    - unfold basis_shape. rewrite Eb. clear - SF. induction ks as [|k l IH]; cbn [map]; constructor; auto. intros r Hr. apply (sf_cols SF Hr).
    - intros X HX. rewrite Eb in HX. apply in_map_iff in HX as (k & <- & Hk). destruct (sf_rows SF (KL k Hk)) as [L P]. intros En. rewrite En in L. simpl in L. lia.
    - intros c a Hc Ha. apply (BI c); auto.
    - intros c Hc. apply NE. auto. }
  assert (Hd : map ns ks <> []).
  { intros En. apply map_eq_nil in En. apply Forall2_length in FK. rewrite En in FK. destruct SA as [SA _]. destruct A; [congruence|discriminate FK]. }
  assert (SC : forall c x, In c (o_clusters p) -> In x (c_coords c) -> site x) by (intros c x Hc; apply (proper_coords CR (P1 c Hc))).
  destruct (rows_located CR SU SC) as (rows1 & Er' & LR). rewrite Er in Er'. injection Er' as Er'. rewrite Er'. destruct (rows_located CR SU' SC) as (rows2 & Er2' & LR2). rewrite Er2 in Er2'. injection Er2' as Er2'. rewrite Er2'.
  assert (OXg : forall A' Ainv, supercell dim tol sites A' Ainv -> forall X, In X (map (fun q => translate (snd q) (c_coords (fst q))) (list_prod (o_clusters p) (cell_points dim A' Ainv))) -> ordered dim ops (c_coords (g_base o)) X).
  { intros A' Ainv SU0 X HX. apply in_map_iff in HX as ([c u] & <- & Hq). apply in_prod_iff in Hq as [Hc Hu]. cbn [fst snd]. apply (ordered_translate CR PB); [apply (point_len SU0 Hu)|]. apply (ordered_clusters CR PB Ep Hc). }
  assert (OX := OXg M Minv SU). assert (OX2 := OXg M' Minv' SU'). clear OXg.
  assert (OC' := moved_occupied Hh Lt OC CA).
  assert (RC : forall row, In row rows1 -> codes_below (map ns ks) (codes occu row) /\ Forall2 (fun s c => nth_error occu s = Some c) row (codes occu row)).
  { intros row Hr. destruct (Forall2_row LR Hr) as (X & HX & FL). apply (row_codes CR SU SF KB OC (OX X HX) FL). }
  assert (RC2 : forall row, In row rows2 -> codes_below (map ns ks) (codes occu' row) /\ Forall2 (fun s c => nth_error occu' s = Some c) row (codes occu' row)).
  { intros row Hr. destruct (Forall2_row LR2 Hr) as (X & HX & FL). apply (row_codes CR SU' SF KB OC' (OX2 X HX) FL). }
  assert (NP := points_ne CR SU). assert (NP' := points_ne CR SU').
  assert (NC : length (o_clusters p) <> 0%nat) by (destruct (cr_id CR) as (g & Hg & _); destruct (P4 g Hg) as (c & Hc & _); destruct (o_clusters p); [destruct Hc|discriminate]).
  assert (LN : length rows1 = (length (o_clusters p) * length (cell_points dim M Minv))%nat) by (rewrite (Forall2_length LR), map_length, prod_length; auto).
  assert (LN2 : length rows2 = (length (o_clusters p) * length (cell_points dim M' Minv'))%nat) by (rewrite (Forall2_length LR2), map_length, prod_length; auto).
  assert (NZ : length (cell_points dim M Minv) <> 0%nat) by (intros E0; apply length_zero_iff_nil in E0; auto).
  assert (NZ' : length (cell_points dim M' Minv') <> 0%nat) by (intros E0; apply length_zero_iff_nil in E0; auto).
  rewrite (writes_value Hd SO Ed RC), (writes_value Hd SO Ed RC2). split.
  - apply opt_map_ext_in. intros k Hk. apply in_seq in Hk.
    assert (SUM : forall A' Ainv oc rws, supercell dim tol sites A' Ainv -> Forall2 (Forall2 (located dim sites A' Ainv)) rws (map (fun q => translate (snd q) (c_coords (fst q))) (list_prod (o_clusters p) (cell_points dim A' Ainv))) ->
      (forall X, In X (map (fun q => translate (snd q) (c_coords (fst q))) (list_prod (o_clusters p) (cell_points dim A' Ainv))) -> ordered dim ops (c_coords (g_base o)) X) ->
      map (fun row => phi so k (codes oc row)) rws = map (fun X => phi so k (map (deco dim tol sites A' Ainv oc) X)) (map (fun q => translate (snd q) (c_coords (fst q))) (list_prod (o_clusters p) (cell_points dim A' Ainv)))).
    { intros A' Ainv oc rws S FL HO. apply (map_rel FL). intros row X Hr HX FR. rewrite (deco_codes CR oc S (ordered_sites CR PB (HO X HX)) FR). auto. }
    rewrite (SUM M Minv occu rows1 SU LR OX), (SUM M' Minv' occu' rows2 SU' LR2 OX2). unfold mean_over. rewrite LN, LN2.
    destruct (Nat.eqb_spec (length (o_clusters p) * length (cell_points dim M Minv)) 0) as [E0|_]; [nia|]. destruct (Nat.eqb_spec (length (o_clusters p) * length (cell_points dim M' Minv')) 0) as [E0|_]; [nia|].
    cbn [option_bind]. f_equal. f_equal. symmetry. apply mean_moved; auto. apply (carry_mean CR Hh Lt SU SU' CA PB Ep).
    intros X q OXX Hq.
    assert (SX := ordered_sites CR PB OXX).
    assert (H1 : codes_below (map ns ks) (map (deco dim tol sites M Minv occu) X)).
    { destruct (mapping_located CR SU SX) as (row & _ & FL). rewrite <- (deco_codes CR occu SU SX FL). apply (row_codes CR SU SF KB OC OXX FL). }
    unfold phi. f_equal. set (c := nth k (s_combos so) []). assert (Hc : In c cs) by (apply IC, nth_In; unfold s_len in Hk; lia).
    assert (LQ : length (s_basis so) = length (c_coords (g_base o))) by (rewrite Eb, map_length; auto).
    assert (PQ : is_perm (length (c_coords (g_base o))) q) by (apply PG; auto).
    apply group_sum.
    + rewrite LQ. auto.
    + intros a Ha. apply (BI c); auto.
    + clear - ND Hc. induction cs as [|x l IH]; [destruct Hc|]. cbn [concat] in ND. destruct Hc as [-> |Hc]; [apply NoDup_app_remove_r in ND; auto|apply NoDup_app_remove_l in ND; auto].
    + intros a Ha. apply (GR c a); auto. exists q. split; auto. apply (@permute_act (length (c_coords (g_base o)))); [|apply PQ]. rewrite <- LQ. symmetry. apply (Forall2_length (BI c a Hc Ha)).
    + unfold codes_below in H1. rewrite LQ, <- LK. rewrite <- (Forall2_length H1), map_length. auto.
    + intros i' j Hij. apply P7 in Hq as (g & Hg & Pp & u & Lu & H).
      assert (Li : (i' < length (c_coords (g_base o)))%nat) by (rewrite <- (proj1 Pp); apply nth_error_Some; congruence).
      assert (Lj : (j < length (c_coords (g_base o)))%nat) by (apply Pp; eapply nth_error_In; eauto).
      specialize (H i' Li). rewrite (nth_error_nth _ _ _ Hij) in H.
      assert (Ki := @Forall2_get _ _ _ _ _ 0%nat [] i' KB Li). assert (Kj := @Forall2_get _ _ _ _ _ 0%nat [] j KB Lj). rewrite H in Ki. destruct (same_kind CR SF Hg Lu Kj Ki) as [E _].
      rewrite Eb. rewrite !nth_error_map. rewrite (nth_error_nth' ks 0%nat) by (rewrite LK; auto). rewrite (nth_error_nth' ks 0%nat) by (rewrite LK; auto). cbn [option_map]. rewrite E. auto.
  - intros N. destruct (@opt_map_all _ _ (fun k => let? m := mean_over (length rows1) (qsum (map (fun row => phi so k (codes occu row)) rows1)) in Some ((s_bit so + k)%nat, m)) (seq 0 (s_len so))) as (ys & E); [|congruence].
    intros k _. unfold mean_over. destruct (Nat.eqb_spec (length rows1) 0); [nia|]. discriminate.
Qed.
End Orbits.

(** ** C98 *)
(** An arrangement moved by a symmetry operation and a lattice translation, in any two supercells, has the same correlations. *)
Theorem C98_moved dim tol G sites ops M Minv M' Minv' fb nspecies nbits sos tables ev h tau occu occu' :
  crystal dim tol G sites ops -> supercell dim tol sites M Minv -> supercell dim tol sites M' Minv' -> site_functions dim sites ops fb nspecies nbits ->
  Forall2 (built_in_both dim tol sites ops M Minv M' Minv' nbits fb) sos tables -> opt_map orbit_data sos = Some (e_orbits ev) ->
  (0 < e_num_corr ev)%nat -> (forall o, In o (e_orbits ev) -> (o_bit o + o_rows o <= e_num_corr ev)%nat) ->
  In h ops -> length tau = dim -> occupied dim sites M Minv nspecies occu -> moved_arrangement dim sites h tau M Minv occu M' Minv' occu' ->
  exists v, correlations ev occu (map fst tables) = Some v /\ correlations ev occu' (map snd tables) = Some v.
Proof.
  intros CR SU SU' SF FB ED NC SL Hh Lt OC CA.
  assert (W : exists w, corr_work ev occu (map fst tables) = Some w /\ corr_work ev occu' (map snd tables) = Some w).
  { unfold corr_work, zip_orbits. rewrite !map_length, <- (Forall2_length FB). rewrite (opt_map_length _ _ ED). rewrite Nat.leb_refl. clear NC SL. revert ED. generalize (e_orbits ev). clear ev.
    induction FB as [|so rows sos tables B F IH]; intros os ED; cbn [opt_map] in ED.
    - injection ED as <-. exists []. auto.
    - destruct (orbit_data so) as [od|] eqn:E1; cbn [option_bind] in ED; [|discriminate ED]. destruct (opt_map orbit_data sos) as [ods|] eqn:E2; cbn [option_bind] in ED; [|discriminate ED]. injection ED as <-.
      destruct (IH ods eq_refl) as (w & W1 & W2). destruct (orbit_moved CR SU SU' SF B E1 Hh Lt OC CA) as [O1 O2]. destruct (corr_writes occu od (fst rows)) as [ws|] eqn:E3; [|congruence].
      exists (ws :: w). cbn [map combine opt_map fst snd]. rewrite O1, E3. cbn [option_bind]. rewrite W1, W2. auto. }
  destruct W as (w & W1 & W2). unfold correlations. rewrite W1, W2. unfold run_work. rewrite (init_out_ok _ NC). cbn [option_bind].
  destruct (@write_all_total (upd (repeat (Q2Qc 0) (e_num_corr ev)) 0 1) (concat w)) as (r & Er); [|exists r; auto].
  intros y Hy. rewrite length_upd, repeat_length. apply in_concat in Hy as (ws & Hw & Hy).
  unfold corr_work, zip_orbits in W1. destruct (_ <=? _)%nat; [|discriminate W1]. apply (opt_map_in W1) in Hw as ([o rows] & Hin & Hw). cbn [fst snd] in Hw.
  assert (Hs := corr_slots Hw). assert (Hf : In (fst y) (map fst ws)) by (apply in_map; auto). rewrite Hs in Hf. apply in_seq in Hf. apply in_combine_l in Hin. specialize (SL o Hin). lia.
Qed.
(** The same arrangement in two supercells has the same correlations. *)
Theorem C98_same dim tol G sites ops M Minv M' Minv' fb nspecies nbits sos tables ev occu occu' :
  crystal dim tol G sites ops -> supercell dim tol sites M Minv -> supercell dim tol sites M' Minv' -> site_functions dim sites ops fb nspecies nbits ->
  Forall2 (built_in_both dim tol sites ops M Minv M' Minv' nbits fb) sos tables -> opt_map orbit_data sos = Some (e_orbits ev) ->
  (0 < e_num_corr ev)%nat -> (forall o, In o (e_orbits ev) -> (o_bit o + o_rows o <= e_num_corr ev)%nat) ->
  occupied dim sites M Minv nspecies occu -> same_arrangement dim sites M Minv occu M' Minv' occu' ->
  exists v, correlations ev occu (map fst tables) = Some v /\ correlations ev occu' (map snd tables) = Some v.
Proof.
  intros CR SU SU' SF FB ED NC SL OC CA. destruct (cr_id CR) as (g & Hg & w & Lw & E).
  apply (C98_moved (h := g) (tau := zneg w) CR SU SU' SF FB ED NC SL Hg); auto; [rewrite length_zneg; auto|].
  intros x j k Sx Lj Lk. apply (CA x j k Sx Lj). rewrite (E x Sx), shift_back in Lk; auto. rewrite Lw. apply (site_len CR Sx).
Qed.
(** An occupancy of a supercell has a repetition in every supercell whose vectors are vectors of the first one. *)
Theorem C98_repeated dim tol G sites ops M Minv M' Minv' nspecies occu :
  crystal dim tol G sites ops -> supercell dim tol sites M Minv -> supercell dim tol sites M' Minv' -> multiple_of dim M M' -> occupied dim sites M Minv nspecies occu ->
  exists occu', length occu' = length (supercell_coords dim Minv' sites (frac_points dim M' Minv')) /\ same_arrangement dim sites M Minv occu M' Minv' occu' /\ occupied dim sites M' Minv' nspecies occu'.
Proof.
  intros CR SU SU' MU OC.
  destruct (@choose _ _ (fun k c => forall x j, site dim sites x -> located dim sites M Minv j x -> located dim sites M' Minv' k x -> nth_error occu j = Some c) (seq 0 (length (cells dim sites M' Minv')))) as (occu' & F).
  - intros k Hk. apply in_seq in Hk. destruct (nth_error (cells dim sites M' Minv') k) as [y|] eqn:Ey; [|apply nth_error_None in Ey; lia].
    assert (Sy : site dim sites y) by (apply (cell_site SU'); eapply nth_error_In; eauto). destruct (located_one CR SU Sy) as (j & Lj & _).
    assert (Sy' := Sy). destruct Sy' as (i & Hi). destruct (OC y i j Hi Lj) as (c & Hc & _). exists c. intros x' j' Sx' Lj' Lk'.
    apply (located_cell CR SU' k Sx') in Lk' as (z & Ez & u & Lu & Eu). rewrite Ey in Ez. injection Ez as <-. destruct (MU u Lu) as (t & Lt & Et). rewrite Et in Eu.
    assert (Lj2 : located dim sites M Minv j x') by (rewrite Eu; apply (located_scell CR SU Sy Lt Lj)). destruct (located_one CR SU Sx') as (j3 & _ & _ & U & _). rewrite (U j' Lj'), <- (U j Lj2). auto.
  - assert (L : length occu' = length (cells dim sites M' Minv')) by (rewrite <- (Forall2_length F), seq_length; auto).
    assert (CA : same_arrangement dim sites M Minv occu M' Minv' occu').
    { intros x j k Sx Lj Lk. apply (located_cell CR SU' k Sx) in Lk as Lk'. destruct Lk' as (y & Ey & _). assert (Hk : (k < length occu')%nat) by (rewrite L; apply nth_error_Some; congruence).
      assert (R := @Forall2_get _ _ _ _ _ 0%nat 0%nat k F Hk). cbv beta in R. rewrite seq_nth in R by lia. rewrite (R x j Sx Lj Lk). apply nth_error_nth'. auto. }
    exists occu'. split; [rewrite (coords_cells CR SU'), map_length; auto|]. split; auto. intros x i k Hi Lk. assert (Sx : site dim sites x) by (exists i; auto). destruct (located_one CR SU Sx) as (j & Lj & _).
    destruct (OC x i j Hi Lj) as (c & Hc & Lc). exists c. rewrite (CA x j k Sx Lj Lk). auto.
Qed.
(** The features of the processors of the two supercells, and so the property that they compute, are in the ratio of the numbers of cells. *)
Theorem C98_extensive dim tol G sites ops M Minv M' Minv' fb nspecies nbits sos tables ev h tau occu occu' coefs :
  crystal dim tol G sites ops -> supercell dim tol sites M Minv -> supercell dim tol sites M' Minv' -> site_functions dim sites ops fb nspecies nbits ->
  Forall2 (built_in_both dim tol sites ops M Minv M' Minv' nbits fb) sos tables -> opt_map orbit_data sos = Some (e_orbits ev) ->
  (0 < e_num_corr ev)%nat -> (forall o, In o (e_orbits ev) -> (o_bit o + o_rows o <= e_num_corr ev)%nat) ->
  In h ops -> length tau = dim -> occupied dim sites M Minv nspecies occu -> moved_arrangement dim sites h tau M Minv occu M' Minv' occu' ->
  exists f f', ce_features (mkProc (length (cell_points dim M Minv)) ev (map fst tables)) occu = Some f /\ ce_features (mkProc (length (cell_points dim M' Minv')) ev (map snd tables)) occu' = Some f' /\
    map (fun x => Qc_of_nat (length (cell_points dim M' Minv')) * x) f = map (fun x => Qc_of_nat (length (cell_points dim M Minv)) * x) f' /\
    Qc_of_nat (length (cell_points dim M' Minv')) * qdot coefs f = Qc_of_nat (length (cell_points dim M Minv)) * qdot coefs f'.
Proof.
  intros CR SU SU' SF FB ED NC SL Hh Lt OC CA. destruct (C98_moved CR SU SU' SF FB ED NC SL Hh Lt OC CA) as (v & E1 & E2). unfold ce_features. cbn [p_eval p_tables]. rewrite E1, E2. cbn [option_bind].
  do 2 eexists. split; [reflexivity|]. split; [reflexivity|]. unfold scale. cbn [p_size]. split; [rewrite !map_map; apply map_ext; intros x; ring|].
  rewrite !CompSpaceProofs.qdot_scale_r. ring.
Qed.
Print Assumptions C98_moved.
Print Assumptions C98_same.
Print Assumptions C98_repeated.
Print Assumptions C98_extensive.

(** *** Case: alternating species in the supercell of two cells turned by 45 degrees, and in the straight supercell of four cells; also moved to the neighboring cell. *)
Unset Implicit Arguments.
Definition fourM : list (list Z) := [[2; 0; 0]; [0; 2; 0]; [0; 0; 1]]%Z.
Definition fourI : list (list Qc) := [[half; 0; 0]; [0; half; 0]; [0; 0; 1]].
Lemma four_fr x y z : vmat 3 [x; y; z] fourI = [half * x; half * y; z].
Proof. cbv [vmat fourI qvadd qvscale qmap2 map combine fst snd repeat]. apply v3; ring. Qed.
Lemma four_back x y z : vmat 3 [x; y; z] (map (map Qc_of_Z) fourM) = [x + x; y + y; z].
Proof. cbv [vmat fourM qvadd qvscale qmap2 map combine fst snd repeat]. change (Qc_of_Z 1) with 1. change (Qc_of_Z 0) with 0. change (Qc_of_Z 2) with (1 + 1). apply v3; ring. Qed.
Lemma four_supercell : supercell 3 tol6 cube_sites fourM fourI.
Proof.
  constructor; try reflexivity.
  - intros r [<- |[<- |[<- |[]]]]; reflexivity.
  - intros r [<- |[<- |[<- |[]]]]; reflexivity.
  - intros x L. destruct (vec3 _ L) as (a & b & c & ->). rewrite four_back, four_fr, half_2. apply v3; qclra.
  - intros x L. destruct (vec3 _ L) as (a & b & c & ->). rewrite four_fr, four_back, half_2. apply v3; qclra.
  - intros x y (i & Hi) (k & Hk) H. apply lat_site in Hi as (_ & a & b & c & ->). apply lat_site in Hk as (_ & a' & b' & c' & ->).
    destruct (H 0%nat ltac:(lia)) as (n0 & A0 & B0). destruct (H 1%nat ltac:(lia)) as (n1 & A1 & B1). destruct (H 2%nat ltac:(lia)) as (n2 & A2 & B2). clear H.
    rewrite !four_fr in *. cbn [nth] in *. assert (T : tol6 < half) by reflexivity.
    assert (D : forall u v, Qc_of_Z (u - v) = Qc_of_Z u - Qc_of_Z v) by (intros u v; unfold Z.sub; rewrite Qc_of_Z_add, Qc_of_Z_opp'; auto).
    assert (W : forall u, Qc_of_Z (2 * u) = Qc_of_Z u + Qc_of_Z u) by (intros u; replace (2 * u)%Z with (u + u)%Z by lia; apply Qc_of_Z_add).
    assert (E0 : (a - a' - 2 * n0 = 0)%Z) by (apply (near_int tol6 _ T); rewrite !D, W, half_2 in *; qclra).
    assert (E1 : (b - b' - 2 * n1 = 0)%Z) by (apply (near_int tol6 _ T); rewrite !D, W, half_2 in *; qclra).
    assert (E2 : (2 * (c - c' - n2) = 0)%Z) by (apply (near_int tol6 _ T); rewrite W, !D, half_2 in *; qclra).
    exists [n0; n1; n2]. split; auto. unfold svec, fourM. cbv [zmat combine map fst snd repeat shift qvadd qmap2].
    assert (Ea : a = (a' + (n0 * 2 + (n1 * 0 + (n2 * 0 + 0))))%Z) by lia. assert (Eb : b = (b' + (n0 * 0 + (n1 * 2 + (n2 * 0 + 0))))%Z) by lia. assert (Ec : c = (c' + (n0 * 0 + (n1 * 0 + (n2 * 1 + 0))))%Z) by lia.
    rewrite Ea, Eb, Ec. rewrite !(Qc_of_Z_add a'), !(Qc_of_Z_add b'), !(Qc_of_Z_add c'). apply v3; ring.
Qed.
Lemma four_parity j a b c : located 3 cube_sites fourM fourI j [0 + qz a; 0 + qz b; 0 + qz c] ->
  In (Z.of_nat j, a mod 2, b mod 2)%Z [(0, 0, 0); (1, 0, 1); (2, 1, 0); (3, 1, 1)]%Z.
Proof.
  intros H. assert (S : site 3 cube_sites [0 + qz a; 0 + qz b; 0 + qz c]) by (exists 0%nat; apply lat_site; split; auto; exists a, b, c; auto).
  apply (located_cell cube_crystal four_supercell j S) in H as (y & Ey & t & Lt & E).
  assert (Ec : cells 3 cube_sites fourM fourI = map (shift [0; 0; 0]) [[0; 0; 0]; [0; 1; 0]; [1; 0; 0]; [1; 1; 0]]%Z) by (unfold cells; change (cell_points 3 fourM fourI) with [[0; 0; 0]; [0; 1; 0]; [1; 0; 0]; [1; 1; 0]]%Z; reflexivity).
  rewrite Ec in Ey. destruct (vec3 _ Lt) as (t0 & t1 & t2 & ->). remember (svec 3 fourM [t0; t1; t2]) as w eqn:Ew. unfold svec, fourM in Ew. cbv [zmat combine map fst snd repeat zadd] in Ew.
  assert (K : forall p q r, y = shift [0; 0; 0] [p; q; r] -> (a = p + 2 * t0 /\ b = q + 2 * t1)%Z).
  { intros p q r ->. rewrite Ew in E. cbv [shift qvadd qmap2 map combine fst snd] in E. assert (E0 := f_equal (fun l => nth 0 l 0) E). assert (E1 := f_equal (fun l => nth 1 l 0) E). cbn [nth] in E0, E1.
    rewrite <- Qcplus_assoc, <- Qc_of_Z_add in E0, E1. apply (f_equal (fun z => z - 0)) in E0, E1. assert (A : a = (p + (t0 * 2 + (t1 * 0 + (t2 * 0 + 0))))%Z) by (apply Qc_of_Z_inj; match type of E0 with ?l = ?r => assert (L : qz a = l) by ring; rewrite L, E0; ring end).
    assert (B : b = (q + (t0 * 0 + (t1 * 2 + (t2 * 0 + 0))))%Z) by (apply Qc_of_Z_inj; match type of E1 with ?l = ?r => assert (L : qz b = l) by ring; rewrite L, E1; ring end). lia. }
  assert (MD : forall p q r, y = shift [0; 0; 0] [p; q; r] -> (0 <= p < 2)%Z -> (0 <= q < 2)%Z -> (a mod 2 = p /\ b mod 2 = q)%Z).
  { intros p q r Ep Hp Hq. destruct (K p q r Ep) as [-> ->]. replace (p + 2 * t0)%Z with (p + t0 * 2)%Z by lia. replace (q + 2 * t1)%Z with (q + t1 * 2)%Z by lia. rewrite !Z_mod_plus_full. split; apply Z.mod_small; lia. }
  destruct j as [|[|[|[|j]]]]; [| | | |destruct j; discriminate Ey]; injection Ey as <-.
  - destruct (MD 0 0 0 eq_refl)%Z as [-> ->]; try lia. simpl. auto.
  - destruct (MD 0 1 0 eq_refl)%Z as [-> ->]; try lia. simpl. auto.
  - destruct (MD 1 0 0 eq_refl)%Z as [-> ->]; try lia. simpl. auto.
  - destruct (MD 1 1 0 eq_refl)%Z as [-> ->]; try lia. simpl. auto.
Qed.
Definition both_tables : list (ctable * ctable) := [([[0]; [1]], [[0]; [1]; [2]; [3]]); ([[0; 1]; [1; 0]], [[0; 2]; [1; 3]; [2; 0]; [3; 1]])]%nat.
Lemma both_built : Forall2 (built_in_both 3 tol6 cube_sites both turnM turnI fourM fourI [1%nat] sf_spin) [so_point; so_pair] both_tables.
Proof.
  destruct C89_case as (SP & _ & FP & _). constructor; [|constructor; [|constructor]].
  - exists [0%nat], [[0 + qz 0; 0 + qz 0; 0 + qz 0]]. assert (IS : is_site 3 cube_sites 0 [0 + qz 0; 0 + qz 0; 0 + qz 0]) by (apply lat_site; split; auto; exists 0%Z, 0%Z, 0%Z; auto).
    do 3 eexists. split; [split; [discriminate|split; [constructor; [intros []|constructor]|intros x [<- |[]]; exists 0%nat; auto]]|]. split; [constructor; auto|]. split; [reflexivity|]. split; [vm_compute; reflexivity|].
    split; [vm_compute; reflexivity|]. split; [vm_compute; reflexivity|]. split; [vm_compute; reflexivity|]. split; [reflexivity|]. apply incl_refl.
  - exists [0; 0]%nat, cube_pair. do 3 eexists. split; [exact SP|]. split; [exact FP|]. split; [reflexivity|]. split; [vm_compute; reflexivity|].
    split; [vm_compute; reflexivity|]. split; [vm_compute; reflexivity|]. split; [vm_compute; reflexivity|]. split; [reflexivity|]. apply incl_refl.
Qed.
Example C98_case : crystal 3 tol6 cubeG cube_sites both /\ supercell 3 tol6 cube_sites turnM turnI /\ supercell 3 tol6 cube_sites fourM fourI /\ site_functions 3 cube_sites both sf_spin (fun _ => 2%nat) [1%nat] /\
  Forall2 (built_in_both 3 tol6 cube_sites both turnM turnI fourM fourI [1%nat] sf_spin) [so_point; so_pair] both_tables /\ opt_map orbit_data [so_point; so_pair] = Some (e_orbits spin_eval) /\
  multiple_of 3 turnM fourM /\ occupied 3 cube_sites turnM turnI (fun _ => 2%nat) [0; 1]%nat /\ same_arrangement 3 cube_sites turnM turnI [0; 1]%nat fourM fourI [0; 1; 1; 0]%nat /\
  moved_arrangement 3 cube_sites inversion [1; 0; 0]%Z turnM turnI [0; 1]%nat fourM fourI [1; 0; 0; 1]%nat /\
  option_map (map this) (correlations spin_eval [0; 1]%nat (map fst both_tables)) = Some [1; 0; -(1)]%Q /\ option_map (map this) (correlations spin_eval [1; 0; 0; 1]%nat (map snd both_tables)) = Some [1; 0; -(1)]%Q.
Proof.
  split; [apply cube_crystal|]. split; [apply turn_supercell|]. split; [apply four_supercell|]. split; [apply spin_functions|]. split; [apply both_built|]. split; [vm_compute; reflexivity|].
  split; [intros t Lt; destruct (vec3 _ Lt) as (t0 & t1 & t2 & ->); exists [t0 + t1; t1 - t0; t2]%Z; split; auto; unfold svec, turnM, fourM; cbv [zmat combine map fst snd repeat]; match goal with |- [?x; ?y; ?z] = [?x'; ?y'; ?z'] => replace x with x' by lia; replace y with y' by lia; replace z with z' by lia; reflexivity end|].
  split; [apply C92_case|]. split; [|split; [|split; vm_compute; reflexivity]].
  - intros x j k (i & Hi) Hj Hk. apply lat_site in Hi as (_ & a & b & c & ->). assert (PK := four_parity k a b c Hk).
    apply turn_parity in Hj as [[-> Hj]|[-> Hj]]; cbn [In] in PK; destruct PK as [E|[E|[E|[E|[]]]]]; injection E as E1 E2 E3;
      (assert (Ek := f_equal Z.to_nat E1); rewrite Nat2Z.id in Ek; rewrite <- Ek); try reflexivity; exfalso; Z.div_mod_to_equations; lia.
  - intros x j k (i & Hi) Hj Hk. apply lat_site in Hi as (_ & a & b & c & ->). rewrite op_inv in Hk.
    assert (Ex : shift [- (0 + qz a); - (0 + qz b); - (0 + qz c)] [1; 0; 0]%Z = [0 + qz (1 - a); 0 + qz (- b); 0 + qz (- c)]) by (cbv [shift qvadd qmap2 map combine fst snd]; unfold Z.sub; rewrite Qc_of_Z_add, !Qc_of_Z_opp'; change (qz 0) with 0; apply v3; ring).
    rewrite Ex in Hk. assert (PK := four_parity _ _ _ _ Hk). remember (1 - a)%Z as a' eqn:Ea. remember (- b)%Z as b' eqn:Eb.
    apply turn_parity in Hj as [[-> Hj]|[-> Hj]]; cbn [In] in PK; destruct PK as [E|[E|[E|[E|[]]]]]; injection E as E1 E2 E3;
      (assert (Ek := f_equal Z.to_nat E1); rewrite Nat2Z.id in Ek; rewrite <- Ek); try reflexivity; exfalso; Z.div_mod_to_equations; lia.
Qed.
