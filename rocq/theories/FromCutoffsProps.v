(** C99: subspaces made from cutoffs can be evaluated in every supercell.  See FromCutoffsSpec for the notions used in the statements. *)
From Verif Require Import LibProofs SublatticeProofs EvaluatorProofs EvaluatorProps TensorProofs SubspaceProofs OrbitProps OrbitSearchProofs OrbitGenProps OrbitIndicesProofs OrbitIndicesProps SymmetryProofs SymmetryProps ExpansionProps FromCutoffsProofs RationalizeProps.
From Verif Require Import FromCutoffsSpec.
From Coq Require Import Lia Permutation.
Set Implicit Arguments.
Unset Strict Implicit.
Local Open Scope nat_scope.

Section Main.
Variables (dim : nat) (tol : Qc) (G : list (list Qc)) (sites : list (list Qc)) (ops : list symop).
Hypothesis CR : crystal dim tol G sites ops.
Variables (fb : nat -> list (list Qc)) (ns : nat -> nat) (nbits : list nat).
Hypothesis SF : site_functions dim sites ops fb ns nbits.
Variables (nbrs : Qc -> list (nat * list Qc)) (cutoffs : list (nat * option Qc)).
Hypothesis NBS : forall d i x, In (i, x) (nbrs d) -> is_site dim sites i x.
Hypothesis CD : cutoff_dict cutoffs.

Lemma symmetric_ok : keeps_sites tol ops sites = true.
Proof using CR.
  apply forallb_forall. intros g Hg. apply forallb_forall. intros x Hx. apply In_nth_error in Hx as (i & Hi).
  assert (Sx : site dim sites x) by (exists i, x, (repeat 0%Z dim); split; auto; split; [apply repeat_length|]; symmetry; apply shift_0; apply (cr_dim CR (nth_error_In _ _ Hi))).
  destruct (cr_op CR Hg Sx) as (j & s & t & Hs & Lt & E). apply existsb_exists. exists s. split; [eapply nth_error_In; eauto|]. rewrite E. unfold pbc_close. apply forallb_forall. intros [a b] Hp. cbn [fst snd].
  assert (Ls := cr_dim CR (nth_error_In _ _ Hs)). apply (In_nth _ _ (0%Qc, 0%Qc)) in Hp as (n & Ln & En). rewrite combine_length, length_shift, Nat.min_id in Ln by congruence. rewrite combine_nth in En by (apply length_shift; congruence).
  injection En as <- <-. fold (comp (shift s t) n). fold (comp s n). rewrite comp_shift by congruence. replace (comp s n + Qc_of_Z (nth n t 0%Z) - comp s n)%Qc with (Qc_of_Z (nth n t 0%Z)) by ring.
  destruct (cr_tol CR) as [T _]. rewrite qround_int. unfold Qcminus. rewrite Qcplus_opp_r. destruct (Qcleb_spec (qabs 0) tol) as [|NL]; auto. exfalso. apply NL. replace (qabs 0) with 0%Qc by (apply Qc_is_canon; reflexivity). apply Qclt_le_weak. auto.
Qed.
Lemma all_ok D rest : gen_orbits dim tol ops nbits G nbrs sites cutoffs = (Some D, rest) -> forall o, In o (flat_map snd D) -> orb_ok dim sites o.
Proof using CR NBS CD.
  intros E o Ho. apply in_flat_map in Ho as ([k os] & Hk & Ho). assert (Hg := get_in (gen_keys CD E) Hk). destruct (main_sound CR NBS CD E Hg) as (_ & H & _). auto.
Qed.
Lemma from_gen D rest : gen_orbits dim tol ops nbits G nbrs sites cutoffs = (Some D, rest) ->
  exists items, make_items dim tol ops nbits fb 0 D = Some items /\ from_cutoffs dim tol ops nbits fb G nbrs sites cutoffs = Some (D, new_sub items).
Proof using CR SF NBS CD.
  intros E. assert (OD := all_ok E). destruct (@make_orbits_total dim tol ops nbits fb (flat_map snd D)) with (key := 0) as (l & El).
  { intros o Ho key. apply (make_orbit_total CR SF key (OD o Ho)). }
  assert (F := make_items_flat dim tol ops nbits fb D 0). rewrite El in F. destruct (make_items dim tol ops nbits fb 0 D) as [items|] eqn:Ei; [|discriminate F]. exists items. split; auto.
  unfold from_cutoffs. rewrite E. cbn [fst option_bind]. rewrite Ei. cbn [option_bind]. rewrite symmetric_ok. auto.
Qed.

Variables (M : list (list Z)) (Minv : list (list Qc)).
Hypothesis SU : supercell dim tol sites M Minv.
Notation N := (num_sites dim sites M Minv).
Notation sd := (sd dim M Minv ns).
Notation tables_of := (space_tables dim tol ops sites M Minv).
Lemma from_inv D st : from_cutoffs dim tol ops nbits fb G nbrs sites cutoffs = Some (D, st) ->
  exists rest items, gen_orbits dim tol ops nbits G nbrs sites cutoffs = (Some D, rest) /\ make_items dim tol ops nbits fb 0 D = Some items /\ st = new_sub items.
Proof using.
  unfold from_cutoffs. destruct (gen_orbits dim tol ops nbits G nbrs sites cutoffs) as [[D'|] rest] eqn:E; cbn [fst option_bind]; [|discriminate]. destruct (make_items dim tol ops nbits fb 0 D') as [items|] eqn:Ei; cbn [option_bind]; [|discriminate].
  destruct (keeps_sites tol ops sites); [|discriminate]. intros [= <- <-]. eauto.
Qed.
Lemma new_good D st : from_cutoffs dim tol ops nbits fb G nbrs sites cutoffs = Some (D, st) ->
  exists items, st = new_sub items /\ items_ok items /\ (forall so, In so (sub_orbits st) -> good dim tol sites ops fb nbits D so) /\ map core (sub_orbits st) = map core (orbits_of items) /\
    make_orbits dim tol ops nbits fb 0 (flat_map snd D) = Some (orbits_of items).
Proof using CR SF NBS CD.
  intros E. apply from_inv in E as (rest & items & E & Ei & ->). exists items. split; auto. assert (OD := all_ok E). assert (F := make_items_flat dim tol ops nbits fb D 0). rewrite Ei in F. cbn [option_map] in F.
  assert (K : forall so, In so (orbits_of items) -> good dim tol sites ops fb nbits D so /\ s_combos so <> []).
  { intros so Hs. apply In_nth_error in Hs as (n & Hn). destruct (make_orbits_nth F Hn) as (o & Ho & Em). apply (make_good CR SF OD Ho Em). }
  assert (IO : items_ok items) by (apply items_orbits; intros o Ho; apply (K o Ho)). split; auto. destruct (reset_consistent [] IO) as (_ & C & _). split; [|split; auto].
  intros so Hs. unfold new_sub in *. apply (in_map core) in Hs. rewrite C in Hs. apply in_map_iff in Hs as (so' & Ec & Hs). destruct (K so' Hs) as [[(o & p & cs & H1 & H2 & H3 & H4 & H5 & H6 & H7)] _].
  apply core_fields in Ec as (E1 & E2 & E3 & E4 & _). constructor. exists o, p, cs. rewrite <- E1, <- E2, <- E3, <- E4. repeat (split; auto).
Qed.
Lemma trim_good gen D st0 st : from_cutoffs dim tol ops nbits fb G nbrs sites cutoffs = Some (D, st0) -> trimmed gen st0 st ->
  consistent st /\ forall so, In so (sub_orbits st) -> good dim tol sites ops fb nbits D so.
Proof using CR SF NBS CD.
  intros E T. destruct (new_good E) as (items & -> & IO & GD & _). split.
  - destruct T as (xs & _ & ->). apply (reachable_consistent (gen := gen)). exists items, xs. auto.
  - apply (trimmed_keeps (Q := good dim tol sites ops fb nbits D)) with (3 := T); auto.
    + intros o i b [(o' & p & cs & H)]. constructor. exists o', p, cs. auto.
    + intros o cs' I [(o' & p & cs & H1 & H2 & H3 & H4 & H5 & H6 & H7)]. constructor. exists o', p, cs. unfold with_combos. cbn [s_key s_mult s_basis s_combos]. repeat (split; auto). apply (incl_tran I H7).
Qed.
Lemma good_tables D st : (forall so, In so (sub_orbits st) -> good dim tol sites ops fb nbits D so) -> consistent st ->
  exists tables, tables_of D st = Some tables /\ expansion_ok sd N st tables.
Proof using CR SF SU.
  intros H C. unfold space_tables. set (f := fun so : sorbit => let? o := nth_error (flat_map snd D) (s_key so) in _).
  assert (K : forall so, In so (sub_orbits st) -> f so <> None) by (intros so Hs; destruct (good_parts CR SU SF (H so Hs)) as (dims & rows & _ & _ & _ & _ & _ & E); unfold f; rewrite E; discriminate).
  destruct (@opt_map_all _ _ f (sub_orbits st) K) as (tables & E). exists tables. split; auto. constructor; auto.
  - apply (opt_map_length _ _ E).
  - intros o Ho. destruct (good_parts CR SU SF (H o Ho)) as (dims & rows & _ & _ & _ & _ & Hm & _). auto.
  - intros n o rows Ho Hr. assert (Hin := nth_error_In _ _ Ho). destruct (good_parts CR SU SF (H o Hin)) as (dims & rows' & H1 & H2 & H3 & H4 & _ & E'). exists dims.
    assert (En := opt_map_nth _ _ _ E Ho). destruct En as (r & Ef & Er). unfold f in Ef. rewrite E' in Ef. injection Ef as <-. assert (E2 := eq_trans (eq_sym Hr) Er). injection E2 as ->. auto.
Qed.
End Main.

(** A subspace is made whenever orbits are generated: the functions of every orbit can be listed, and the test of the symmetry operations passes. *)
Theorem C99_made dim tol G sites ops fb nspecies nbits nbrs cutoffs D rest :
  crystal dim tol G sites ops -> site_functions dim sites ops fb nspecies nbits -> (forall d i x, In (i, x) (nbrs d) -> is_site dim sites i x) -> cutoff_dict cutoffs ->
  gen_orbits dim tol ops nbits G nbrs sites cutoffs = (Some D, rest) ->
  exists st, from_cutoffs dim tol ops nbits fb G nbrs sites cutoffs = Some (D, st) /\ length (sub_orbits st) = length (flat_map snd D) /\ consistent st.
Proof.
  intros CR SF NBS CD E. destruct (from_gen CR SF NBS CD E) as (items & _ & EF). exists (new_sub items). split; auto. destruct (new_good CR SF NBS CD EF) as (items' & E' & IO & _ & C & MO).
  rewrite E' in C. rewrite E'. split; [|apply (reset_consistent [] IO)]. apply (f_equal (@length _)) in C. rewrite !map_length in C. rewrite C. clear - MO. revert MO. generalize (orbits_of items'). generalize 0. induction (flat_map snd D) as [|o os IH]; intros key l E; cbn [make_orbits] in E; [injection E as <-; auto|].
  destruct (make_orbit _ _ _ _ _ _ _) as [s|]; cbn [option_bind] in E; [|discriminate]. destruct (make_orbits dim tol ops nbits fb (S key) os) as [r|] eqn:Er; cbn [option_bind] in E; [|discriminate]. injection E as <-. cbn [length]. f_equal. apply (IH _ _ Er).
Qed.
(** In every supercell, and after any removals, both processors evaluate every occupancy, give the same property, and changes are differences. *)
Theorem C99_evaluated dim tol G sites ops fb nspecies nbits nbrs cutoffs D st0 gen st M Minv coefs next size :
  crystal dim tol G sites ops -> site_functions dim sites ops fb nspecies nbits -> (forall d i x, In (i, x) (nbrs d) -> is_site dim sites i x) -> cutoff_dict cutoffs ->
  from_cutoffs dim tol ops nbits fb G nbrs sites cutoffs = Some (D, st0) -> trimmed gen st0 st -> supercell dim tol sites M Minv -> length coefs = sub_ncorr st + next ->
  exists tables P, space_tables dim tol ops sites M Minv D st = Some tables /\ expansion_proc size st tables coefs next = Some P /\
    forall occu, length occu = num_sites dim sites M Minv -> occupied dim sites M Minv nspecies occu ->
    exists f g, ce_features P occu = Some f /\ cd_features P occu = Some g /\ length f = sub_ncorr st /\ length g = sub_norb st /\ ce_property (firstn (sub_ncorr st) coefs) f = cd_property st g /\
      forall flips, allowed dim sites M Minv nspecies (in_cluster P) flips ->
      length (apply_step occu flips) = num_sites dim sites M Minv /\ occupied dim sites M Minv nspecies (apply_step occu flips) /\
      exists f' g', ce_features P (apply_step occu flips) = Some f' /\ cd_features P (apply_step occu flips) = Some g' /\ ce_change P occu flips = Some (qvsub f' f) /\ cd_change P occu flips = Some (qvsub g' g).
Proof.
  intros CR SF NBS CD E T SU HL. destruct (trim_good CR SF NBS CD E T) as [C GD]. destruct (good_tables CR SF SU GD C) as (tables & Et & HE).
  destruct (exp_proc size HE HL) as (P & e & EP & _). exists tables, P. split; auto. split; auto. intros occu LO OC. assert (CO := proj2 (codes_occupied CR SU nspecies occu) (conj LO OC)).
  destruct (C29_property size HE HL CO) as (P' & f & g & EP' & HP & _ & _ & Ef & Eg & Lf & Lg & EQ). rewrite EP in EP'. injection EP' as <-. exists f, g. do 5 (split; auto).
  intros flips HF. apply (flips_allowed CR SU nspecies P flips) in HF. destruct (ce_loop HP CO HF (repeat_length (Q2Qc 0) (e_num_corr (p_eval P)))) as (CO' & _). destruct (proj1 (codes_occupied CR SU nspecies _) CO') as [L1 L2]. split; auto. split; auto.
  destruct (C26_change HP CO HF) as (b & a & Eb & Ea & Ec). destruct (C27_change HP CO HF) as (b2 & a2 & Eb2 & Ea2 & Ec2). rewrite Ef in Eb. injection Eb as <-. rewrite Eg in Eb2. injection Eb2 as <-. exists a, a2. auto.
Qed.
(** Unless point terms are left out, every site of the supercell is in a cluster: all sites can be flipped. *)
Theorem C99_every_site dim tol G sites ops fb nspecies nbits nbrs cutoffs D st M Minv coefs next size tables P :
  crystal dim tol G sites ops -> site_functions dim sites ops fb nspecies nbits -> (forall d i x, In (i, x) (nbrs d) -> is_site dim sites i x) -> cutoff_dict cutoffs -> ~ In (1%nat, None) cutoffs ->
  from_cutoffs dim tol ops nbits fb G nbrs sites cutoffs = Some (D, st) -> supercell dim tol sites M Minv -> 
  space_tables dim tol ops sites M Minv D st = Some tables -> expansion_proc size st tables coefs next = Some P ->
  forall s, s < num_sites dim sites M Minv -> in_cluster P s.
Proof.
  intros CR SF NBS CD N1 E SU Et EP s Ls. destruct (new_good CR SF NBS CD E) as (items & _ & _ & GD & C & MO). destruct (from_inv E) as (rest & items' & Eg & _).
  destruct (gen_main CR NBS CD Eg) as [[_ H]|(L & points & _ & P1 & _ & P3 & MI)]; [contradiction|].
  destruct (site_at CR SU Ls) as (x & Hi & Lx). assert (Sx : site dim sites x) by (eexists; eauto). destruct (P3 x Sx) as (o & Ho & R).
  assert (HoD : In o (flat_map snd D)).
  { assert (G1 := mi_one MI). unfold get_size in G1. destruct (find (fun e => fst e =? 1) D) as [[k os]|] eqn:F; [|discriminate]. cbn [option_map snd] in G1. injection G1 as G1. subst os. apply find_some in F as [F _]. apply in_flat_map. exists (k, points). split; auto. }
  apply In_nth_error in HoD as (n & Hn). destruct (P1 o Ho) as [OK _].
  assert (MT : exists so, nth_error (orbits_of items) n = Some so /\ s_key so = n).
  { assert (K := fun key l => @make_orbits_nth dim tol ops nbits fb (flat_map snd D) key l). destruct (nth_error (orbits_of items) n) as [so|] eqn:En.
    - exists so. split; auto. destruct (K 0 _ _ _ MO En) as (o' & _ & Em). unfold make_orbit in Em. destruct (orbit_parts _ _ _ _); cbn [option_bind] in Em; [|discriminate]. destruct (gen_combos _ _); cbn [option_bind] in Em; [|discriminate]. injection Em as <-. auto.
    - exfalso. apply nth_error_None in En. assert (n < length (flat_map snd D)) by (apply nth_error_Some; congruence). apply (f_equal (@length _)) in C. rewrite !map_length in C.
      destruct (C99_made CR SF NBS CD Eg) as (st' & E' & L' & _). rewrite E in E'. injection E' as <-. rewrite L' in C. lia. }
  destruct MT as (so & Hso & Hk). assert (MS : exists so', In so' (sub_orbits st) /\ s_key so' = n).
  { assert (Hc := in_map core _ _ (nth_error_In _ _ Hso)). rewrite <- C in Hc. apply in_map_iff in Hc as (so' & Ec & Hs'). apply core_fields in Ec as (E1 & _). exists so'. split; auto. congruence. }
  destruct MS as (so' & Hs' & Hk'). destruct (parts_ok CR (oo_proper OK)) as (p & Ep & Q1 & Q2 & Q3 & Q4 & _).
  assert (SC : forall c y, In c (o_clusters p) -> In y (c_coords c) -> site dim sites y) by (intros c y Hc; apply (proper_coords CR (Q1 c Hc))).
  destruct (rows_located CR SU SC) as (rows & Er & LR). destruct (reps_ok CR SU (oo_proper OK) Q1 Q2 Q3 Q4) as [_ RX].
  assert (Hrows : In rows tables).
  { unfold space_tables in Et. apply In_nth_error in Hs' as (m & Hm). destruct (opt_map_nth _ _ _ Et Hm) as (r & Ef & Hr). cbv beta in Ef. rewrite Hk', Hn in Ef. cbn [option_bind] in Ef. rewrite Ep in Ef. cbn [option_bind] in Ef. rewrite Er in Ef. injection Ef as ->. eapply nth_error_In; eauto. }
  assert (So : forall y, In y (c_coords (g_base o)) -> site dim sites y) by (intros y Hy; apply (oo_sites CR OK Hy)).
  assert (R' : related dim ops [x] (c_coords (g_base o))) by (apply (related_sym CR); auto; intros y [<- |[]]; auto).
  destruct (RX [x] R') as (i & Y & HY & (t & Lt & PY) & _). assert (LY : length Y = 1) by (apply Permutation_length in PY; unfold translate in PY; rewrite map_length in PY; auto).
  destruct Y as [|y [|]]; try discriminate LY. cbn [translate map] in PY. apply Permutation_length_1 in PY.
  assert (Li : i < length rows) by (rewrite (Forall2_length LR); apply nth_error_Some; congruence). destruct (nth_error rows i) as [row|] eqn:Erow; [|apply nth_error_None in Erow; lia].
  assert (FL := Forall2_nth _ LR Erow HY).
  assert (Sy : site dim sites y).
  { apply nth_error_In in HY. apply in_map_iff in HY as ([c u] & Ey & Hq). apply in_prod_iff in Hq as [Hc Hu]. cbn [fst snd] in Ey. assert (Hy : In y (translate u (c_coords c))) by (rewrite Ey; left; auto).
    apply in_map_iff in Hy as (z & <- & Hz). apply (site_shift CR (SC c z Hc Hz) (point_len SU Hu)). }
  assert (RJ : exists j, row = [j] /\ located dim sites M Minv j y) by (inversion FL as [|j ? l ? Hj Fl]; inversion Fl; eauto). destruct RJ as (j & -> & Hj).
  exists rows, [j]. split; [|split; [eapply nth_error_In; eauto|]].
  - unfold expansion_proc in EP. destruct (interaction_tensors _ _ _) as [it|]; cbn [option_bind] in EP; [|discriminate]. revert EP. destruct (opt_map orbit_data (sub_orbits st)); cbn [option_bind]; [|discriminate]. intros [= <-]. auto.
  - left. destruct (located_one CR SU Sx) as (j0 & _ & _ & U & _). rewrite (U s Lx). apply U.
    rewrite PY. apply (located_scell CR SU Sy Lt Hj).
Qed.
Print Assumptions C99_made.
Print Assumptions C99_evaluated.
Print Assumptions C99_every_site.

(** *** Case: points and pairs of the simple cubic crystal with spins on its sites; the third function is removed, and a supercell of two cells is used. *)
Unset Implicit Arguments.
Definition fc_cutoffs : list (nat * option Qc) := [(2, Some cube_d)].
Definition fc_space : option (orbit_dict * subspace) := from_cutoffs 3 tol6 both [1] sf_spin cubeG cube_nbrs cube_sites fc_cutoffs.
Definition fc_trim (st : subspace) : subspace := run_op (fun _ _ => []) st (ORemoveCorr [3]).
Definition fc_result (coefs : list Qc) (occu : list nat) (flips : step) : option (list Q * list Q) :=
  let? q := fc_space in let st := fc_trim (snd q) in
  let? tables := space_tables 3 tol6 both cube_sites turnM turnI (fst q) st in
  let? P := expansion_proc 2 st tables coefs 0 in
  let? f := ce_features P occu in let? df := ce_change P occu flips in Some (map this f, map this df).
Example C99_case : crystal 3 tol6 cubeG cube_sites both /\ site_functions 3 cube_sites both sf_spin (fun _ => 2) [1] /\ (forall d i x, In (i, x) (cube_nbrs d) -> is_site 3 cube_sites i x) /\
  cutoff_dict fc_cutoffs /\ ~ In (1, None) fc_cutoffs /\ supercell 3 tol6 cube_sites turnM turnI /\ num_sites 3 cube_sites turnM turnI = 2 /\
  occupied 3 cube_sites turnM turnI (fun _ => 2) [0; 1] /\
  (exists D st, fc_space = Some (D, st) /\ trimmed (fun _ _ => []) st (fc_trim st) /\ map (fun e => (fst e, length (snd e))) (sub_items st) = [(1, 1); (2, 9)] /\ sub_ncorr st = 11 /\ sub_ncorr (fc_trim st) = 10 /\
    allowed 3 cube_sites turnM turnI (fun _ => 2) (fun s => s < 2) [(1, 0)]) /\
  fc_result (repeat 1%Qc 10) [0; 1] [(1, 0)] = Some ([2; 0; -(2); 2; 2; -(2); -(2); 2; -(2); -(2)], [0; -(2); 4; 0; 0; 4; 4; 0; 4; 4])%Q.
Proof.
  split; [apply cube_crystal|]. split; [apply spin_functions|]. split; [apply (sp_sites cube_sphere)|].
  split; [split; [repeat constructor; intros []|intros k c [E|[]]; injection E as <- <-; lia]|]. split; [intros [H|[]]; discriminate|]. split; [apply turn_supercell|]. split; [vm_compute; reflexivity|].
  assert (OC : occupied 3 cube_sites turnM turnI (fun _ => 2) [0; 1]) by (intros x i j Hi Hj; apply lat_site in Hi as (_ & a & b & c & ->); apply turn_parity in Hj as [[-> _]|[-> _]]; eexists; (split; [reflexivity|lia])).
  split; auto. split; [|vm_compute; reflexivity].
  assert (T : option_map (fun q => (map (fun e => (fst e, length (snd e))) (sub_items (snd q)), sub_ncorr (snd q), sub_ncorr (fc_trim (snd q)))) fc_space = Some ([(1, 1); (2, 9)], 11, 10)) by (vm_compute; reflexivity).
  destruct fc_space as [[D st]|]; [|discriminate T]. cbn [option_map snd] in T. injection T as T1 T2 T3. exists D, st. split; auto. split; [exists [ORemoveCorr [3]]; split; [repeat constructor|reflexivity]|]. split; auto. split; auto. split; auto.
  intros s c [E|[]]. injection E as <- <-. split; [lia|].
  destruct (site_at cube_crystal turn_supercell (j := 1)) as (x & Hi & Hj); [vm_compute; lia|]. exists x, (kind 3 turnM turnI 1). auto.
Qed.
