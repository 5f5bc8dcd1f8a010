(** Lemmas for C99. *)
From Verif Require Import LibProofs SublatticeProofs EvaluatorProofs EvaluatorProps TensorProofs SubspaceProofs OrbitProps OrbitSearchProofs OrbitGenProps OrbitIndicesProofs OrbitIndicesProps SymmetryProofs SymmetryProps ExpansionProps FromCutoffsSpec.
From Coq Require Import Lia Permutation.
Set Implicit Arguments.
Unset Strict Implicit.
Local Open Scope nat_scope.

(** ** Sizes are listed once *)
Lemma fold_keys dim tol ops nbits G nbrs cs : forall D0 D, fold_opt (multi_step dim tol ops nbits G nbrs) cs D0 = Some D -> NoDup (map fst D0 ++ map fst cs) -> NoDup (map fst D).
Proof.
  induction cs as [|c cs IH]; intros D0 D E ND; cbn [fold_opt map] in *.
  - injection E as <-. rewrite app_nil_r in ND. auto.
  - destruct (multi_step dim tol ops nbits G nbrs D0 c) as [D1|] eqn:E1; cbn [option_bind] in E; [|discriminate E]. apply (IH D1 D E). clear E IH.
    unfold multi_step in E1. destruct c as [[|k] d]; cbn [fst snd] in *; [discriminate|]. destruct (get_size k D0) as [prev|]; cbn [option_bind] in E1; [|discriminate]. destruct (fold_opt _ prev []) as [new|]; cbn [option_bind] in E1; [|discriminate].
    destruct new as [|n new]; [injection E1 as <-; apply (NoDup_remove_1 _ _ _ ND)|]. destruct (sort_orbits dim tol ops nbits G (n :: new)) as [s|]; cbn [option_bind] in E1; [|discriminate]. injection E1 as <-. rewrite map_app. cbn [map fst]. rewrite <- app_assoc. exact ND.
Qed.
Lemma opt_cuts (l : list (nat * option Qc)) : forall cs, opt_map (fun c => option_map (pair (fst c)) (snd c)) l = Some cs -> map fst cs = map fst l.
Proof.
  induction l as [|[k o] l IH]; intros cs E; cbn [opt_map] in E; [injection E as <-; auto|]. cbn [fst snd] in E. destruct o as [d|]; cbn [option_map option_bind] in E; [|discriminate].
  destruct (opt_map _ l) as [r|]; cbn [option_bind] in E; [|discriminate]. injection E as <-. cbn [map fst]. rewrite (IH r); auto.
Qed.
Lemma rest_keys (l : list (nat * option Qc)) : NoDup (map fst l) -> NoDup (1%nat :: map fst (filter (fun c => negb (is_point c)) l)).
Proof.
  intros D. constructor.
  - intros H. apply in_map_iff in H as (c & E & H). apply filter_In in H as [_ H]. unfold is_point in H. rewrite E in H. discriminate H.
  - induction l as [|c l IH]; simpl in *; [constructor|]. apply NoDup_cons_iff in D as [N D]. destruct (negb (is_point c)); simpl; auto. constructor; auto.
    intros I. apply N. apply in_map_iff in I as (x & <- & I). apply filter_In in I as [I _]. apply in_map. auto.
Qed.
Lemma gen_keys dim tol ops nbits G nbrs sites cutoffs D rest : cutoff_dict cutoffs -> gen_orbits dim tol ops nbits G nbrs sites cutoffs = (Some D, rest) -> NoDup (map fst D).
Proof.
  intros [ND _]. unfold gen_orbits. assert (RK := rest_keys ND). set (rs := filter (fun c => negb (is_point c)) cutoffs) in *.
  assert (GEN : forall points, match rs with [] => Some [(1%nat, points)] | _ => let? cs := opt_map (fun c => option_map (pair (fst c)) (snd c)) rs in gen_multi dim tol ops nbits G nbrs points cs end = Some D -> NoDup (map fst D)).
  { intros points. destruct rs as [|r rs'] eqn:Er; [intros [= <-]; simpl; constructor; auto; constructor|]. rewrite <- Er in *.
    destruct (opt_map (fun c => option_map (pair (fst c)) (snd c)) rs) as [cs|] eqn:Ec; cbn [option_bind]; [|discriminate]. intros E. apply (fold_keys E). cbn [map fst app]. 
    apply (Permutation_NoDup (l := 1%nat :: map fst rs)); auto. constructor. rewrite <- (opt_cuts Ec). apply Permutation_map. apply sort_by_perm. }
  destruct (find is_point cutoffs) as [[k [d|]]|]; intros E; try (injection E as E _; destruct (gen_points dim tol ops nbits G sites) as [points|]; cbn [option_bind] in E; [|discriminate]; apply (GEN points E)).
  injection E as E _. destruct rs; [|discriminate]. injection E as <-. constructor.
Qed.
Lemma get_in (D : orbit_dict) k os : NoDup (map fst D) -> In (k, os) D -> get_size k D = Some os.
Proof.
  induction D as [|[j l] D IH]; intros N H; [destruct H|]. cbn [map fst] in N. apply NoDup_cons_iff in N as [N1 N2]. unfold get_size in *. cbn [find fst]. destruct (Nat.eqb_spec j k) as [->|NE].
  - destruct H as [[= -> ]|H]; auto. exfalso. apply N1. apply in_map_iff. exists (k, os). auto.
  - destruct H as [[= -> ->]|H]; [congruence|]. apply IH; auto.
Qed.

(** ** The orbits of the subspace *)
Section Make.
Variables (dim : nat) (tol : Qc) (ops : list symop) (nbits : list nat) (fb : nat -> list (list Qc)).
Notation make_orbits := (make_orbits dim tol ops nbits fb).
Notation make_items := (make_items dim tol ops nbits fb).
Notation make_orbit := (make_orbit dim tol ops nbits fb).
Lemma make_orbits_app a b : forall key, make_orbits key (a ++ b) = let? x := make_orbits key a in let? y := make_orbits (key + length a) b in Some (x ++ y).
Proof.
  induction a as [|o a IH]; intros key; cbn [app FromCutoffs.make_orbits length]; [rewrite Nat.add_0_r; cbn [option_bind]; destruct (make_orbits key b); auto|].
  destruct (make_orbit key o) as [s|]; cbn [option_bind]; auto. rewrite IH. replace (key + S (length a)) with (S key + length a) by lia.
  destruct (make_orbits (S key) a) as [x|]; cbn [option_bind]; auto. destruct (make_orbits (S key + length a) b); cbn [option_bind]; auto.
Qed.
Lemma make_items_flat D : forall key, make_orbits key (flat_map snd D) = option_map orbits_of (make_items key D).
Proof.
  induction D as [|[k os] D IH]; intros key; auto. cbn [flat_map snd FromCutoffs.make_items]. rewrite make_orbits_app, IH. destruct (make_orbits key os) as [x|]; cbn [option_bind]; auto.
  destruct (make_items (key + length os) D) as [r|]; cbn [option_bind option_map]; auto.
Qed.
Lemma make_orbits_total os : (forall o, In o os -> forall key, exists s, make_orbit key o = Some s) -> forall key, exists l, make_orbits key os = Some l.
Proof.
  induction os as [|o os IH]; intros H key; cbn [FromCutoffs.make_orbits]; eauto. destruct (H o (or_introl eq_refl) key) as (s & ->). destruct (IH (fun x Hx => H x (or_intror Hx)) (S key)) as (l & ->). cbn [option_bind]. eauto.
Qed.
Lemma make_orbits_nth os : forall key l n s, make_orbits key os = Some l -> nth_error l n = Some s -> exists o, nth_error os n = Some o /\ make_orbit (key + n) o = Some s.
Proof.
  induction os as [|o os IH]; intros key l n s E H; cbn [FromCutoffs.make_orbits] in E; [injection E as <-; destruct n; discriminate|].
  destruct (make_orbit key o) as [s0|] eqn:E0; cbn [option_bind] in E; [|discriminate]. destruct (make_orbits (S key) os) as [r|] eqn:Er; cbn [option_bind] in E; [|discriminate]. injection E as <-.
  destruct n as [|n]; cbn [nth_error] in *; [injection H as <-; exists o; rewrite Nat.add_0_r; auto|]. destruct (IH _ _ _ _ Er H) as (o' & Ho & E'). exists o'. replace (key + S n) with (S key + n) by lia. auto.
Qed.
End Make.

(** ** What removals keep *)
Section Keep.
Variable Q : sorbit -> Prop.
Hypothesis Q_ids : forall o i b, Q o -> Q (mkS (s_key o) (s_mult o) (s_basis o) (s_combos o) i b).
Hypothesis Q_combos : forall o cs, incl cs (s_combos o) -> Q o -> Q (with_combos o cs).
Definition all_orbits (items : list (nat * list sorbit)) : Prop := forall o, In o (orbits_of items) -> Q o.
Lemma assign_list_keeps os : forall c, (forall o, In o os -> Q o) -> forall o, In o (fst (assign_list c os)) -> Q o.
Proof.
  induction os as [|a os IH]; intros c H o Ho; cbn [assign_list] in Ho; [destruct Ho|]. destruct c as [[i b] k]. cbn [assign_ids] in Ho.
  specialize (IH (S i, b + s_len a, k + s_mult a) (fun x Hx => H x (or_intror Hx)) o). destruct (assign_list (S i, b + s_len a, k + s_mult a) os) as [r c'']. cbn [fst] in *. destruct Ho as [<- |Ho]; [apply Q_ids, H; left; auto|auto].
Qed.
Lemma reset_keeps items cache : all_orbits items -> forall o, In o (sub_orbits (reset_sub items cache)) -> Q o.
Proof.
  intros H o Ho. unfold sub_orbits, reset_sub in Ho. destruct (assign_items_orbits (1, 1, 1) items) as [E _]. destruct (assign_items (1, 1, 1) items) as [it c]. cbn [fst sub_items] in *. rewrite E in Ho. apply (assign_list_keeps H Ho).
Qed.
Lemma remove_orbits_keeps ids st st' : all_orbits (sub_items st) -> remove_orbits ids st = Some st' -> forall o, In o (sub_orbits st') -> Q o.
Proof.
  intros H. unfold remove_orbits. destruct (length ids =? 0); [discriminate|]. destruct (existsb _ ids); [discriminate|]. destruct (existsb _ ids); [discriminate|]. intros E.
  apply (f_equal (fun x => match x with Some y => y | None => st' end)) in E. subst st'. apply reset_keeps. intros o Ho. rewrite orbits_filter_items in Ho. apply filter_In in Ho as [Ho _]. auto.
Qed.
Lemma drop_at_incl {A} ids (l : list A) : forall n, incl (drop_at ids n l) l.
Proof. induction l as [|x l IH]; intros n y Hy; cbn [drop_at] in Hy; auto. destruct (existsb _ _); [right; apply (IH (S n) y Hy)|]. destruct Hy as [<- |Hy]; [left; auto|right; apply (IH (S n) y Hy)]. Qed.
Lemma strip_keeps ids o r : Q o -> strip_orbit ids o = Some r -> Q (fst r).
Proof.
  intros H. unfold strip_orbit. destruct (corr_in ids o) as [|i inds]; [intros [= <-]; auto|]. unfold remove_combos. destruct (existsb _ _); [discriminate|]. intros E. injection E as <-. cbn [fst]. apply Q_combos; auto. apply drop_at_incl.
Qed.
Lemma strip_list_keeps ids os : forall rs, (forall o, In o os -> Q o) -> opt_map (strip_orbit ids) os = Some rs -> forall o, In o (map fst rs) -> Q o.
Proof.
  intros rs H E o Ho. apply in_map_iff in Ho as (r & <- & Hr). apply (opt_map_in E) in Hr as (o & Ho & Er). apply (strip_keeps (H o Ho) Er).
Qed.
Lemma strip_items_keep ids items : forall sitems, all_orbits items -> strip_items ids items = Some sitems -> all_orbits (map (fun kv => (fst kv, map fst (snd kv))) sitems).
Proof.
  intros sitems H E o Ho. unfold orbits_of in Ho. apply in_flat_map in Ho as (kv & Hkv & Ho). apply in_map_iff in Hkv as (kv' & <- & Hkv). cbn [snd] in Ho.
  apply (opt_map_in E) in Hkv as (kv0 & H0 & E0). destruct (opt_map (strip_orbit ids) (snd kv0)) as [os|] eqn:Eo; cbn [option_bind] in E0; [|discriminate]. injection E0 as <-. cbn [snd] in Ho.
  apply (strip_list_keeps (os := snd kv0) (ids := ids) (rs := os)); auto. intros x Hx. apply H. unfold orbits_of. apply in_flat_map. eauto.
Qed.
Lemma run_keeps gen x st : no_bases x -> (forall o, In o (sub_orbits st) -> Q o) -> forall o, In o (sub_orbits (run_op gen st x)) -> Q o.
Proof.
  intros NB H. destruct x as [ids|ids|f|m]; cbn [run_op].
  - destruct (remove_orbits ids st) as [st'|] eqn:E; auto. apply (remove_orbits_keeps H E).
  - destruct (remove_corr ids st) as [st'|] eqn:E; auto. unfold remove_corr in E. destruct (strip_items ids (sub_items st)) as [sitems|] eqn:Es; cbn [option_bind] in E; [|discriminate]. cbn zeta in E.
    assert (K := strip_items_keep H Es). match type of E with (match ?e with [] => _ | _ => _ end) = _ => destruct e as [|e0 es] end; [injection E as <-; apply (reset_keeps K)|].
    apply (remove_orbits_keeps (st := mkSub (map (fun kv => (fst kv, map fst (snd kv))) sitems) (sub_norb st) (sub_ncorr st) (sub_nclus st) (sub_eval st) (sub_cache st)) K E).
  - destruct NB.
  - unfold orbit_indices. destruct (find _ _) as [[k v]|]; auto.
Qed.
Lemma trimmed_keeps gen st0 st : trimmed gen st0 st -> (forall o, In o (sub_orbits st0) -> Q o) -> forall o, In o (sub_orbits st) -> Q o.
Proof.
  intros (xs & F & ->). revert st0. induction F as [|x xs Hx F IH]; intros st0 H; cbn [fold_left]; auto. apply IH. apply run_keeps; auto.
Qed.
End Keep.

(** ** Kinds of the sites of a supercell *)
Lemma nth_flat_map_map {A B C} (f : A -> B -> C) (l : list A) (m : list B) : forall j y, nth_error (flat_map (fun s => map (f s) m) l) j = Some y ->
  exists s p, nth_error l (j / length m) = Some s /\ In p m /\ y = f s p.
Proof.
  induction l as [|s l IH]; intros j y H; cbn [flat_map] in H; [destruct j; discriminate|]. assert (Lm : length (map (f s) m) = length m) by apply map_length.
  destruct (Nat.lt_ge_cases j (length m)) as [L|L].
  - rewrite nth_error_app1 in H by lia. rewrite Nat.div_small by auto. apply nth_error_In in H. apply in_map_iff in H as (p & <- & Hp). exists s, p. auto.
  - rewrite nth_error_app2 in H by lia. rewrite Lm in H. destruct (IH _ _ H) as (s' & p & H1 & H2 & H3). exists s', p. split; auto.
    assert (N : length m <> 0) by (destruct m; [destruct H2|discriminate]). replace j with (j - length m + 1 * length m) by lia. rewrite Nat.div_add by auto. rewrite Nat.add_1_r. exact H1.
Qed.

Section Supercell.
Variables (dim : nat) (tol : Qc) (G : list (list Qc)) (sites : list (list Qc)) (ops : list symop) (M : list (list Z)) (Minv : list (list Qc)).
Hypothesis CR : crystal dim tol G sites ops.
Hypothesis SU : supercell dim tol sites M Minv.
Notation site := (site dim sites).
Notation is_site := (is_site dim sites).
Notation located := (located dim sites M Minv).
Notation N := (num_sites dim sites M Minv).
Definition kind (j : nat) : nat := j / length (cell_points dim M Minv).
Lemma num_cells : N = length (cells dim sites M Minv).
Proof using CR SU. unfold num_sites. rewrite (coords_cells CR SU), map_length. auto. Qed.
Lemma located_kind i j x : is_site i x -> located j x -> i = kind j /\ j < N.
Proof using CR SU.
  intros Hi Hj. assert (Sx : site x) by (exists i; auto). apply (located_cell CR SU j Sx) in Hj as (y & Ey & t & Lt & E).
  split; [|rewrite num_cells; apply nth_error_Some; congruence]. unfold cells in Ey. apply nth_flat_map_map in Ey as (s & p & Hs & Hp & ->).
  apply (cr_kind CR (x := x)); auto. assert (Lp := point_len SU Hp). assert (Ls := len_svec SU t). exists s, (zadd p (svec dim M t)). split; auto. split; [rewrite length_zadd; congruence|].
  rewrite E. assert (L0 := cr_dim CR (nth_error_In _ _ Hs)). apply vec_ext; [rewrite !length_shift; rewrite ?length_shift; rewrite ?length_zadd; congruence|]. intros m _. rewrite !comp_shift; rewrite ?length_shift; rewrite ?length_zadd; try congruence.
  rewrite nth_zadd by congruence. rewrite Qc_of_Z_add. ring.
Qed.
Lemma site_at j : j < N -> exists x, is_site (kind j) x /\ located j x.
Proof using CR SU.
  intros L. rewrite num_cells in L. destruct (nth_error (cells dim sites M Minv) j) as [y|] eqn:Ey; [|apply nth_error_None in Ey; lia].
  assert (Sy : site y) by (apply (cell_site SU); eapply nth_error_In; eauto). assert (Lj : located j y) by (apply (located_cell CR SU j Sy); exists y; split; auto; apply (scell_refl SU); apply (site_len CR Sy)).
  destruct Sy as (i & Hi). destruct (located_kind Hi Lj) as [-> _]. eauto.
Qed.

Variables (fb : nat -> list (list Qc)) (ns : nat -> nat) (nbits : list nat).
Hypothesis SF : site_functions dim sites ops fb ns nbits.
Definition sd (j : nat) : nat := ns (kind j).
Lemma codes_occupied occu : codes_ok sd N occu <-> length occu = N /\ occupied dim sites M Minv ns occu.
Proof using CR SU.
  split.
  - intros [L H]. split; auto. intros x i j Hi Hj. destruct (located_kind Hi Hj) as [-> Lj]. destruct (nth_error occu j) as [c|] eqn:E; [|apply nth_error_None in E; lia]. exists c. split; auto. apply (H _ _ E).
  - intros [L H]. split; auto. intros s c E. assert (Ls : s < N) by (rewrite <- L; apply nth_error_Some; congruence). destruct (site_at Ls) as (x & Hi & Hj). destruct (H x _ s Hi Hj) as (c' & E' & Hc). rewrite E in E'. injection E' as <-. auto.
Qed.
Lemma flips_allowed P flips : flips_ok sd N P flips <-> allowed dim sites M Minv ns (in_cluster P) flips.
Proof using CR SU.
  split; intros H s c Hs; destruct (H s c Hs) as (H1 & H2).
  - destruct H2 as [H2 H3]. split; auto. destruct (site_at H1) as (x & Hi & Hj). exists x, (kind s). auto.
  - destruct H2 as (x & i & Hi & Hj & Hc). destruct (located_kind Hi Hj) as [-> L]. auto.
Qed.

(** ** Orbits of the crystal *)
Variable D : orbit_dict.
Hypothesis OD : forall o, In o (flat_map snd D) -> orb_ok dim sites o.
Record good (so : sorbit) : Prop := {
  gd : exists o p cs, nth_error (flat_map snd D) (s_key so) = Some o /\ orb_ok dim sites o /\ orbit_parts dim tol ops (g_base o) = Some p /\ gen_combos (g_bits nbits o) (o_perms p) = Some cs /\
    s_basis so = map fb (g_kinds o) /\ s_mult so = length (o_clusters p) /\ incl (s_combos so) cs
}.
Lemma orb_mk o : orb_ok dim sites o -> exists A, site_cluster dim sites A /\ Forall2 is_site (g_kinds o) A /\ mk_orbit dim (g_kinds o) A = Some o.
Proof using CR.
  intros [(A & SA & EA) K]. destruct (C57_normal (sc_points CR SA)) as (c & t & E & Lt & Ec & _). rewrite EA in E. injection E as <-. exists A. split; auto.
  assert (KA : Forall2 is_site (g_kinds o) A).
  { rewrite Ec in K. assert (SS : forall x, In x A -> site x) by apply SA. clear - K CR Lt SS. revert SS K. generalize (g_kinds o). induction A as [|x A IH]; intros ks SS K; cbn [translate map] in K.
    - apply Forall2_length in K. destruct ks; [constructor|discriminate K].
    - destruct ks as [|k ks]; [apply Forall2_length in K; discriminate K|]. assert (HF : is_site k (shift x t) /\ Forall2 is_site ks (translate t A)) by (inversion K; auto). destruct HF as [H F]. constructor.
      + apply (unshift CR Lt (SS x (or_introl eq_refl)) H).
      + apply IH; auto. intros y Hy. apply SS. right. auto. }
  split; auto. unfold mk_orbit. rewrite (Forall2_length KA), Nat.eqb_refl, EA. cbn [option_bind]. destruct o; auto.
Qed.
Lemma sym_ok o p : orb_ok dim sites o -> orbit_parts dim tol ops (g_base o) = Some p -> sym_bits (g_bits nbits o) (o_perms p).
Proof using CR SF.
  intros OK Ep. destruct (orb_mk OK) as (A & SA & FK & Eo). apply (C89_functions CR SA FK) with (3 := Ep); auto.
  intros g x i j Hg Hi Hj. destruct (sf_rows SF (kind_lt Hi)) as [<- _]. destruct (sf_rows SF (kind_lt Hj)) as [<- _]. rewrite (sf_sym SF Hg Hi Hj). auto.
Qed.
Lemma make_orbit_total o key : orb_ok dim sites o -> exists s, make_orbit dim tol ops nbits fb key o = Some s.
Proof using CR SF.
  intros OK. unfold make_orbit. destruct (parts_ok CR (oo_proper OK)) as (p & Ep & _ & _ & _ & _ & _ & _ & _ & PG). rewrite Ep. cbn [option_bind].
  assert (LB : length (g_bits nbits o) = length (c_coords (g_base o))) by (unfold g_bits; rewrite map_length; apply (Forall2_length (oo_kinds OK))).
  destruct (C35_partition PG (sym_ok OK Ep) LB) as (cs & -> & _). cbn [option_bind]. eauto.
Qed.
Lemma make_good o key s : nth_error (flat_map snd D) key = Some o -> make_orbit dim tol ops nbits fb key o = Some s -> good s /\ s_combos s <> [].
Proof using CR SF OD.
  intros Ho E. assert (OK := OD (nth_error_In _ _ Ho)). unfold make_orbit in E. destruct (orbit_parts dim tol ops (g_base o)) as [p|] eqn:Ep; cbn [option_bind] in E; [|discriminate].
  destruct (gen_combos (g_bits nbits o) (o_perms p)) as [cs|] eqn:Ec; cbn [option_bind] in E; [|discriminate]. injection E as <-. split.
  - constructor. exists o, p, cs. cbn [s_key s_basis s_mult s_combos]. repeat (split; auto). apply incl_refl.
  - cbn [s_combos]. intros ->. destruct (parts_ok CR (oo_proper OK)) as (p' & Ep' & _ & _ & _ & _ & _ & _ & _ & PG). rewrite Ep in Ep'. injection Ep' as <-.
    assert (KB := oo_kinds OK). assert (LB : length (g_bits nbits o) = length (c_coords (g_base o))) by (unfold g_bits; rewrite map_length; apply (Forall2_length KB)).
    destruct (C35_partition PG (sym_ok OK Ep) LB) as (cs & E & _ & INC & _). rewrite Ec in E. injection E as <-. simpl in INC.
    assert (Z0 : In (repeat 0 (length (g_kinds o))) (cart (g_bits nbits o))); [|apply INC in Z0; auto]. apply cart_in. unfold g_bits. clear - KB SF. induction KB as [|k x ks A H F IH]; cbn [map length repeat]; constructor; auto.
    apply in_seq. destruct (sf_rows SF (kind_lt H)). lia.
Qed.
Lemma good_parts so : good so -> exists dims rows, dims <> [] /\ sorbit_ok dims so /\ rows <> [] /\ rows_ok sd N dims rows /\ 0 < s_mult so /\
  (let? o := nth_error (flat_map snd D) (s_key so) in let? p := orbit_parts dim tol ops (g_base o) in index_rows dim tol sites M Minv (o_clusters p)) = Some rows.
Proof using CR SU SF.
  intros [(o & p & cs & Ho & OK & Ep & Ec & Eb & Em & IC)]. rewrite Ho. cbn [option_bind]. rewrite Ep. cbn [option_bind].
  assert (SB := sym_ok OK Ep). assert (PB := oo_proper OK). assert (KB := oo_kinds OK).
  destruct (parts_ok CR PB) as (p' & Ep' & P1 & P2 & P3 & P4 & _ & _ & P7 & PG). rewrite Ep in Ep'. injection Ep' as <-.
  assert (LK := Forall2_length KB).
  assert (LB : length (g_bits nbits o) = length (c_coords (g_base o))) by (unfold g_bits; rewrite map_length; auto).
  destruct (C35_partition PG SB LB) as (cs' & Ec' & ND & INC & NE & GR). rewrite Ec in Ec'. injection Ec' as <-.
  set (ks := g_kinds o) in *.
  assert (KL : forall k, In k ks -> (k < length sites)%nat) by (intros k Hk; clear - KB Hk; induction KB as [|k' x ks A H F IH]; [destruct Hk|destruct Hk as [<- |Hk]; [apply (kind_lt H)|auto]]).
  assert (SO : sorbit_ok (map ns ks) so).
  { constructor.
    - unfold basis_shape. rewrite Eb. clear - SF. induction ks as [|k l IH]; cbn [map]; constructor; auto. intros r Hr. apply (sf_cols SF Hr).
    - intros X HX. rewrite Eb in HX. apply in_map_iff in HX as (k & <- & Hk). destruct (sf_rows SF (KL k Hk)) as [L Pk]. intros En. rewrite En in L. simpl in L. lia.
    - intros c a Hc Ha. assert (Hx : In a (cart (g_bits nbits o))) by (apply INC; apply in_concat; exists c; auto). apply cart_in in Hx. rewrite Eb. unfold g_bits in Hx. fold ks in Hx. clear - Hx KL SF. 
      revert a Hx. induction ks as [|k l IH]; intros a Hx; inversion Hx as [|x ? a' ? H1 H2]; subst; cbn [map]; constructor; [|apply IH; auto; intros; apply KL; right; auto].
      apply in_seq in H1. destruct (sf_rows SF (KL k (or_introl eq_refl))) as [-> _]. lia.
    - intros c Hc. apply NE. auto. }
  assert (Hd : map ns ks <> []).
  { intros En. apply map_eq_nil in En. rewrite En in LK. assert (SC := oo_cluster CR OK). destruct SC as [SC _]. destruct (c_coords (g_base o)); [congruence|discriminate LK]. }
  assert (CN : o_clusters p <> []) by (intros E; destruct (cr_id CR) as (g & Hg & _); destruct (P4 g Hg) as (c & Hc & _); rewrite E in Hc; destruct Hc).
  assert (SC : forall c x, In c (o_clusters p) -> In x (c_coords c) -> site x) by (intros c x Hc; apply (proper_coords CR (P1 c Hc))).
  destruct (rows_located CR SU SC) as (rows & Er & LR). set (Xs := map (fun q => translate (snd q) (c_coords (fst q))) (list_prod (o_clusters p) (cell_points dim M Minv))) in *.
  exists (map ns ks), rows. split; auto. split; auto. split; [|split; [|split; [rewrite Em; destruct (o_clusters p); [congruence|simpl; lia]|exact Er]]].
  - intros E. rewrite E in LR. apply Forall2_length in LR. unfold Xs in LR. rewrite map_length, prod_length in LR. assert (PN := points_ne CR SU). destruct (o_clusters p); [congruence|]. destruct (cell_points dim M Minv); [congruence|]. discriminate LR.
  - intros row Hr. destruct (Forall2_row LR Hr) as (X & HX & FL). unfold Xs in HX. apply in_map_iff in HX as ([c u] & <- & Hq). apply in_prod_iff in Hq as [Hc Hu]. cbn [fst snd] in FL.
    assert (OX := ordered_translate CR PB (point_len SU Hu) (ordered_clusters CR PB Ep Hc)). destruct OX as (g & t & Hg & Lt & EX). rewrite EX in FL.
    assert (K : forall k i x, is_site k x -> is_site i (shift (operate g x) t) -> ns k = ns i) by (intros k i x H1 H2; apply (same_kind CR SF Hg Lt H1 H2)).
    assert (K2 : forall x, site x -> site (shift (operate g x) t)) by (intros x Hx; apply (site_shift CR); auto; apply (cr_op CR Hg Hx)).
    clear - K K2 KB FL CR SU. revert row FL. induction KB as [|k x ks A Hk F IH]; intros row FL; inversion FL as [|s ? row' ? Hs FL']; subst; cbn [map]; [split; auto; intros s []|].
    destruct (IH row' FL') as [I1 I2]. assert (Sx : site x) by (exists k; auto). destruct (K2 x Sx) as (i & Hi). destruct (located_kind Hi Hs) as [Ei Ls]. split.
    + rewrite I1. f_equal. unfold sd. rewrite <- Ei. symmetry. apply (K k i x Hk Hi).
    + intros s' [<- |Hs']; auto.
Qed.
End Supercell.
