(** C92: symmetrically equivalent occupancies have the same correlations.  See SymmetrySpec for the notions used in the statements. *)
From Verif Require Import LibProofs SublatticeProofs EvaluatorProofs EvaluatorProps TensorProofs OrbitProps OrbitSearchProofs OrbitGenProps OrbitIndicesProofs OrbitIndicesProps SymmetryProofs.
From Coq Require Import Lia Permutation.
Set Implicit Arguments.
Unset Strict Implicit.
Local Open Scope Qc_scope.

Lemma opt_map_ext_in {A B} (f g : A -> option B) l : (forall x, In x l -> f x = g x) -> opt_map f l = opt_map g l.
Proof. induction l as [|x l IH]; intros H; auto. cbn [opt_map]. rewrite (H x) by (left; auto). rewrite IH; auto. intros; apply H; right; auto. Qed.
Lemma Forall2_row {A B} (R : A -> B -> Prop) l m x : Forall2 R l m -> In x l -> exists y, In y m /\ R x y.
Proof. induction 1 as [|a b l m H F IH]; [intros []|]. intros [<- |Hx]; [exists b; split; auto; left; auto|]. destruct (IH Hx) as (y & Hy & ?). exists y. split; auto. right. auto. Qed.
Lemma Forall2_get {A B} (R : A -> B -> Prop) l m d e i : Forall2 R l m -> (i < length m)%nat -> R (nth i l d) (nth i m e).
Proof. intros F. revert i. induction F as [|a b l m H F IH]; intros [|i] L; simpl in *; try lia; auto. apply IH. lia. Qed.

Lemma opt_map_in {A B} (f : A -> option B) l ys y : opt_map f l = Some ys -> In y ys -> exists x, In x l /\ f x = Some y.
Proof.
  revert ys. induction l as [|a l IH]; intros ys E Hy; cbn [opt_map] in E; [injection E as <-; destruct Hy|]. destruct (f a) as [b|] eqn:Ea; cbn [option_bind] in E; [|discriminate E].
  destruct (opt_map f l) as [bs|]; cbn [option_bind] in E; [|discriminate E]. injection E as <-. destruct Hy as [<- |Hy]; [exists a; split; auto; left; auto|].
  destruct (IH bs eq_refl Hy) as (x & Hx & ?). exists x. split; auto. right. auto.
Qed.

Section Invariance.
Variables (dim : nat) (tol : Qc) (G : list (list Qc)) (sites : list (list Qc)) (ops : list symop) (M : list (list Z)) (Minv : list (list Qc)).
Hypothesis CR : crystal dim tol G sites ops.
Hypothesis SU : supercell dim tol sites M Minv.
Notation site := (site dim sites).
Notation is_site := (is_site dim sites).
Notation located := (located dim sites M Minv).
Variables (fb : nat -> list (list Qc)) (ns : nat -> nat) (nbits : list nat).
Hypothesis SF : site_functions dim sites ops fb ns nbits.

Lemma kind_lt i x : is_site i x -> (i < length sites)%nat.
Proof using. intros (s & t & E & _). apply nth_error_Some. congruence. Qed.
Lemma fb_ne i x : is_site i x -> fb i <> [].
Proof using SF. intros H E. destruct (sf_rows SF (kind_lt H)) as [L P]. rewrite E in L. simpl in L. rewrite <- L in P. inversion P. Qed.
Lemma unshift i x t : length t = dim -> site x -> is_site i (shift x t) -> is_site i x.
Proof using CR. intros Lt Sx H. rewrite <- (@shift_back x t) by (rewrite Lt; apply (site_len CR Sx)). apply (is_site_shift CR H). rewrite length_zneg. auto. Qed.
Lemma same_kind g t i j x : In g ops -> length t = dim -> is_site i x -> is_site j (shift (operate g x) t) -> fb i = fb j /\ ns i = ns j.
Proof using CR SF.
  intros Hg Lt Hi Hj. assert (Sx : site x) by (exists i; auto). assert (Hj' := unshift Lt (cr_op CR Hg Sx) Hj). assert (E := sf_sym SF Hg Hi Hj'). split; auto.
  assert (N := fb_ne Hi). destruct (fb i) as [|r l] eqn:El; [congruence|]. rewrite <- (@sf_cols _ _ _ _ _ _ SF i r) by (rewrite El; left; auto). apply (sf_cols SF). rewrite <- E. left. auto.
Qed.
Lemma preimage h tau y : In h ops -> length tau = dim -> site y -> exists x, site x /\ shift (operate h x) tau = y.
Proof using CR.
  intros Hh Lt Sy. destruct (cr_inv CR Hh) as (h' & Hh' & I).
  assert (I' : same_op dim sites (fun x => operate h (operate h' x)) (fun x => x)).
  { assert (OH := on_op CR Hh). assert (OH' := on_op CR Hh'). apply (same_cancel CR Hh'); [intros x Hx; auto|intros x Hx; auto|]. apply (same_right (f := fun x => operate h' (operate h x)) (h := fun x => x) OH' I). }
  destruct I' as (w & Lw & E). assert (Lz : length (zneg (zadd w tau)) = dim) by (rewrite length_zneg, length_zadd; congruence).
  set (y' := shift y (zneg (zadd w tau))). assert (Sy' : site y') by (apply (site_shift CR Sy Lz)). exists (operate h' y'). split; [apply (cr_op CR Hh' Sy')|].
  rewrite (E y' Sy'). unfold y'. assert (Ly := site_len CR Sy). rewrite shift_shift; [|rewrite length_shift; congruence|congruence]. 
  apply vec_ext; [rewrite !length_shift; rewrite ?length_shift; rewrite ?length_zadd; congruence|]. intros j _.
  rewrite !comp_shift; rewrite ?length_shift; rewrite ?length_zadd; try congruence. rewrite nth_zneg, Qc_of_Z_opp'. ring.
Qed.
(** A moved occupancy is an occupancy. *)
Lemma carried_occupied h tau occu occu' : In h ops -> length tau = dim -> occupied dim sites M Minv ns occu -> carried dim sites M Minv h tau occu occu' -> occupied dim sites M Minv ns occu'.
Proof using CR SU SF.
  intros Hh Lt OC CA y i k Hi Hk. assert (Sy : site y) by (exists i; auto). destruct (preimage Hh Lt Sy) as (x & Sx & Ex).
  destruct (located_one CR SU Sx) as (j & Lj & _). assert (EC := CA x j k Sx Lj). rewrite Ex in EC. rewrite (EC Hk). destruct Sx as (i' & Hi'). destruct (OC x i' j Hi' Lj) as (c & Hc & Hlt). exists c. split; auto.
  assert (Hi2 := Hi). rewrite <- Ex in Hi2. destruct (same_kind Hh Lt Hi' Hi2) as [_ <-]. auto.
Qed.
Variables (ks : list nat) (b : cluster).
Hypothesis PB : proper dim sites b.
Hypothesis KB : Forall2 is_site ks (c_coords b).
Notation dims := (map ns ks).
Lemma row_codes occu row X : occupied dim sites M Minv ns occu -> ordered dim ops (c_coords b) X -> Forall2 located row X ->
  codes_below dims (codes occu row) /\ Forall2 (fun s c => nth_error occu s = Some c) row (codes occu row).
Proof using CR SU SF KB.
  intros OC (g & t & Hg & Lt & ->) FL.
  assert (K : forall k i x, is_site k x -> is_site i (shift (operate g x) t) -> ns k = ns i) by (intros k i x H1 H2; apply (same_kind Hg Lt H1 H2)).
  assert (K2 : forall x, site x -> site (shift (operate g x) t)) by (intros x Hx; apply (site_shift CR); auto; apply (cr_op CR Hg Hx)).
  unfold codes, codes_below. clear PB Lt Hg. revert row FL. induction KB as [|k x ks' A Hk F IH]; intros row FL; inversion FL as [|s ? row' ? Hs FL']; subst; cbn [map]; [split; constructor|].
  destruct (IH F row' FL') as [I1 I2]. assert (Sx : site x) by (exists k; auto). destruct (K2 x Sx) as (i & Hi).
  destruct (OC _ i s Hi Hs) as (c & Hc & Hlt). rewrite (nth_error_nth _ _ _ Hc). split; constructor; auto. rewrite (K k i x Hk Hi). auto.
Qed.
End Invariance.

(** ** The value of a correlation function on codes, and the writes of an orbit *)
Definition phi (so : sorbit) (k : nat) (codes : list nat) : Qc :=
  qsum (map (fun bits => bprod (s_basis so) bits codes) (nth k (s_combos so) [])) / Qc_of_nat (length (nth k (s_combos so) [])).
Lemma writes_value so od dims occu rows : dims <> [] -> sorbit_ok dims so -> orbit_data so = Some od ->
  (forall row, In row rows -> codes_below dims (codes occu row) /\ Forall2 (fun s c => nth_error occu s = Some c) row (codes occu row)) ->
  corr_writes occu od rows = opt_map (fun k => let? m := mean_over (length rows) (qsum (map (fun row => phi so k (codes occu row)) rows)) in Some ((s_bit so + k)%nat, m)) (seq 0 (s_len so)).
Proof.
  intros Hd SO E HR. unfold orbit_data in E. destruct (tensors_ok SO) as (ts & Et & Lt & Ed & Ll & Hv). rewrite Et, Ed in E. cbn [option_bind] in E. injection E as <-.
  unfold corr_writes. cbn [o_tensors o_strides o_bit o_rows]. unfold o_rows. cbn [o_tensors]. rewrite Lt.
  apply opt_map_ext_in. intros k Hk. apply in_seq in Hk. assert (Kk : (k < length ts)%nat) by lia.
  assert (Ec : o_cols (mkOrbit (s_id so) (s_bit so) ts (flat_tensor_indices dims)) = nprod dims) by (apply cols_eq; auto; unfold o_rows; cbn [o_tensors]; lia). rewrite Ec.
  assert (CS : cluster_sum (concat ts) (k * nprod dims) (flat_tensor_indices dims) occu rows = Some (qsum (map (fun row => phi so k (codes occu row)) rows))).
  { unfold cluster_sum. erewrite opt_map_ext_in with (g := fun row => Some (phi so k (codes occu row))); [rewrite opt_map_map with (g := fun row => phi so k (codes occu row)); auto|].
    intros row Hr. destruct (HR row Hr) as [H1 H2]. rewrite (@C34_loop dims occu row (codes occu row) Hd); auto; [|unfold codes_below in H1; apply Forall2_length in H1, H2; congruence]. cbn [option_bind].
    rewrite flat_tensor_indices_eq by auto. assert (Hi := index_lt H1).
    assert (HL : (k * nprod dims + index_of_codes (strides_of dims) (codes occu row) < length (concat ts))%nat).
    { assert (CL := @concat_length (mkOrbit 0 0 ts []) (nprod dims) Ll). cbn [o_tensors] in CL. unfold o_rows in CL. cbn [o_tensors] in CL. rewrite CL. nia. }
    rewrite (nth_error_nth' (concat ts) 0 HL). f_equal. rewrite (nth_concat_block Ll Hi Kk). unfold phi.
    assert (Kc : (k < length (s_combos so))%nat) by (unfold s_len in *; lia). apply (Hv k); auto; apply nth_error_nth'; auto. }
  rewrite CS. cbn [option_bind]. auto.
Qed.

Section Orbits.
Variables (dim : nat) (tol : Qc) (G : list (list Qc)) (sites : list (list Qc)) (ops : list symop) (M : list (list Z)) (Minv : list (list Qc)).
Hypothesis CR : crystal dim tol G sites ops.
Hypothesis SU : supercell dim tol sites M Minv.
Notation site := (site dim sites).
Notation is_site := (is_site dim sites).
Notation located := (located dim sites M Minv).
Variables (fb : nat -> list (list Qc)) (ns : nat -> nat) (nbits : list nat).
Hypothesis SF : site_functions dim sites ops fb ns nbits.

Lemma points_ne : cell_points dim M Minv <> [].
Proof using CR SU.
  destruct (point_rep SU (v := repeat 0%Z dim) (repeat_length _ _)) as (q & _ & Hq & _). intros E. rewrite E in Hq. destruct Hq.
Qed.

Lemma orbit_carried so rows od h tau occu occu' : built dim tol sites ops M Minv nbits fb so rows -> orbit_data so = Some od -> In h ops -> length tau = dim -> keeps_supercell dim sites M h ->
  occupied dim sites M Minv ns occu -> carried dim sites M Minv h tau occu occu' -> corr_writes occu' od rows = corr_writes occu od rows /\ corr_writes occu od rows <> None.
Proof using CR SU SF.
  intros (ks & A & o & p & cs & SA & FK & Eo & Ep & Er & Ec & Eb & IC) Ed Hh Lt KS OC CA.
  destruct (mk_orbit_ok CR SA FK) as (o' & t & E' & OK & Lt' & Eco & Ek). rewrite Eo in E'. injection E' as <-.
  assert (SB : sym_bits (g_bits nbits o) (o_perms p)).
  { apply (C89_functions CR SA FK) with (3 := Ep); auto. intros g x i j Hg Hi Hj. destruct (sf_rows SF (kind_lt Hi)) as [<- _]. destruct (sf_rows SF (kind_lt Hj)) as [<- _]. rewrite (sf_sym SF Hg Hi Hj). auto. }
  assert (PB := oo_proper OK). assert (KB := oo_kinds OK). rewrite Ek in KB.
  destruct (parts_ok CR PB) as (p' & Ep' & P1 & P2 & P3 & P4 & _ & _ & P7 & PG). rewrite Ep in Ep'. injection Ep' as <-.
  assert (LK := Forall2_length KB).
  assert (LB : length (g_bits nbits o) = length (c_coords (g_base o))) by (unfold g_bits; rewrite map_length, Ek; auto).
  destruct (C35_partition PG SB LB) as (cs' & Ec' & ND & INC & NE & GR). rewrite Ec in Ec'. injection Ec' as <-.
  assert (KL : forall k, In k ks -> (k < length sites)%nat) by (intros k Hk; clear - KB Hk; induction KB as [|k' x ks A H F IH]; [destruct Hk|destruct Hk as [<- |Hk]; [apply (kind_lt H)|auto]]).
  assert (BI : forall c a, In c cs -> In a c -> bits_in (s_basis so) a).
  { intros c a Hc Ha. assert (Hx : In a (cart (g_bits nbits o))) by (apply INC; apply in_concat; eauto). apply cart_in in Hx. rewrite Eb. unfold g_bits in Hx. rewrite Ek in Hx. clear - Hx KL SF. 
    revert a Hx. induction ks as [|k l IH]; intros a Hx; inversion Hx as [|x ? a' ? H1 H2]; subst; cbn [map]; constructor; [|apply IH; auto; intros; apply KL; right; auto].
    apply in_seq in H1. destruct (sf_rows SF (KL k (or_introl eq_refl))) as [-> _]. lia. }
  assert (SO : sorbit_ok (map ns ks) so).
  { constructor.
    - unfold basis_shape. rewrite Eb. clear - SF. induction ks as [|k l IH]; cbn [map]; constructor; auto. intros r Hr. apply (sf_cols SF Hr).
    - intros X HX. rewrite Eb in HX. apply in_map_iff in HX as (k & <- & Hk). destruct (sf_rows SF (KL k Hk)) as [L P]. intros En. rewrite En in L. simpl in L. lia.
    - intros c a Hc Ha. apply (BI c); auto.
    - intros c Hc. apply NE. auto. }
  assert (Hd : map ns ks <> []).
  { intros En. apply map_eq_nil in En. apply Forall2_length in FK. rewrite En in FK. destruct SA as [SA _]. destruct A; [congruence|discriminate FK]. }
  assert (SC : forall c x, In c (o_clusters p) -> In x (c_coords c) -> site x) by (intros c x Hc; apply (proper_coords CR (P1 c Hc))).
  destruct (rows_located CR SU SC) as (rows' & Er' & LR). rewrite Er in Er'. injection Er' as <-.
  assert (RX := reps_ok CR SU PB P1 P2 P3 P4). set (Xs := map (fun q => translate (snd q) (c_coords (fst q))) (list_prod (o_clusters p) (cell_points dim M Minv))) in *.
  assert (OX : forall X, In X Xs -> ordered dim ops (c_coords (g_base o)) X).
  { intros X HX. unfold Xs in HX. apply in_map_iff in HX as ([c u] & <- & Hq). apply in_prod_iff in Hq as [Hc Hu]. cbn [fst snd]. apply (ordered_translate CR PB); [apply (point_len SU Hu)|]. apply (ordered_clusters CR PB Ep Hc). }
  assert (RC : forall oc, occupied dim sites M Minv ns oc -> forall row, In row rows -> codes_below (map ns ks) (codes oc row) /\ Forall2 (fun s c => nth_error oc s = Some c) row (codes oc row)).
  { intros oc Hoc row Hr. destruct (Forall2_row LR Hr) as (X & HX & FL). apply (row_codes CR SU SF KB Hoc (OX X HX) FL). }
  assert (OC' := carried_occupied CR SU SF Hh Lt OC CA).
  rewrite (writes_value Hd SO Ed (RC occu OC)), (writes_value Hd SO Ed (RC occu' OC')). split.
  - apply opt_map_ext_in. intros k Hk. apply in_seq in Hk. f_equal. f_equal.
    apply (@carry_sum dim tol G sites ops M Minv CR SU (g_base o) p PB Ep h tau Hh Lt KS Xs OX RX occu occu' rows LR CA (phi so k)).
    intros i q Hi Hq. set (row := nth i rows []). assert (Hr : In row rows) by (apply nth_In; rewrite (Forall2_length LR); auto). destruct (RC occu OC row Hr) as [H1 _].
    unfold phi. f_equal. set (c := nth k (s_combos so) []). assert (Hc : In c cs) by (apply IC, nth_In; unfold s_len in Hk; lia).
    assert (LQ : length (s_basis so) = length (c_coords (g_base o))) by (rewrite Eb, map_length; auto).
    assert (PQ : is_perm (length (c_coords (g_base o))) q) by (apply PG; auto).
    apply group_sum.
    + rewrite LQ. auto.
    + intros a Ha. apply (BI c); auto.
    + clear - ND Hc. induction cs as [|x l IH]; [destruct Hc|]. cbn [concat] in ND. destruct Hc as [-> |Hc]; [apply NoDup_app_remove_r in ND; auto|apply NoDup_app_remove_l in ND; auto].
    + intros a Ha. apply (GR c a); auto. exists q. split; auto. apply (@permute_act (length (c_coords (g_base o)))); [|apply PQ]. rewrite <- LQ. symmetry. apply (Forall2_length (BI c a Hc Ha)).
    + unfold codes_below in H1. rewrite LQ, <- LK. rewrite <- (Forall2_length H1), map_length. auto.
    + intros i' j Hij. apply P7 in Hq as (g & Hg & Pp & u & Lu & H).
      assert (Li : (i' < length (c_coords (g_base o)))%nat) by (rewrite <- (proj1 Pp); apply nth_error_Some; congruence).
      assert (Lj : (j < length (c_coords (g_base o)))%nat) by (apply Pp; eapply nth_error_In; eauto).
      specialize (H i' Li). rewrite (nth_error_nth _ _ _ Hij) in H.
      assert (Ki := @Forall2_get _ _ _ _ _ 0%nat [] i' KB Li). assert (Kj := @Forall2_get _ _ _ _ _ 0%nat [] j KB Lj). rewrite H in Ki. destruct (same_kind CR SF Hg Lu Kj Ki) as [E _].
      rewrite Eb. rewrite !nth_error_map. rewrite (nth_error_nth' ks 0%nat) by (rewrite LK; auto). rewrite (nth_error_nth' ks 0%nat) by (rewrite LK; auto). cbn [option_map]. rewrite E. auto.
  - assert (RN : length rows <> 0%nat).
    { rewrite (Forall2_length LR). unfold Xs. rewrite map_length, prod_length. destruct (cr_id CR) as (g & Hg & _). destruct (P4 g Hg) as (c & Hc & _). assert (PN := points_ne).
      destruct (o_clusters p); [destruct Hc|]. destruct (cell_points dim M Minv); [congruence|]. simpl. lia. }
    intros N. destruct (@opt_map_all _ _ (fun k => let? m := mean_over (length rows) (qsum (map (fun row => phi so k (codes occu row)) rows)) in Some ((s_bit so + k)%nat, m)) (seq 0 (s_len so))) as (ys & E); [|congruence].
    intros k _. unfold mean_over. destruct (Nat.eqb_spec (length rows) 0); [congruence|]. discriminate.
Qed.
End Orbits.

Lemma write_all_total out ws : (forall w, In w ws -> (fst w < length out)%nat) -> exists r, write_all out ws = Some r.
Proof.
  revert out. induction ws as [|[i x] ws IH]; intros out H; cbn [write_all]; eauto. destruct (Nat.ltb_spec i (length out)) as [L|L]; [|exfalso; specialize (H (i, x) (or_introl eq_refl)); simpl in H; lia].
  apply IH. intros w Hw. rewrite length_upd. apply H. right. auto.
Qed.
(** Moving an occupancy by an operation that keeps the supercell, and by any lattice vector, changes no correlation. *)
Theorem C92_invariant dim tol G sites ops M Minv fb nspecies nbits sos tables ev h tau occu occu' :
  crystal dim tol G sites ops -> supercell dim tol sites M Minv -> site_functions dim sites ops fb nspecies nbits ->
  Forall2 (built dim tol sites ops M Minv nbits fb) sos tables -> opt_map orbit_data sos = Some (e_orbits ev) ->
  (0 < e_num_corr ev)%nat -> (forall o, In o (e_orbits ev) -> (o_bit o + o_rows o <= e_num_corr ev)%nat) ->
  In h ops -> length tau = dim -> keeps_supercell dim sites M h -> occupied dim sites M Minv nspecies occu -> carried dim sites M Minv h tau occu occu' ->
  exists v, correlations ev occu tables = Some v /\ correlations ev occu' tables = Some v.
Proof.
  intros CR SU SF FB ED NC SL Hh Lt KS OC CA.
  assert (W : exists w, corr_work ev occu tables = Some w /\ corr_work ev occu' tables = Some w).
  { unfold corr_work, zip_orbits. rewrite <- (Forall2_length FB). rewrite (opt_map_length _ _ ED). rewrite Nat.leb_refl. clear NC SL. revert ED. generalize (e_orbits ev). clear ev.
    induction FB as [|so rows sos tables B F IH]; intros os ED; cbn [opt_map] in ED.
    - injection ED as <-. exists []. auto.
    - destruct (orbit_data so) as [od|] eqn:E1; cbn [option_bind] in ED; [|discriminate ED]. destruct (opt_map orbit_data sos) as [ods|] eqn:E2; cbn [option_bind] in ED; [|discriminate ED]. injection ED as <-.
      destruct (IH ods eq_refl) as (w & W1 & W2). destruct (orbit_carried CR SU SF B E1 Hh Lt KS OC CA) as [O1 O2]. destruct (corr_writes occu od rows) as [ws|] eqn:E3; [|congruence].
      exists (ws :: w). cbn [combine opt_map fst snd]. rewrite O1, E3. cbn [option_bind]. rewrite W1, W2. auto. }
  destruct W as (w & W1 & W2). unfold correlations. rewrite W1, W2. unfold run_work. rewrite (init_out_ok _ NC). cbn [option_bind].
  destruct (@write_all_total (upd (repeat (Q2Qc 0) (e_num_corr ev)) 0 1) (concat w)) as (r & Er); [|exists r; auto].
  intros y Hy. rewrite length_upd, repeat_length. apply in_concat in Hy as (ws & Hw & Hy).
  unfold corr_work, zip_orbits in W1. destruct (_ <=? _)%nat; [|discriminate W1]. apply (opt_map_in W1) in Hw as ([o rows] & Hin & Hw). cbn [fst snd] in Hw.
  assert (Hs := corr_slots Hw). assert (Hf : In (fst y) (map fst ws)) by (apply in_map; auto). rewrite Hs in Hf. apply in_seq in Hf. apply in_combine_l in Hin. specialize (SL o Hin). lia.
Qed.
(** The moved occupancy exists and gives every site a species that it can have. *)
Theorem C92_moved dim tol G sites ops M Minv fb nspecies nbits h tau occu :
  crystal dim tol G sites ops -> supercell dim tol sites M Minv -> site_functions dim sites ops fb nspecies nbits ->
  In h ops -> length tau = dim -> keeps_supercell dim sites M h -> occupied dim sites M Minv nspecies occu ->
  exists occu', length occu' = length (supercell_coords dim Minv sites (frac_points dim M Minv)) /\ carried dim sites M Minv h tau occu occu' /\ occupied dim sites M Minv nspecies occu'.
Proof.
  intros CR SU SF Hh Lt KS OC.
  destruct (@choose _ _ (fun k c => forall x j, site dim sites x -> located dim sites M Minv j x -> located dim sites M Minv k (shift (operate h x) tau) -> nth_error occu j = Some c) (seq 0 (length (cells dim sites M Minv)))) as (occu' & F).
  - intros k Hk. apply in_seq in Hk. destruct (nth_error (cells dim sites M Minv) k) as [y|] eqn:Ey; [|apply nth_error_None in Ey; lia].
    assert (Sy : site dim sites y) by (apply (cell_site SU); eapply nth_error_In; eauto). destruct (preimage CR Hh Lt Sy) as (x & Sx & Ex). destruct (located_one CR SU Sx) as (j & Lj & _).
    assert (Sx' := Sx). destruct Sx' as (i & Hi). destruct (OC x i j Hi Lj) as (c & Hc & _). exists c. intros x' j' Sx' Lj' Lk'.
    assert (Sh := cr_op CR Hh Sx). assert (Sh' := cr_op CR Hh Sx'). assert (Sk := site_shift CR Sh' Lt). assert (Ls := len_svec SU).
    apply (located_cell CR SU k Sk) in Lk' as (z & Ez & u & Lu & Eu). rewrite Ey in Ez. injection Ez as <-. rewrite <- Ex in Eu.
    destruct (proj2 KS u Lu) as (t & Lt' & Et).
    assert (E : x' = shift x (svec dim M t)).
    { apply (op_inj CR Hh Sx'); [apply (site_shift CR Sx); apply Ls|]. rewrite (Et x Sx). apply (shift_inj (t := tau)); [rewrite Lt; apply (site_len CR Sh')|rewrite Lt, length_shift; [apply (site_len CR Sh)|rewrite Ls; apply (site_len CR Sh)]|].
      rewrite Eu. assert (Lh := site_len CR Sh). apply vec_ext; [rewrite !length_shift; rewrite ?length_shift; rewrite ?Ls; congruence|]. intros m _. rewrite !comp_shift; rewrite ?length_shift; rewrite ?Ls; try congruence. ring. }
    assert (Lj2 : located dim sites M Minv j x') by (rewrite E; apply (located_scell CR SU Sx Lt' Lj)). destruct (located_one CR SU Sx') as (j3 & _ & _ & U & _). rewrite (U j' Lj'), <- (U j Lj2). auto.
  - assert (L : length occu' = length (cells dim sites M Minv)) by (rewrite <- (Forall2_length F), seq_length; auto).
    assert (CA : carried dim sites M Minv h tau occu occu').
    { intros x j k Sx Lj Lk. assert (Sy : site dim sites (shift (operate h x) tau)) by (apply (site_shift CR (cr_op CR Hh Sx) Lt)).
      apply (located_cell CR SU k Sy) in Lk as Lk'. destruct Lk' as (y & Ey & _). assert (Hk : (k < length occu')%nat) by (rewrite L; apply nth_error_Some; congruence).
      assert (R := @Forall2_get _ _ _ _ _ 0%nat 0%nat k F Hk). cbv beta in R. rewrite seq_nth in R by lia. rewrite (R x j Sx Lj Lk). apply nth_error_nth'. auto. }
    exists occu'. split; [rewrite (coords_cells CR SU), map_length; auto|]. split; auto. apply (carried_occupied CR SU SF Hh Lt OC CA).
Qed.
(** Moving an occupancy by a lattice vector of the prim structure changes no correlation. *)
Theorem C92_translations dim tol G sites ops M Minv fb nspecies nbits sos tables ev tau occu occu' :
  crystal dim tol G sites ops -> supercell dim tol sites M Minv -> site_functions dim sites ops fb nspecies nbits ->
  Forall2 (built dim tol sites ops M Minv nbits fb) sos tables -> opt_map orbit_data sos = Some (e_orbits ev) ->
  (0 < e_num_corr ev)%nat -> (forall o, In o (e_orbits ev) -> (o_bit o + o_rows o <= e_num_corr ev)%nat) ->
  length tau = dim -> occupied dim sites M Minv nspecies occu -> translated dim sites M Minv tau occu occu' ->
  exists v, correlations ev occu tables = Some v /\ correlations ev occu' tables = Some v.
Proof.
  intros CR SU SF FB ED NC SL Lt OC CA. destruct (cr_id CR) as (g & Hg & w & Lw & E). assert (Ls := len_svec SU).
  assert (Ln : length (zadd (zneg w) tau) = dim) by (rewrite length_zadd; rewrite ?length_zneg; congruence).
  apply (C92_invariant (tau := zadd (zneg w) tau) CR SU SF FB ED NC SL Hg Ln); auto.
  - assert (K : forall t x, site dim sites x -> operate g (shift x (svec dim M t)) = shift (operate g x) (svec dim M t)).
    { intros t x Sx. assert (Lx := site_len CR Sx). rewrite (E _ (site_shift CR Sx (Ls t))), (E x Sx).
      apply vec_ext; [rewrite !length_shift; rewrite ?length_shift; rewrite ?Ls; congruence|]. intros m _. rewrite !comp_shift; rewrite ?length_shift; rewrite ?Ls; try congruence. ring. }
    split; intros t Lt'; exists t; split; auto.
  - intros x j k Sx Lj Lk. apply (CA x j k Sx Lj). assert (Ex : shift (operate g x) (zadd (zneg w) tau) = shift x tau); [|rewrite <- Ex; auto]. assert (Lx := site_len CR Sx). rewrite (E x Sx).
    apply vec_ext; [rewrite !length_shift; rewrite ?length_shift; rewrite ?Ls; congruence|]. intros m _. rewrite !comp_shift; rewrite ?length_shift; try congruence.
    rewrite nth_zadd by (rewrite length_zneg; congruence). rewrite nth_zneg, Qc_of_Z_add, Qc_of_Z_opp'. ring.
Qed.
Print Assumptions C92_invariant.
Print Assumptions C92_moved.
Print Assumptions C92_translations.

(** *** Case: the supercell of two cells, an occupancy with different species in the two, moved by the inversion and to the neighboring cell. *)
Unset Implicit Arguments.
Definition sf_spin (_ : nat) : list (list Qc) := [[- (1); 1]].
Definition so_point : sorbit := mkS 1 1 [sf_spin 0] [[[0]]]%nat 1 1.
Definition so_pair : sorbit := mkS 2 1 [sf_spin 0; sf_spin 0] [[[0; 0]]]%nat 2 2.
Definition spin_tables : list ctable := [[[0]; [1]]; [[0; 1]; [1; 0]]]%nat.
Definition spin_eval : evaluator := mkEval (match opt_map orbit_data [so_point; so_pair] with Some l => l | None => [] end) 3 3 0 [].
Lemma turn_parity j a b c : located 3 cube_sites turnM turnI j [0 + qz a; 0 + qz b; 0 + qz c] -> (j = 0%nat /\ (a + b) mod 2 = 0)%Z \/ (j = 1%nat /\ (a + b) mod 2 = 1)%Z.
Proof.
  intros H. assert (S : site 3 cube_sites [0 + qz a; 0 + qz b; 0 + qz c]) by (exists 0%nat; apply lat_site; split; auto; exists a, b, c; auto).
  apply (located_cell cube_crystal turn_supercell j S) in H as (y & Ey & t & Lt & E). assert (Ec : cells 3 cube_sites turnM turnI = map (shift [0; 0; 0]) [[0; 0; 0]; [0; 1; 0]]%Z) by (unfold cells; change (cell_points 3 turnM turnI) with [[0; 0; 0]; [0; 1; 0]]%Z; reflexivity).
  rewrite Ec in Ey. destruct (vec3 _ Lt) as (t0 & t1 & t2 & ->). remember (svec 3 turnM [t0; t1; t2]) as w eqn:Ew. unfold svec, turnM in Ew. cbv [zmat combine map fst snd repeat zadd] in Ew.
  assert (K : forall p q r, y = shift [0; 0; 0] [p; q; r] -> (a + b = p + q + 2 * t0)%Z).
  { intros p q r ->. rewrite Ew in E. cbv [shift qvadd qmap2 map combine fst snd] in E. assert (E0 := f_equal (fun l => nth 0 l 0) E). assert (E1 := f_equal (fun l => nth 1 l 0) E). cbn [nth] in E0, E1.
    rewrite <- Qcplus_assoc, <- Qc_of_Z_add in E0, E1. apply (f_equal (fun z => z - 0)) in E0, E1. assert (A : a = (p + (t0 * 1 + (t1 * -1 + (t2 * 0 + 0))))%Z) by (apply Qc_of_Z_inj; match type of E0 with ?l = ?r => assert (L : qz a = l) by ring; rewrite L, E0; ring end).
    assert (B : b = (q + (t0 * 1 + (t1 * 1 + (t2 * 0 + 0))))%Z) by (apply Qc_of_Z_inj; match type of E1 with ?l = ?r => assert (L : qz b = l) by ring; rewrite L, E1; ring end). lia. }
  destruct j as [|[|j]]; [left|right|destruct j; discriminate Ey]; injection Ey as <-; (split; [reflexivity|]).
  - rewrite (K 0 0 0)%Z by reflexivity. replace (0 + 0 + 2 * t0)%Z with (t0 * 2)%Z by lia. apply Z_mod_mult.
  - rewrite (K 0 1 0)%Z by reflexivity. replace (0 + 1 + 2 * t0)%Z with (1 + t0 * 2)%Z by lia. apply Z_mod_plus_full.
Qed.
Lemma spin_functions : site_functions 3 cube_sites both sf_spin (fun _ => 2%nat) [1%nat].
Proof.
  constructor.
  - intros [|i] L; [split; [reflexivity|simpl; lia]|simpl in L; lia].
  - intros i r [<- |[]]. reflexivity.
  - reflexivity.
Qed.
Lemma spin_built : Forall2 (built 3 tol6 cube_sites both turnM turnI [1%nat] sf_spin) [so_point; so_pair] spin_tables.
Proof.
  destruct C89_case as (SP & _ & FP & _). constructor; [|constructor; [|constructor]].
  - exists [0%nat], [[0 + qz 0; 0 + qz 0; 0 + qz 0]]. assert (IS : is_site 3 cube_sites 0 [0 + qz 0; 0 + qz 0; 0 + qz 0]) by (apply lat_site; split; auto; exists 0%Z, 0%Z, 0%Z; auto).
    do 3 eexists. split; [split; [discriminate|split; [constructor; [intros []|constructor]|intros x [<- |[]]; exists 0%nat; auto]]|]. split; [constructor; auto|]. split; [reflexivity|]. split; [vm_compute; reflexivity|]. 
    split; [vm_compute; reflexivity|]. split; [vm_compute; reflexivity|]. split; [reflexivity|]. apply incl_refl.
  - exists [0; 0]%nat, cube_pair. do 3 eexists. split; [exact SP|]. split; [exact FP|]. split; [reflexivity|]. split; [vm_compute; reflexivity|]. 
    split; [vm_compute; reflexivity|]. split; [vm_compute; reflexivity|]. split; [reflexivity|]. apply incl_refl.
Qed.
Example C92_case : crystal 3 tol6 cubeG cube_sites both /\ supercell 3 tol6 cube_sites turnM turnI /\ site_functions 3 cube_sites both sf_spin (fun _ => 2%nat) [1%nat] /\
  Forall2 (built 3 tol6 cube_sites both turnM turnI [1%nat] sf_spin) [so_point; so_pair] spin_tables /\ opt_map orbit_data [so_point; so_pair] = Some (e_orbits spin_eval) /\
  (0 < e_num_corr spin_eval)%nat /\ (forall o, In o (e_orbits spin_eval) -> (o_bit o + o_rows o <= e_num_corr spin_eval)%nat) /\ In inversion both /\ keeps_supercell 3 cube_sites turnM inversion /\
  occupied 3 cube_sites turnM turnI (fun _ => 2%nat) [0; 1]%nat /\ carried 3 cube_sites turnM turnI inversion [1; 0; 0]%Z [0; 1]%nat [1; 0]%nat /\ translated 3 cube_sites turnM turnI [1; 0; 0]%Z [0; 1]%nat [1; 0]%nat /\
  option_map (map this) (correlations spin_eval [0; 1]%nat spin_tables) = Some [1; 0; -(1)]%Q.
Proof.
  split; [apply cube_crystal|]. split; [apply turn_supercell|]. split; [apply spin_functions|]. split; [apply spin_built|]. split; [vm_compute; reflexivity|]. split; [vm_compute; lia|].
  split; [intros o Ho; vm_compute in Ho; destruct Ho as [<- |[<- |[]]]; vm_compute; lia|]. split; [right; left; auto|].
  assert (FL : forall a b : Z, ((a + b) mod 2 = 0 <-> (a + 1 + b) mod 2 = 1)%Z) by (intros a b; Z.div_mod_to_equations; lia).
  split; [|split; [|split; [|split]]].
  - assert (LS := len_svec turn_supercell). assert (K : forall t, length t = 3%nat -> forall x, site 3 cube_sites x -> operate inversion (shift x (svec 3 turnM t)) = shift (operate inversion x) (svec 3 turnM (zneg t))).
    { intros t Lt x (i & Hi). apply lat_site in Hi as (_ & a & b & c & ->). rewrite (svec_neg turn_supercell Lt). destruct (vec3 _ (LS t)) as (u & v & w & ->).
      change (shift [0 + qz a; 0 + qz b; 0 + qz c] [u; v; w]) with [0 + qz a + qz u; 0 + qz b + qz v; 0 + qz c + qz w]. rewrite !op_inv. cbv [shift zneg qvadd qmap2 map combine fst snd]. rewrite !Qc_of_Z_opp'. apply v3; ring. }
    split; intros t Lt; exists (zneg t); (split; [rewrite length_zneg; auto|]); intros x Sx; rewrite K; auto; [|rewrite length_zneg; auto]. f_equal. f_equal. destruct (vec3 _ Lt) as (u & v & w & ->). cbv [zneg map]. rewrite !Z.opp_involutive. auto.
  - intros x i j Hi Hj. apply lat_site in Hi as (_ & a & b & c & ->). apply turn_parity in Hj as [[-> _]|[-> _]]; eexists; (split; [reflexivity|lia]).
  - intros x j k (i & Hi) Hj Hk. apply lat_site in Hi as (_ & a & b & c & ->). rewrite op_inv in Hk.
    assert (Ex : shift [- (0 + qz a); - (0 + qz b); - (0 + qz c)] [1; 0; 0]%Z = [0 + qz (1 - a); 0 + qz (- b); 0 + qz (- c)]) by (cbv [shift qvadd qmap2 map combine fst snd]; unfold Z.sub; rewrite Qc_of_Z_add, !Qc_of_Z_opp'; change (qz 0) with 0; apply v3; ring).
    rewrite Ex in Hk. apply turn_parity in Hj as [[-> Hj]|[-> Hj]]; apply turn_parity in Hk as [[-> Hk]|[-> Hk]]; try reflexivity; exfalso; Z.div_mod_to_equations; lia.
  - intros x j k (i & Hi) Hj Hk. apply lat_site in Hi as (_ & a & b & c & ->). 
    change (shift [0 + qz a; 0 + qz b; 0 + qz c] [1; 0; 0]%Z) with [0 + qz a + qz 1; 0 + qz b + qz 0; 0 + qz c + qz 0] in Hk. rewrite <- !Qcplus_assoc, <- !Qc_of_Z_add, !Z.add_0_r in Hk.
    specialize (FL a b). apply turn_parity in Hj as [[-> Hj]|[-> Hj]]; apply turn_parity in Hk as [[-> Hk]|[-> Hk]]; try reflexivity; exfalso; Z.div_mod_to_equations; lia.
  - vm_compute. reflexivity.
Qed.
