(** C93: optimising the basis of the composition space. *)
From Verif Require Import LibProofs QcLib RationalizeProps SnfProofs SnfProps CompSpaceProofs CompSpaceProps.
From Verif Require Export ErgodicProofs.
Set Implicit Arguments.
Unset Strict Implicit.
Open Scope Z_scope.

Lemma in_lattice_gen d vs u : in_lattice d vs u <-> length u = d /\ gen vs (at_ u).
Proof. split; intros (L & H); split; auto. Qed.

(** As many vectors as before, independent, in the same lattice, and for every size at least as many of them are as small. *)
Theorem C93_basis_partial rank n0 vs xs loops :
  let d := length n0 in
  rank_exact d rank -> Forall (fun v => length v = d /\ zsum v = 0) vs -> independent vs ->
  exists r, get_optimal_basis rank n0 vs xs loops = Some r /\
    length r = length vs /\ independent r /\ Forall (fun u => in_lattice d vs u /\ zsum u = 0) r /\
    forall s, (small s vs <= small s r)%nat.
Proof.
  intros d RE F I. rewrite Forall_forall in F. assert (R : rows d vs) by (intros v V; apply F; auto). assert (Z0 : forall v, In v vs -> zsum v = 0) by (intros v V; apply F; auto).
  destruct (@opt_loop_inv d rank RE (fun cur => (forall u, In u cur -> gen vs (at_ u)) /\ forall s, (small s vs <= small s cur)%nat) (length vs) (map (lattice_point n0 vs) xs)) with (fuel := loops) (cur := vs) as (r & E & L & RR & ZR & IR & G & S); auto.
  - intros cur new RC ZC IC (G & S) IM. split.
    + intros u U. apply (gen_trans G). apply (compared_gen RC). apply (im_incl IM). auto.
    + intros s. specialize (S s). pose proof (im_small IM IC (fun x Hx => in_or_app _ _ _ (or_introl Hx)) s). lia.
  - split; [intros; apply gen_in; auto|auto].
  - exists r. split; [exact E|]. split; auto. split; auto. split; auto. apply Forall_forall. intros u U. split; auto. apply in_lattice_gen. auto.
Qed.

(** ** Two dimensions *)
Lemma moved_ge u : forall w, length u = length w -> moved u + moved w <= moved (vadd u w) + moved (vadd u (vopp w)).
Proof. unfold moved. induction u as [|a u IH]; intros w L; destruct w as [|b w]; try discriminate. simpl. specialize (IH w ltac:(simpl in L; lia)). fold (vopp w). lia. Qed.
Lemma moved_eq u : forall w, length u = length w -> moved (vadd u w) + moved (vadd u (vopp w)) <= moved u + moved w -> forall i, Z.abs (nth i u 0) = Z.abs (nth i w 0).
Proof.
  induction u as [|a u IH]; intros w L H i; destruct w as [|b w]; try discriminate; auto. pose proof (@moved_ge u w ltac:(simpl in L; lia)) as G. unfold moved in *. simpl in H. fold (vopp w) in H.
  destruct i as [|i]; simpl; [lia|]. apply IH; [simpl in L; lia|lia].
Qed.
Lemma small_pair a b v w : (forall s, (small s [v; w] <= small s [a; b])%nat) -> moved a + moved b <= moved v + moved w.
Proof.
  intros H. pose proof (H (Z.max (moved v) (moved w))) as H1. pose proof (H (Z.min (moved v) (moved w))) as H2. unfold small in *. simpl in *.
  repeat match goal with H : context [?x <=? ?y] |- _ => destruct (Z.leb_spec x y); simpl in H end; lia.
Qed.
Lemma pair_coefs d v w x y : rows d [v; w] -> independent [v; w] -> (forall i, x * nth i v 0 + y * nth i w 0 = 0) -> x = 0 /\ y = 0.
Proof.
  intros R I E. assert (K : forall p, In p [(x, v); (y, w)] -> fst p = 0).
  { apply I; auto. intro i. specialize (E i). unfold lc. cbn [map zsum fst snd]. lia. }
  split; [apply (K (x, v)); left; auto|apply (K (y, w)); right; left; auto].
Qed.
Lemma gen_pair a b x y f : (forall i, f i = x * nth i a 0 + y * nth i b 0) -> gen [a; b] f.
Proof. intros H. exists [(x, a); (y, b)]. split; auto. intro i. rewrite H. unfold lc. cbn [map zsum fst snd]. lia. Qed.

(** A cycle keeps a lattice of two dimensions that is pure. *)
Lemma two_cycle d v w new : rows d [v; w] -> independent [v; w] -> pure d [v; w] -> improves [v; w] new -> gen new (at_ v) /\ gen new (at_ w).
Proof.
  intros R I P IM. pose proof (im_length IM) as L. destruct new as [|a [|b [|? ?]]]; try discriminate. clear L.
  pose proof (im_independent IM) as IN. pose proof (im_incl IM) as IC. pose proof (small_pair (im_small IM I (fun x Hx => in_or_app _ _ _ (or_introl Hx)))) as SM.
  assert (LV : length v = length w) by (rewrite (R v), (R w); simpl; auto). assert (LO : length v = length (vopp w)) by (rewrite length_vopp; auto).
  assert (ND : forall c, ~ independent [c; c]).
  { intros c C. specialize (C [(1, c); (-1, c)] eq_refl). cut (1 = 0); [discriminate|]. apply (C ltac:(intro i; unfold lc; cbn [map zsum fst snd]; lia) (1, c)). left; auto. }
  assert (BAD : moved (vadd v w) + moved (vadd v (vopp w)) <= moved v + moved w -> False).
  { intros M. pose proof (moved_eq LV M) as AB. set (u := map (fun x => x / 2) (vadd v w)).
    assert (U2 : map (Z.mul 2) u = vadd v w).
    { unfold u. rewrite map_map. rewrite <- (map_id (vadd v w)) at 2. apply map_ext_in. intros x X. apply In_nth with (d := 0) in X as (i & Hi & <-). rewrite nth_vadd_ by auto. specialize (AB i).
      assert (EV : exists q, nth i v 0 + nth i w 0 = 2 * q) by (destruct (Z.abs_eq_or_opp (nth i v 0)), (Z.abs_eq_or_opp (nth i w 0)); (exists (nth i v 0); lia) || (exists 0; lia)).
      destruct EV as (q & ->). rewrite (Z.mul_comm 2 q), Z.div_mul by lia. apply Z.mul_comm. }
    assert (LU : length u = d) by (unfold u; rewrite map_length, length_vadd_ by auto; apply R; left; auto).
    destruct (P 2 u ltac:(lia) LU) as (_ & l & M1 & E).
    { rewrite U2. apply in_lattice_gen. split; [rewrite length_vadd_ by auto; apply R; left; auto|]. apply (gen_pair (x := 1) (y := 1)). intro i. unfold at_. rewrite nth_vadd_ by auto. lia. }
    destruct l as [|[x v'] [|[y w'] [|? ?]]]; try discriminate. simpl in M1. injection M1 as -> ->.
    destruct (pair_coefs (x := 1 - 2 * x) (y := 1 - 2 * y) R I) as (X & _); [|lia].
    intro i. specialize (E i). unfold lc in E. cbn [map zsum fst snd] in E. assert (N2 : nth i (map (Z.mul 2) u) 0 = 2 * nth i u 0) by (change 0 with (2 * 0) at 1; rewrite map_nth; auto). rewrite U2, nth_vadd_ in N2 by auto. lia. }
  assert (IA : In a [v; w; vadd v w; vadd v (vopp w)]) by (specialize (IC a (or_introl eq_refl)); simpl in IC |- *; tauto).
  assert (IB : In b [v; w; vadd v w; vadd v (vopp w)]) by (specialize (IC b (or_intror (or_introl eq_refl))); simpl in IC |- *; tauto).
  assert (NP : forall i, nth i (vadd v w) 0 = nth i v 0 + nth i w 0) by (intro; apply nth_vadd_; auto).
  assert (NM : forall i, nth i (vadd v (vopp w)) 0 = nth i v 0 - nth i w 0) by (intro; rewrite nth_vadd_, nth_vopp; auto).
  destruct IA as [<-|[<-|[<-|[<-|[]]]]]; destruct IB as [<-|[<-|[<-|[<-|[]]]]]; try (exfalso; exact (ND _ IN)); try (exfalso; apply BAD; lia);
    split; unfold at_;
    first [apply (gen_pair (x := 1) (y := 0)); intro i; rewrite ?NP, ?NM; lia | apply (gen_pair (x := 0) (y := 1)); intro i; rewrite ?NP, ?NM; lia
          | apply (gen_pair (x := 1) (y := 1)); intro i; rewrite ?NP, ?NM; lia | apply (gen_pair (x := 1) (y := -1)); intro i; rewrite ?NP, ?NM; lia | apply (gen_pair (x := -1) (y := 1)); intro i; rewrite ?NP, ?NM; lia].
Qed.
Lemma same_lattice_gen d vs ws : (forall v, In v vs -> gen ws (at_ v)) -> (forall w, In w ws -> gen vs (at_ w)) -> same_lattice d vs ws.
Proof. intros A B u. rewrite !in_lattice_gen. split; intros (L & G); split; auto; eapply gen_trans; eauto. Qed.
Lemma pure_same d vs ws : same_lattice d vs ws -> pure d vs -> pure d ws.
Proof. intros S P k u K L H. apply S, (P k); auto. apply S. auto. Qed.

(** With at most two vectors the lattice is kept. *)
Theorem C93_two_partial rank n0 vs xs loops r :
  let d := length n0 in
  rank_exact d rank -> Forall (fun v => length v = d /\ zsum v = 0) vs -> independent vs -> pure d vs -> (length vs <= 2)%nat ->
  get_optimal_basis rank n0 vs xs loops = Some r -> same_lattice d vs r.
Proof.
  intros d RE F I P L2 H. rewrite Forall_forall in F. assert (R : rows d vs) by (intros v V; apply F; auto). assert (Z0 : forall v, In v vs -> zsum v = 0) by (intros v V; apply F; auto).
  destruct (@opt_loop_inv d rank RE (fun cur => (length cur <= 2)%nat /\ same_lattice d vs cur) (length vs) (map (lattice_point n0 vs) xs)) with (fuel := loops) (cur := vs) as (r' & E & L & RR & ZR & IR & G & S); auto.
  - intros cur new RC ZC IC (G & S) IM. split; [rewrite (im_length IM); auto|]. pose proof (im_length IM) as LN.
    assert (SC : same_lattice d cur new).
    { apply same_lattice_gen; [|intros u U; apply (compared_gen RC), (im_incl IM); auto].
      destruct cur as [|v [|w [|? ?]]]; [intros v []| | |simpl in G; lia].
      - destruct new as [|a [|? ?]]; try discriminate. pose proof (im_incl IM (or_introl eq_refl)) as A. simpl in A. destruct A as [->|[]]. intros u U. apply gen_in. auto.
      - destruct (two_cycle RC IC (pure_same S P) IM) as (A & B). intros u [<-|[<-|[]]]; auto. }
    intros u. rewrite (S u). apply SC.
  - split; auto. intro u; tauto.
  - unfold get_optimal_basis in H. fold d in H. rewrite E in H. injection H as <-. auto.
Qed.

(** ** The composition space *)
Lemma zsum_qsum z : qsum (map Qc_of_Z z) = Qc_of_Z (zsum z).
Proof. induction z as [|a z IH]; cbn [map qsum zsum]; [reflexivity|]. rewrite IH, Qc_of_Z_add. auto. Qed.
Lemma skipn_plus A (l : list A) : forall a b, skipn b (skipn a l) = skipn (a + b) l.
Proof. induction l as [|x l IH]; intros [|a] b; simpl; auto. apply skipn_nil. Qed.
Lemma sublattice_sums lens : forall o nd n, length n = nd -> (o + list_sum lens = nd)%nat ->
  (forall ds, In ds (dim_ids_from o lens) -> qdot (map Qc_of_Z (size_row nd ds)) n = 0%Qc) -> qsum (skipn o n) = 0%Qc.
Proof.
  induction lens as [|k lens IH]; intros o nd n L E H; cbn [list_sum fold_right dim_ids_from] in *.
  - rewrite skipn_all2 by lia. reflexivity.
  - pose proof (H _ (or_introl eq_refl)) as H0. rewrite qdot_size_row in H0 by lia. specialize (IH (o + k)%nat nd n L ltac:(unfold list_sum in *; lia) (fun ds D => H ds (or_intror D))).
    rewrite <- (firstn_skipn k (skipn o n)), qsum_app, H0. rewrite skipn_plus, IH. apply Qcplus_0_l.
Qed.
Lemma kernel_zsum oxi rk bits sizes neutral other sp eqs z : built oxi rk bits sizes neutral other sp eqs -> kernel sp (map Qc_of_Z z) -> zsum z = 0.
Proof.
  intros B (L & K). destruct (built_rows B) as (E1 & E2 & E3 & E4 & E5 & E6). apply Qc_of_Z_inj. rewrite <- zsum_qsum. change (map Qc_of_Z z) with (skipn 0 (map Qc_of_Z z)).
  apply (sublattice_sums (lens := map (@length species) bits) (nd := num_dims bits)).
  - rewrite L. unfold dims. rewrite E1. auto.
  - reflexivity.
  - intros ds D. apply K. unfold equations in E4. destruct (opt_map (eq_row (cs_dims bits)) eqs) as [others|] eqn:EO; [|discriminate]. cbn [option_bind] in E4. apply (f_equal (fun o => match o with Some p => p | None => [] end)) in E4.
    apply In_nth_error in D as (k & D). assert (KS : exists s, nth_error sizes k = Some s).
    { destruct (nth_error sizes k) as [s|] eqn:S; eauto. apply nth_error_None in S. assert (DL : forall l o, length (dim_ids_from o l) = length l) by (clear; induction l; intros; simpl; auto). assert (k < length (dim_ids_from 0 (map (@length species) bits)))%nat by (apply nth_error_Some; congruence). rewrite DL, map_length in H. lia. }
    destruct KS as (s & KS). assert (IN : In (size_row (cs_dims bits) ds, Qc_of_Z s) (map (fun p : list nat * Z => (size_row (cs_dims bits) (fst p), Qc_of_Z (snd p))) (combine (cs_dim_ids bits) sizes))).
    { apply in_map_iff. exists (ds, s). split; auto. apply nth_error_In with k. unfold cs_dim_ids, get_dim_ids_by_sublattice. clear -D KS. revert KS D. generalize (dim_ids_from 0 (map (length (A:=species)) bits)). revert sizes. induction k as [|k IH]; intros [|x xs] [|y ys]; cbn [nth_error combine]; intros; try discriminate; [congruence|auto]. }
    assert (IN2 := fun a c => in_or_app a _ _ (or_intror (in_or_app _ c _ (or_introl IN)))). specialize (IN2 (if neutral then [(map oxi (concat bits), 0%Qc)] else []) others). rewrite E4 in IN2. apply in_combine_l in IN2. exact IN2.
Qed.
Lemma gen_span d vs z : length z = d -> rows d vs -> (gen vs (at_ z) <-> exists co, length co = length vs /\ map Qc_of_Z z = span_q d vs (map Qc_of_Z co)).
Proof.
  intros L R. assert (SL : forall l i, map snd l = vs -> lc l i = sum (length vs) (fun q => nth q (map fst l) 0 * nth i (nth q vs []) 0)).
  { clear. intros l i <-. induction l as [|[c v] l IH]; [reflexivity|]. rewrite lc_cons, IH. unfold sum. cbn [map length]. cbn [seq map zsum nth fst snd]. rewrite <- seq_shift, map_map. reflexivity. }
  split.
  - intros (l & M & E). exists (map fst l). split; [rewrite <- M, !map_length; auto|]. rewrite span_Z; [|rewrite <- M, !map_length; auto|auto]. apply nth_ext with 0%Qc 0%Qc; [rewrite !map_length, seq_length; auto|]. intros i Hi. rewrite map_length in Hi. rewrite nth_map_seq_q by lia. change 0%Qc with (Qc_of_Z 0). rewrite map_nth. f_equal. rewrite <- SL by auto. apply E.
  - intros (co & LC & E). assert (M : map snd (combine co vs) = vs). { clear -LC. revert vs LC. induction co as [|c co IH]; intros [|v vs] L; try discriminate; auto. simpl. rewrite IH; auto. }
    assert (F : map fst (combine co vs) = co). { clear -LC. revert vs LC. induction co as [|c co IH]; intros [|v vs] L; try discriminate; auto. simpl. rewrite IH; auto. }
    exists (combine co vs). split; auto. intro i. destruct (Nat.lt_ge_cases i d) as [Hi|Hi].
    + rewrite SL by auto. rewrite F. rewrite span_Z in E by auto. apply (f_equal (fun l => nth i l 0%Qc)) in E. rewrite nth_map_seq_q in E by auto. change 0%Qc with (Qc_of_Z 0) in E. rewrite map_nth in E. apply Qc_of_Z_inj in E. auto.
    + rewrite (lc_outside (d := d)); auto; [|rewrite M; auto]. unfold at_. apply nth_overflow. lia.
Qed.
Lemma qdot_scale_l r k z : qdot r (map Qc_of_Z (map (Z.mul k) z)) = (Qc_of_Z k * qdot r (map Qc_of_Z z))%Qc.
Proof. revert z. induction r as [|a r IH]; intros [|x z]; cbn [map qdot]; try ring. rewrite IH, Qc_of_Z_mul. ring. Qed.

(** The basis of the solver: independent flips that generate all flips that keep the constraints. *)
Lemma space_lattice oxi rk bits sizes neutral other sp eqs size n0 ms nm vs : built oxi rk bits sizes neutral other sp eqs -> exact_rhs sp -> regular sp -> 0 < size ->
  base_solution sp size = Some n0 -> solve_at sp ms = Some (nm, vs) ->
  rows (dims sp) vs /\ (forall v, In v vs -> zsum v = 0) /\ independent vs /\ forall z, in_lattice (dims sp) vs z <-> kernel sp (map Qc_of_Z z).
Proof.
  intros B ER RG HS HB HM. pose proof (built_shaped B) as W. assert (HV : basis sp ms = Some vs) by (unfold basis; rewrite HM; auto).
  destruct (base_facts W ER RG HS HB HV) as (L0 & M0 & KS & U & KZ & KQ).
  assert (R : rows (dims sp) vs).
  { unfold base_solution in HB. destruct (integerize (cs_b sp)) as [[ints m]|] eqn:EI; [|discriminate]. cbn [option_bind] in HB. destruct (Z.eqb_spec (size mod m) 0); [|discriminate]. cbn [negb] in HB. destruct (solve_at sp m) as [[n1 v1]|] eqn:ES; [|discriminate]. rewrite (basis_same ES HV). clear HB.
    destruct (@solve_span sp m n1 v1 W ES) as (LV & _); auto.
    assert (NE : cs_b sp <> []) by (intros C; rewrite C in EI; discriminate). destruct (@C78_exact max_den num_tol (cs_b sp)) as (ints' & m' & E & P & Q & _); auto; [unfold max_den; lia|discriminate|]. unfold integerize in EI. rewrite EI in E. injection E as <- <-.
    assert (RI : map (fun b => qround (b * Qc_of_Z m)%Qc) (cs_b sp) = ints).
    { rewrite <- (map_map (fun x => (x * Qc_of_Z m)%Qc) qround), <- Q, map_map. rewrite (map_ext _ (fun x => x)) by (intros; apply qround_int). apply map_id. }
    pose proof ES as ES'. unfold solve_at in ES'. change (cs_dims (cs_bits sp)) with (dims sp) in ES'. rewrite RI in *. destruct (RG _ _ EI _ _ ES') as [SN _]. exact SN. }
  assert (LAT : forall z, in_lattice (dims sp) vs z <-> kernel sp (map Qc_of_Z z)).
  { intro z. rewrite in_lattice_gen. split.
    - intros (L & G). apply (gen_span L R) in G as (co & LC & ->). apply KS. rewrite map_length. auto.
    - intros K. assert (L : length z = dims sp) by (destruct K as (L & _); rewrite map_length in L; auto). split; auto. apply (gen_span L R). apply KZ. auto. }
  split; auto. split; [|split; auto].
  - intros v V. apply (kernel_zsum B). apply LAT, in_lattice_gen. split; [apply R; auto|apply gen_in; auto].
  - intros l M E p P. assert (LC : length (map fst l) = length vs) by (rewrite <- M, !map_length; auto).
    assert (Z0 : map fst l = repeat 0 (length vs)).
    { assert (S : forall co, length co = length vs -> map Qc_of_Z co = map Qc_of_Z (repeat 0 (length vs)) -> co = repeat 0 (length vs)).
      { intros co _ H. clear -H. revert H. generalize (repeat 0 (length vs)). induction co as [|c co IH]; intros [|r rr] H; try discriminate; auto. cbn [map] in H. f_equal; [apply Qc_of_Z_inj; apply (f_equal (fun l => nth 0 l 0%Qc)) in H; exact H|apply IH; apply (f_equal (@tl Qc)) in H; exact H]. }
      apply S; auto. apply U; [rewrite !map_length; rewrite <- M, map_length; auto|rewrite map_length, repeat_length; auto|].
      assert (Zg : forall co, length co = length vs -> (forall i, lc (combine co vs) i = 0) -> span_q (dims sp) vs (map Qc_of_Z co) = map Qc_of_Z (repeat 0 (dims sp))).
      { clear -R. intros co LC Z. apply nth_ext with 0%Qc 0%Qc; [rewrite span_length, map_length, repeat_length; auto|]. intros i Hi. rewrite span_length in Hi. unfold span_q. rewrite nth_map_seq_q by auto. change 0%Qc with (Qc_of_Z 0). rewrite map_nth, nth_repeat. transitivity (Qc_of_Z (lc (combine co vs) i)); [|rewrite Z; reflexivity]. clear Z Hi R. revert vs LC. induction co as [|c co IH]; intros [|v vs] LC; try discriminate; [reflexivity|]. cbn [map combine qsum fst snd]. rewrite IH by (simpl in LC; lia). rewrite lc_cons, Qc_of_Z_add, Qc_of_Z_mul. auto. }
      rewrite !Zg; auto; [rewrite repeat_length; auto| |].
      - intro i. apply lc_zero_coef. intros q Q. destruct q as [a b]. apply in_combine_l in Q. simpl. apply repeat_spec in Q. auto.
      - intro i. replace (combine (map fst l) vs) with l; auto. rewrite <- M. symmetry. apply combine_fst_snd. }
    apply (in_map fst) in P. rewrite Z0 in P. apply repeat_spec in P. auto.
Qed.

(** In a space of at most two dimensions the optimised basis generates exactly the flips that keep all constraints. *)
Theorem C93_space_partial oxi rk bits sizes neutral other sp eqs size n0 ms rank lp tol r :
  built oxi rk bits sizes neutral other sp eqs -> exact_rhs sp -> regular sp -> 0 < size -> base_solution sp size = Some n0 -> rank_exact (num_dims bits) rank ->
  space_basis rank lp tol sp ms true = Some r -> (length r <= 2)%nat ->
  independent r /\ forall z, in_lattice (num_dims bits) r z <-> length z = num_dims bits /\ forall row, In row (cs_A sp) -> qdot (map Qc_of_Z row) (map Qc_of_Z z) = 0%Qc.
Proof.
  intros B ER RG HS HB RE H L2. destruct (built_rows B) as (E1 & _). unfold space_basis in H. destruct (solve_at sp ms) as [[nm vs]|] eqn:EM; [|discriminate]. cbn [option_bind] in H. destruct (natural lp tol 1 nm vs) as [xs|]; [|discriminate]. cbn [option_bind] in H.
  destruct (space_lattice B ER RG HS HB EM) as (R & Z0 & I & LAT). assert (D : dims sp = num_dims bits) by (unfold dims; rewrite E1; auto). rewrite D in *.
  assert (LN : length nm = num_dims bits).
  { rewrite <- D. unfold solve_at, solve_diophantines in EM. destruct (compute_snf _ _ _); [|discriminate]. cbn [option_bind] in EM. destruct (negb _); [discriminate|]. destruct (negb _); [discriminate|]. injection EM as <- _. rewrite map_length, seq_length. reflexivity. }
  rewrite <- LN in RE. assert (F : Forall (fun v => length v = length nm /\ zsum v = 0) vs) by (apply Forall_forall; intros v V; rewrite LN; auto).
  destruct (C93_basis_partial xs 100 RE F I) as (r' & E & LR & IR & _). rewrite H in E. injection E as <-. split; auto.
  assert (P : pure (num_dims bits) vs).
  { intros k u K L IN. apply LAT. apply LAT in IN as (_ & Q). split; [rewrite map_length, D; auto|]. intros row Hr. specialize (Q row Hr). rewrite qdot_scale_l in Q. apply Qcmult_integral in Q as [Q|Q]; auto. exfalso. apply K. apply Qc_of_Z_inj. exact Q. }
  rewrite <- LN in P. pose proof (C93_two_partial RE F I P ltac:(lia) H) as S. rewrite LN in S. intro z. rewrite <- (S z), (LAT z). unfold kernel. rewrite D, map_length. tauto.
Qed.

(** ** Three dimensions *)
(** Twelve species amounts that depend on three numbers. *)
Definition flip3 (a b c : Z) : list Z :=
  [a + b - c; a - b + c; b + c - a; a + b - c; a - b + c; b + c - a; c - a - b; b - a - c; a - b - c; - a; - b; - c].
Definition three : list (list Z) := [flip3 1 0 0; flip3 0 1 0; flip3 0 0 1].
Definition halved : list (list Z) := [flip3 1 1 0; flip3 1 0 1; flip3 0 1 1].
Lemma lc_three a b c i : lc [(a, flip3 1 0 0); (b, flip3 0 1 0); (c, flip3 0 0 1)] i = nth i (flip3 a b c) 0.
Proof. unfold lc. cbn [map zsum fst snd]. unfold flip3. do 12 (destruct i as [|i]; [cbn [nth]; ring|]). cbn [nth]. destruct i; ring. Qed.
Lemma lc_halved a b c i : lc [(a, flip3 1 1 0); (b, flip3 1 0 1); (c, flip3 0 1 1)] i = nth i (flip3 (a + b) (a + c) (b + c)) 0.
Proof. unfold lc. cbn [map zsum fst snd]. unfold flip3. do 12 (destruct i as [|i]; [cbn [nth]; ring|]). cbn [nth]. destruct i; ring. Qed.
Lemma three_coefs (l : list (Z * list Z)) : map snd l = three -> exists a b c, l = [(a, flip3 1 0 0); (b, flip3 0 1 0); (c, flip3 0 0 1)].
Proof. destruct l as [|[a x] [|[b y] [|[c z] [|? ?]]]]; try discriminate. cbn [map snd]. unfold three. intros H. exists a, b, c. congruence. Qed.
Lemma halved_coefs (l : list (Z * list Z)) : map snd l = halved -> exists a b c, l = [(a, flip3 1 1 0); (b, flip3 1 0 1); (c, flip3 0 1 1)].
Proof. destruct l as [|[a x] [|[b y] [|[c z] [|? ?]]]]; try discriminate. cbn [map snd]. unfold halved. intros H. exists a, b, c. congruence. Qed.
Lemma three_independent : independent three.
Proof.
  intros l M E. destruct (three_coefs M) as (a & b & c & ->). pose proof (E 9%nat) as E9. pose proof (E 10%nat) as E10. pose proof (E 11%nat) as E11. rewrite lc_three in E9, E10, E11. cbn in E9, E10, E11.
  intros p [<-|[<-|[<-|[]]]]; simpl; lia.
Qed.
Lemma halved_independent : independent halved.
Proof.
  intros l M E. destruct (halved_coefs M) as (a & b & c & ->). pose proof (E 9%nat) as E9. pose proof (E 10%nat) as E10. pose proof (E 11%nat) as E11. rewrite lc_halved in E9, E10, E11. cbn [flip3 nth] in E9, E10, E11.
  intros p [<-|[<-|[<-|[]]]]; simpl; lia.
Qed.
Lemma three_pure : pure 12 three.
Proof.
  intros k u K L (_ & l & M & E). destruct (three_coefs M) as (a & b & c & ->). assert (N : forall i, nth i (map (Z.mul k) u) 0 = k * nth i u 0) by (intro i; transitivity (nth i (map (Z.mul k) u) (k * 0)); [rewrite Z.mul_0_r; auto|apply map_nth]).
  assert (E' : forall i, k * nth i u 0 = nth i (flip3 a b c) 0) by (intro i; rewrite <- N, E; apply lc_three). clear E N M.
  pose proof (E' 9%nat) as E9. pose proof (E' 10%nat) as E10. pose proof (E' 11%nat) as E11. cbn [flip3 nth] in E9, E10, E11.
  set (p := - nth 9 u 0). set (q := - nth 10 u 0). set (s := - nth 11 u 0). assert (a = k * p) by (unfold p; lia). assert (b = k * q) by (unfold q; lia). assert (c = k * s) by (unfold s; lia).
  split; auto. exists [(p, flip3 1 0 0); (q, flip3 0 1 0); (s, flip3 0 0 1)]. split; auto. intro i. rewrite lc_three. apply (Z.mul_reg_l _ _ k K). rewrite E'. subst a b c. unfold flip3. do 12 (destruct i as [|i]; [cbn [nth]; ring|]). cbn [nth]. destruct i; ring.
Qed.
Lemma moved_standardize v : moved (standardize_row v) = moved v.
Proof.
  unfold standardize_row. destruct v as [|x v]; auto. destruct (0 <=? x); auto. unfold moved, vopp. rewrite map_map. f_equal. apply map_ext. intro. apply Z.abs_opp.
Qed.
Lemma row_mem_in r l : row_mem r l = true <-> In r l.
Proof.
  unfold row_mem. rewrite existsb_exists. split; [intros (x & X & E); destruct (row_dec r x); [subst; auto|discriminate]|intros H; exists r; split; auto; destruct (row_dec r r); congruence].
Qed.

(** The optimised basis may generate only half of the flips, whatever the compositions are. *)
Theorem C93_half_refuted : Forall (fun v => length v = 12%nat /\ zsum v = 0) three /\ independent three /\ pure 12 three /\
  forall rank n0 xs loops, rank_exact 12 rank -> length n0 = 12%nat ->
  exists r, get_optimal_basis rank n0 three xs (S loops) = Some r /\ length r = 3%nat /\ ~ in_lattice 12 r (flip3 1 0 0) /\ ~ same_lattice 12 three r.
Proof.
  split; [repeat constructor|]. split; [apply three_independent|]. split; [apply three_pure|]. intros rank n0 xs loops RE LN.
  enough (X : exists r, get_optimal_basis rank n0 three xs (S loops) = Some r /\ length r = 3%nat /\ ~ in_lattice 12 r (flip3 1 0 0)).
  { destruct X as (r & E & L & N). exists r. split; auto. split; auto. split; auto. intros S. apply N, S. apply in_lattice_gen. split; auto. apply gen_in. left. auto. }
  assert (R : rows 12 three) by (intros v [<-|[<-|[<-|[]]]]; auto). assert (Z0 : forall v, In v three -> zsum v = 0) by (intros v [<-|[<-|[<-|[]]]]; auto).
  unfold get_optimal_basis. rewrite LN. change (length three) with 3%nat. cbn [opt_loop]. set (ns := map _ xs).
  destruct (cycle_improves RE ns R Z0 three_independent) as (V & EV & IM). rewrite EV. cbn [option_bind]. change (length three) with 3%nat in IM. set (new := select rank 3 12 [] V) in *.
  assert (HN : forall u, In u new -> In u halved).
  { assert (S8 : forall u, In u new -> moved u <= 8).
    { pose proof (im_small IM halved_independent (fun x (Hx : In x halved) => ltac:(destruct Hx as [<-|[<-|[<-|[]]]]; vm_compute; tauto)) 8) as S. change (small 8 halved) with 3%nat in S. pose proof (im_length IM) as LL. change (length three) with 3%nat in LL.
      intros u U. unfold small in S. rewrite <- LL in S. assert (FA : forall (f : list Z -> bool) l, (length l <= length (filter f l))%nat -> forall x, In x l -> f x = true).
      { clear. intros f l. induction l as [|x l IH]; intros H y []; simpl in H; destruct (f x) eqn:E; simpl in H; subst; auto; try (apply IH; auto; lia); assert (FL : forall l, (length (filter f l) <= length l)%nat) by (clear; induction l as [|y l IH]; simpl; [lia|destruct (f y); simpl; lia]); specialize (FL l); lia. }
      apply Z.leb_le. apply (FA _ _ S u U). }
    intros u U. specialize (S8 u U). pose proof (im_incl IM U) as IU. clear -S8 IU. vm_compute in IU.
    repeat (destruct IU as [<-|IU]; [vm_compute in S8; try (exfalso; apply S8; reflexivity); vm_compute; tauto|]). destruct IU. }
  assert (TM : table_match new three = false).
  { unfold table_match. rewrite (im_length IM). cbn [Nat.eqb length three andb]. apply Nat.eqb_neq. unfold count_row_matches. intros C.
    destruct (filter _ (nodup row_dec (map standardize_row new))) as [|r rs] eqn:EF; [discriminate|]. assert (IR : In r (r :: rs)) by (left; auto). rewrite <- EF in IR. apply filter_In in IR as (I1 & I2). apply row_mem_in in I2. apply nodup_In in I1.
    apply in_map_iff in I1 as (u & U1 & U2). apply in_map_iff in I2 as (w & W1 & W2). assert (M : moved u = moved w) by (rewrite <- (moved_standardize u), <- (moved_standardize w); congruence).
    apply HN in U2. clear -U2 W2 M. destruct U2 as [<-|[<-|[<-|[]]]]; destruct W2 as [<-|[<-|[<-|[]]]]; vm_compute in M; discriminate. }
  rewrite TM.
  destruct (@opt_loop_inv 12 rank RE (fun cur => forall u, In u cur -> gen halved (at_ u)) 3 ns) with (fuel := loops) (cur := new) as (r & E & L & RR & ZR & IR & G).
  - intros cur nw RC ZC IC G IM' u U. apply (gen_trans G). apply (compared_gen RC), (im_incl IM'). auto.
  - symmetry. apply (im_length IM).
  - exact (improves_rows R IM).
  - exact (improves_zero R Z0 IM).
  - apply IM.
  - intros u U. apply gen_in. auto.
  - exists r. split; auto. split; auto. intros IL. apply in_lattice_gen in IL as (_ & GL). apply (gen_trans G) in GL as (l & M & EL). destruct (halved_coefs M) as (a & b & c & ->).
    pose proof (EL 9%nat) as E9. pose proof (EL 10%nat) as E10. pose proof (EL 11%nat) as E11. rewrite lc_halved in E9, E10, E11. cbn [at_ flip3 nth] in E9, E10, E11. unfold at_ in *. cbn [flip3 nth] in *. lia.
Qed.

(** An oracle as required exists. *)
Definition exact_rank (M : list (list Z)) : nat := if dep_dec (length (hd [] M)) (map at_ M) then length M else S (length M).
Lemma exact_rank_ok d : rank_exact d exact_rank.
Proof.
  intros M F L. rewrite Forall_forall in F. unfold exact_rank. destruct M as [|v M].
  - destruct (dep_dec _ _) as [|D]; [split; auto; intros; apply independent_nil|]. destruct D as (l & E & _ & p & P & _). destruct l; [destruct P|discriminate].
  - cbn [hd]. rewrite (F v (or_introl eq_refl)). destruct (dep_dec d (map at_ (v :: M))) as [I|D].
    + split; auto. intros _. apply (independent_iff (d := d)); auto.
    + split; [lia|]. intros I. apply (independent_iff (d := d)) in I; auto. destruct D as (l & E & R & p & P & N). exfalso. apply N. apply (I l); auto.
Qed.

Definition two : list (list Z) := [[1; -1; 0]; [4; -3; -1]].
Lemma two_independent : independent two.
Proof.
  intros l M E. destruct l as [|[a x] [|[b y] [|? ?]]]; try discriminate. cbn [map snd] in M. assert (x = [1; -1; 0]) by (unfold two in M; congruence). assert (y = [4; -3; -1]) by (unfold two in M; congruence). subst x y.
  pose proof (E 0%nat) as E0. pose proof (E 2%nat) as E2. unfold lc in E0, E2. cbn [map zsum fst snd nth] in E0, E2. intros p [<-|[<-|[]]]; simpl; lia.
Qed.
Lemma two_pure : pure 3 two.
Proof.
  intros k u K L (_ & l & M & E). destruct u as [|u0 [|u1 [|u2 [|? ?]]]]; try discriminate. destruct l as [|[a x] [|[b y] [|? ?]]]; try discriminate. cbn [map snd] in M. assert (x = [1; -1; 0]) by (unfold two in M; congruence). assert (y = [4; -3; -1]) by (unfold two in M; congruence). subst x y.
  pose proof (E 0%nat) as E0. pose proof (E 1%nat) as E1. pose proof (E 2%nat) as E2. unfold lc in E0, E1, E2. cbn [map zsum fst snd nth] in E0, E1, E2. split; auto.
  exists [(u0 + 4 * u2, [1; -1; 0]); (- u2, [4; -3; -1])]. split; auto. intros [|[|[|i]]]; unfold lc; cbn [map zsum fst snd nth]; try lia; [apply (Z.mul_reg_l _ _ k K); lia|destruct i; lia].
Qed.
Example C93_case :
  rank_exact 3 exact_rank /\ Forall (fun v => length v = 3%nat /\ zsum v = 0) two /\ independent two /\ pure 3 two /\
  get_optimal_basis exact_rank [0; 2; 1] two [[0; 0]; [1; 0]] 100 = Some [[1; -1; 0]; [-1; 0; 1]] /\
  moved [4; -3; -1] = 8 /\ moved [-1; 0; 1] = 2 /\
  (* a space of two dimensions, see C45_case *)
  space_basis exact_rank (fun _ _ => Some ((-4 # 1)%Q, (4 # 1)%Q)) (1 # 1000000)%Q c45_sp 2 true = Some [[-1; 0; 1; -1; 1]; [2; -1; -1; -1; 1]].
Proof.
  split; [apply exact_rank_ok|]. split; [repeat constructor|]. split; [apply two_independent|]. split; [apply two_pure|]. split; [vm_compute; reflexivity|]. split; [reflexivity|]. split; [reflexivity|]. vm_compute. reflexivity.
Qed.

Print Assumptions C93_basis_partial.
Print Assumptions C93_two_partial.
Print Assumptions C93_space_partial.
Print Assumptions C93_half_refuted.
