(** C151: reaction formulas of flips. *)
From Verif Require Import LibProofs QcLib RationalizeProps SnfProofs SnfProps CompSpaceProofs CompSpaceProps NatSolProps CompGridProps ConstraintsProps ContainerStatsProps.
From Verif Require Export Reaction.
Set Implicit Arguments.
Unset Strict Implicit.
Open Scope Z_scope.

(** The species and the sublattice of each entry of a flip. *)
Fixpoint places (k : nat) (bits : list (list species)) : list (species * nat) :=
  match bits with [] => [] | sps :: bits' => map (fun s => (s, k)) sps ++ places (S k) bits' end.
(** Numbers and charge of the species on one side of a formula. *)
Definition number_on (sl : nat) (l : list rterm) : Z := zsum (map (fun t => if (snd t =? sl)%nat then fst (fst t) else 0) l).
Definition side_charge (oxi : species -> Z) (l : list rterm) : Z := zsum (map (fun t => fst (fst t) * oxi (snd (fst t))) l).
Definition balanced (oxi : species -> Z) (neutral : bool) (r : list rterm * list rterm) : Prop :=
  (forall sl, number_on sl (fst r) = number_on sl (snd r)) /\ (neutral = true -> side_charge oxi (fst r) = side_charge oxi (snd r)).

Definition lefts (l : list ((species * nat) * Z)) : list rterm := flat_map (fun p => if snd p <? 0 then [(- snd p, fst (fst p), snd (fst p))] else []) l.
Definition rights (l : list ((species * nat) * Z)) : list rterm := flat_map (fun p => if 0 <? snd p then [(snd p, fst (fst p), snd (fst p))] else []) l.
Lemma sublattice_eq u k : forall sps o, (o + length sps <= length u)%nat ->
  sublattice_terms u k (combine sps (seq o (length sps))) = Some (lefts (combine (map (fun s => (s, k)) sps) (skipn o u)), rights (combine (map (fun s => (s, k)) sps) (skipn o u))).
Proof.
  induction sps as [|s sps IH]; intros o L; [reflexivity|]. cbn [length] in L. cbn [length seq combine map sublattice_terms]. destruct (nth_error u o) as [x|] eqn:E; [|apply nth_error_None in E; lia]. cbn [option_bind].
  rewrite IH by lia. cbn [option_bind]. assert (SK : skipn o u = x :: skipn (S o) u) by (clear - E; revert o E; induction u as [|y u IH]; intros [|o] E; try discriminate; [injection E as ->; reflexivity|apply IH; exact E]).
  rewrite SK. cbn [combine]. unfold lefts, rights. cbn [flat_map fst snd]. destruct (Z.ltb_spec x 0); destruct (Z.ltb_spec 0 x); try lia; reflexivity.
Qed.
Lemma combine_app_l {A B} (a a' : list A) : forall (b : list B), (length a <= length b)%nat -> combine (a ++ a') b = combine a b ++ combine a' (skipn (length a) b).
Proof. induction a as [|x a IH]; intros [|y b] L; cbn [length] in *; auto; try lia. cbn. f_equal. apply IH. lia. Qed.
Lemma reaction_eq u : forall bits k o, (o + num_dims bits <= length u)%nat ->
  reaction_from u k (combine bits (dim_ids_from o (map (@length species) bits))) = Some (lefts (combine (places k bits) (skipn o u)), rights (combine (places k bits) (skipn o u))).
Proof.
  induction bits as [|sps bits IH]; intros k o L; [reflexivity|]. unfold num_dims in *. cbn [map list_sum fold_right] in L. fold (list_sum (map (@length species) bits)) in L. cbn [map dim_ids_from combine reaction_from places].
  rewrite sublattice_eq by lia. cbn [option_bind]. rewrite IH by lia. cbn [option_bind].
  rewrite combine_app_l by (rewrite map_length, skipn_length; lia). rewrite map_length, skipn_add. unfold lefts, rights. rewrite !flat_map_app. reflexivity.
Qed.
Lemma reaction_terms u bits : length u = num_dims bits -> flip_vec_to_reaction u bits = Some (lefts (combine (places 0 bits) u), rights (combine (places 0 bits) u)).
Proof. intros L. unfold flip_vec_to_reaction, cs_dim_ids, get_dim_ids_by_sublattice. rewrite reaction_eq by lia. reflexivity. Qed.
Lemma places_length bits : forall k, length (places k bits) = num_dims bits.
Proof. induction bits as [|sps bits IH]; intros k; [reflexivity|]. cbn [places]. rewrite app_length, map_length, IH. reflexivity. Qed.
Lemma nth_combine {A B} (a : list A) : forall (b : list B) i x y, nth_error (combine a b) i = Some (x, y) <-> nth_error a i = Some x /\ nth_error b i = Some y.
Proof.
  induction a as [|a0 a IH]; intros [|b0 b] [|i] x y; cbn [combine nth_error]; try (split; [discriminate|intros (? & ?); discriminate]); [|apply IH].
  split; [intros [= -> ->]; auto|intros ([= ->] & [= ->]); auto].
Qed.

(** The left side lists the species that are removed, with their numbers; the right side those that are added. *)
Theorem C151_terms u bits : length u = num_dims bits -> exists f t, flip_vec_to_reaction u bits = Some (f, t) /\
  (forall c s sl, In (c, s, sl) f <-> 0 < c /\ exists i, nth_error (places 0 bits) i = Some (s, sl) /\ nth_error u i = Some (- c)) /\
  (forall c s sl, In (c, s, sl) t <-> 0 < c /\ exists i, nth_error (places 0 bits) i = Some (s, sl) /\ nth_error u i = Some c).
Proof.
  intros L. eexists; eexists; split; [apply reaction_terms; auto|]. unfold lefts, rights. split; intros c s sl; rewrite in_flat_map; split.
  - intros (((s' & sl') & x) & I & J). cbn [fst snd] in J. destruct (Z.ltb_spec x 0); [|destruct J]. destruct J as [[= <- <- <-]|[]]. split; [lia|]. apply In_nth_error in I as (i & I). apply nth_combine in I as (I1 & I2). exists i. rewrite Z.opp_involutive. auto.
  - intros (P & i & I1 & I2). exists ((s, sl), - c). split; [apply nth_error_In with i; apply nth_combine; auto|]. cbn [fst snd]. destruct (Z.ltb_spec (- c) 0); [|lia]. left. f_equal. f_equal. lia.
  - intros (((s' & sl') & x) & I & J). cbn [fst snd] in J. destruct (Z.ltb_spec 0 x); [|destruct J]. destruct J as [[= <- <- <-]|[]]. split; [lia|]. apply In_nth_error in I as (i & I). apply nth_combine in I as (I1 & I2). exists i. auto.
  - intros (P & i & I1 & I2). exists ((s, sl), c). split; [apply nth_error_In with i; apply nth_combine; auto|]. cbn [fst snd]. destruct (Z.ltb_spec 0 c); [|lia]. left. auto.
Qed.
(** Different flips have different formulas. *)
Theorem C151_injective u u' bits : NoDup (places 0 bits) -> length u = num_dims bits -> length u' = num_dims bits ->
  flip_vec_to_reaction u bits = flip_vec_to_reaction u' bits -> u = u'.
Proof.
  intros ND L L' E. destruct (C151_terms L) as (f & t & R & F & T). destruct (C151_terms L') as (f' & t' & R' & F' & T'). rewrite R, R' in E. injection E as <- <-.
  apply ContainerStatsProps.nth_error_ext. intros i. destruct (nth_error (places 0 bits) i) as [[s sl]|] eqn:P; [|apply nth_error_None in P; rewrite places_length in P; rewrite !(proj2 (nth_error_None _ _)) by lia; auto].
  assert (IL : (i < num_dims bits)%nat) by (rewrite <- (places_length bits 0); apply nth_error_Some; congruence).
  assert (U : forall j, nth_error (places 0 bits) j = Some (s, sl) -> j = i) by (intros j J; symmetry; apply (proj1 (NoDup_nth_error _) ND i j); [rewrite places_length; auto|congruence]).
  destruct (nth_error u i) as [x|] eqn:X; [|apply nth_error_None in X; lia]. destruct (nth_error u' i) as [y|] eqn:Y; [|apply nth_error_None in Y; lia]. f_equal.
  assert (SYM : forall a b v w, nth_error v i = Some a -> nth_error w i = Some b ->
    (forall c s sl, In (c, s, sl) f <-> 0 < c /\ exists i, nth_error (places 0 bits) i = Some (s, sl) /\ nth_error v i = Some (- c)) ->
    (forall c s sl, In (c, s, sl) f <-> 0 < c /\ exists i, nth_error (places 0 bits) i = Some (s, sl) /\ nth_error w i = Some (- c)) ->
    (forall c s sl, In (c, s, sl) t <-> 0 < c /\ exists i, nth_error (places 0 bits) i = Some (s, sl) /\ nth_error v i = Some c) ->
    (forall c s sl, In (c, s, sl) t <-> 0 < c /\ exists i, nth_error (places 0 bits) i = Some (s, sl) /\ nth_error w i = Some c) -> a <> 0 -> a = b).
  { intros a b v w A B0 FV FW TV TW NZ. destruct (Z_lt_le_dec a 0).
    - assert (I : In (- a, s, sl) f) by (apply FV; split; [lia|]; exists i; rewrite Z.opp_involutive; auto). apply FW in I as (_ & j & J1 & J2). apply U in J1 as ->. rewrite B0, Z.opp_involutive in J2. congruence.
    - assert (I : In (a, s, sl) t) by (apply TV; split; [lia|]; exists i; auto). apply TW in I as (_ & j & J1 & J2). apply U in J1 as ->. congruence. }
  destruct (Z.eq_dec x 0) as [->|NX]; [destruct (Z.eq_dec y 0) as [->|NY]; auto; symmetry; apply (SYM y 0 u' u); auto|apply (SYM x y u u'); auto].
Qed.

Lemma number_diff sl l : number_on sl (rights l) - number_on sl (lefts l) = zsum (map (fun p => if (snd (fst p) =? sl)%nat then snd p else 0) l).
Proof.
  unfold number_on. induction l as [|((s & k) & x) l IH]; [reflexivity|]. unfold rights, lefts in *. cbn [flat_map fst snd map zsum]. rewrite <- IH. destruct (Z.ltb_spec x 0); destruct (Z.ltb_spec 0 x); try lia; cbn [app map fst snd zsum]; destruct (k =? sl)%nat; lia.
Qed.
Lemma charge_diff oxi l : side_charge oxi (rights l) - side_charge oxi (lefts l) = zsum (map (fun p => oxi (fst (fst p)) * snd p) l).
Proof.
  unfold side_charge. induction l as [|((s & k) & x) l IH]; [reflexivity|]. unfold rights, lefts in *. cbn [flat_map fst snd map zsum]. rewrite <- IH. destruct (Z.ltb_spec x 0); destruct (Z.ltb_spec 0 x); try lia; cbn [app map fst snd zsum]; [lia|lia|]. assert (x = 0) as -> by lia. lia.
Qed.
Lemma later_none sl : forall bits k u, (sl < k)%nat -> zsum (map (fun p => if (snd (fst p) =? sl)%nat then snd p else 0) (combine (places k bits) u)) = 0.
Proof.
  intros bits k u L. assert (P : forall p, In p (places k bits) -> (snd p =? sl)%nat = false).
  { revert k L. induction bits as [|sps bits IH]; intros k L p I; [destruct I|]. cbn [places] in I. apply in_app_or in I as [I|I]; [apply in_map_iff in I as (s & <- & _); apply Nat.eqb_neq; cbn [snd]; lia|apply (IH (S k)); auto]. }
  revert u. induction (places k bits) as [|p l IH]; intros [|x u]; cbn [combine map zsum]; auto. cbn [fst snd]. rewrite (P p (or_introl eq_refl)), IH; [reflexivity|]. intros q Q. apply P. right. auto.
Qed.
Lemma first_sum k sps : forall u, (length sps <= length u)%nat ->
  Qc_of_Z (zsum (map (fun p => if (snd (fst p) =? k)%nat then snd p else 0) (combine (map (fun s : species => (s, k)) sps) u))) = qsum (firstn (length sps) (map Qc_of_Z u)).
Proof.
  induction sps as [|s sps IH]; intros [|x u] L; cbn [length] in L; try reflexivity; try lia. cbn [map combine zsum length firstn qsum fst snd]. rewrite Nat.eqb_refl, Qc_of_Z_add, IH by lia. reflexivity.
Qed.
Lemma first_none sl k sps : k <> sl -> forall u, zsum (map (fun p => if (snd (fst p) =? sl)%nat then snd p else 0) (combine (map (fun s : species => (s, k)) sps) u)) = 0.
Proof. intros N. induction sps as [|s sps IH]; intros [|x u]; cbn [map combine zsum]; auto. cbn [fst snd]. rewrite (proj2 (Nat.eqb_neq k sl) N), IH. reflexivity. Qed.
Lemma block_sum sl : forall bits k u, length u = num_dims bits -> (k <= sl)%nat ->
  Qc_of_Z (zsum (map (fun p => if (snd (fst p) =? sl)%nat then snd p else 0) (combine (places k bits) u))) =
  match nth_error (blocks bits (map Qc_of_Z u)) (sl - k) with Some b => qsum (snd b) | None => 0%Qc end.
Proof.
  induction bits as [|sps bits IH]; intros k u L K; [cbn [blocks]; destruct (sl - k)%nat; reflexivity|]. unfold num_dims in *. cbn [map list_sum fold_right] in L. fold (list_sum (map (@length species) bits)) in L. cbn [places blocks].
  rewrite combine_app_l by (rewrite map_length; lia). rewrite map_app, zsum_app, map_length, Qc_of_Z_add. destruct (Nat.eq_dec k sl) as [->|N].
  - rewrite Nat.sub_diag, later_none by lia. cbn [nth_error snd]. rewrite first_sum by lia. apply Qcplus_0_r.
  - rewrite first_none by auto. rewrite IH by (rewrite ?skipn_length; lia). replace (sl - k)%nat with (S (sl - S k)) by lia. cbn [nth_error]. rewrite skipn_map. apply Qcplus_0_l.
Qed.
Lemma charge_sum oxi : forall l (u : list Z), Qc_of_Z (zsum (map (fun p : (species * nat) * Z => oxi (fst (fst p)) * snd p) (combine l u))) = qdot (map (fun s => Qc_of_Z (oxi s)) (map fst l)) (map Qc_of_Z u).
Proof. induction l as [|p l IH]; intros [|x u]; try reflexivity. cbn [combine map zsum qdot fst snd]. rewrite Qc_of_Z_add, Qc_of_Z_mul, IH. reflexivity. Qed.
Lemma places_species bits : forall k, map fst (places k bits) = concat bits.
Proof. induction bits as [|sps bits IH]; intros k; [reflexivity|]. cbn [places concat]. rewrite map_app, IH, map_map. cbn [fst]. rewrite map_id. reflexivity. Qed.

Section Balance.
Variables (oxi : species -> Z) (rank : list (list Z) -> nat) (bits : list (list species)) (sizes : list Z) (neutral : bool) (other : option (list entry)) (sp : cspace) (eqs : list (list Qc * Qc)).
Hypothesis (B : built oxi rank bits sizes neutral other sp eqs).
Lemma kernel_balanced u : kernel sp (map Qc_of_Z u) -> exists r, flip_vec_to_reaction u bits = Some r /\ balanced oxi neutral r.
Proof.
  intros (L & K). destruct (built_rows B) as (E1 & E2 & E3 & E4 & E5 & E6). unfold dims in L. rewrite E1, map_length in L. rewrite (reaction_terms L). eexists; split; [reflexivity|]. unfold balanced. cbn [fst snd].
  unfold equations in E4. destruct (opt_map (eq_row (cs_dims bits)) eqs) as [others|]; [|discriminate]. cbn [option_bind] in E4. apply (f_equal (fun o => match o with Some p => p | None => [] end)) in E4.
  assert (R : forall p, In p (combine (cs_A sp) (cs_b sp)) -> qdot (map Qc_of_Z (fst p)) (map Qc_of_Z u) = 0%Qc) by (intros (r & b) I; apply K; apply in_combine_l in I; auto). rewrite <- E4 in R. split.
  - intros sl. apply Z.sub_move_0_r. apply Z.opp_inj. change (- 0) with 0. rewrite Z.opp_sub_distr, Z.add_comm, Z.add_opp_r, number_diff. apply Qc_of_Z_inj. rewrite block_sum by (auto; lia). rewrite Nat.sub_0_r.
    destruct (nth_error (blocks bits (map Qc_of_Z u)) sl) as [b|] eqn:EB; [|reflexivity].
    assert (LB : length (blocks bits (map Qc_of_Z u)) = length bits) by (generalize (map Qc_of_Z u); clear; induction bits as [|x l IH]; intros n; cbn [blocks length]; auto).
    destruct (nth_error sizes sl) as [s|] eqn:ES; [|apply nth_error_None in ES; assert (sl < length (blocks bits (map Qc_of_Z u)))%nat by (apply nth_error_Some; congruence); lia].
    transitivity (Qc_of_Z s * 0)%Qc; [|change (Qc_of_Z 0) with 0%Qc; ring]. pose proof (@sized_rows (num_dims bits) (map Qc_of_Z u) 0%Qc bits ltac:(rewrite map_length; auto) 0 sizes ltac:(lia)) as (SR & _). apply (SR) with sl; auto.
    intros p I. rewrite Qcmult_0_r. apply (R (size_row (cs_dims bits) (fst p), Qc_of_Z (snd p))). apply in_or_app. right. apply in_or_app. left. apply in_map_iff. exists p. auto.
  - intros ->. apply Z.sub_move_0_r. apply Z.opp_inj. change (- 0) with 0. rewrite Z.opp_sub_distr, Z.add_comm, Z.add_opp_r, charge_diff. apply Qc_of_Z_inj. rewrite charge_sum, places_species. specialize (R (map oxi (concat bits), 0%Qc) (or_introl eq_refl)). cbn [fst] in R. rewrite map_map in R. exact R.
Qed.
(** The formula of the difference of two compositions keeps the number of species on every sublattice and the charge. *)
Theorem C151_steps size n n' : exact_eqs eqs -> 0 < size ->
  composition_ok oxi bits sizes neutral eqs size (map Qc_of_Z n) -> composition_ok oxi bits sizes neutral eqs size (map Qc_of_Z n') ->
  exists r, flip_vec_to_reaction (vadd n' (vopp n)) bits = Some r /\ balanced oxi neutral r.
Proof.
  intros EX HS O O'. apply kernel_balanced. destruct (proj1 (meets_ok _ B EX HS) O) as ((LN & M) & _). destruct (proj1 (meets_ok _ B EX HS) O') as ((LN' & M') & _). rewrite map_length in LN, LN'.
  split; [rewrite map_length, length_vadd_; rewrite ?length_vopp; congruence|]. intros row Hr. rewrite qdot_sub_Z by congruence. apply In_nth_error in Hr as (i & Hi). destruct (nth_error (cs_b sp) i) as [b|] eqn:Eb.
  - rewrite (M i row b Hi Eb), (M' i row b Hi Eb). ring.
  - exfalso. apply nth_error_None in Eb. destruct (built_rows B) as (_ & _ & _ & _ & E5 & _). assert (i < length (cs_A sp))%nat by (apply nth_error_Some; congruence). lia.
Qed.
(** So do the formulas of the flips of a basis. *)
Theorem C151_basis vs size n0 : exact_rhs sp -> regular sp -> good_basis sp vs -> 0 < size -> base_solution sp size = Some n0 ->
  exists rs, flip_reactions vs sp = Some rs /\ length rs = length vs /\ Forall (balanced oxi neutral) rs.
Proof.
  intros ER RG GB HS HB. destruct (basis_facts B ER RG GB HS HB) as (R & _ & _ & LAT). destruct (built_rows B) as (E1 & _). unfold flip_reactions. rewrite E1.
  assert (KV : forall v, In v vs -> exists r, flip_vec_to_reaction v bits = Some r /\ balanced oxi neutral r).
  { intros v V. apply kernel_balanced. apply LAT. split; [apply R; auto|]. apply in_split in V as (a & b & E). exists (map (fun w => (0, w)) a ++ (1, v) :: map (fun w => (0, w)) b). split; [rewrite map_app, map_map; cbn [map snd]; rewrite map_map, !map_id; auto|].
    intros i. unfold lc. rewrite map_app, zsum_app. cbn [map zsum fst snd]. assert (Z0 : forall l : list (list Z), zsum (map (fun p => fst p * nth i (snd p) 0) (map (fun w => (0, w)) l)) = 0) by (induction l as [|w l IH]; cbn [map zsum fst snd]; auto). rewrite !Z0. lia. }
  clear - KV. induction vs as [|v vs IH]; [exists []; repeat split; constructor|]. destruct (KV v (or_introl eq_refl)) as (r & E & BL). destruct IH as (rs & E' & L & F); [intros w W; apply KV; right; auto|]. exists (r :: rs). cbn [opt_map]. rewrite E. cbn [option_bind]. rewrite E'. cbn [option_bind]. split; auto. split; [cbn; congruence|constructor; auto].
Qed.
End Balance.

(** The space of C45. *)
Example C151_case : built c45_oxi (fun _ => 3%nat) c45_bits [1; 1] true c45_other c45_sp [] /\ exact_eqs [] /\ exact_rhs c45_sp /\ regular c45_sp /\ good_basis c45_sp c45_vs /\
  base_solution c45_sp 2 = Some [-2; 2; 2; 2; 0] /\ NoDup (places 0 c45_bits) /\
  flip_reactions c45_vs c45_sp = Some [([(3, Sp 0, 0%nat)], [(1, Sp 1, 0%nat); (2, Vac, 0%nat)]); ([(1, Sp 1, 0%nat); (1, Vac, 0%nat); (1, Sp 2, 1%nat)], [(2, Sp 0, 0%nat); (1, Sp 3, 1%nat)])].
Proof.
  destruct C95_case as (H1 & H2 & H3 & H4 & H5 & _). repeat (split; [assumption|]). split; [vm_compute; reflexivity|]. split; [|vm_compute; reflexivity].
  repeat constructor; cbn; intuition congruence.
Qed.

Print Assumptions C151_terms.
Print Assumptions C151_injective.
Print Assumptions C151_steps.
Print Assumptions C151_basis.
