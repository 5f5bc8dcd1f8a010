(** Auxiliary lemmas on composition spaces. *)
From Verif Require Import LibProofs SiteTableProofs ClusterProps SnfProofs SnfProps RationalizeProps.
From Verif Require Export ConstraintsProps.
From Verif Require Export CompSpace.
Set Implicit Arguments.
Unset Strict Implicit.
Open Scope nat_scope.

(** ** Specification: compositions of a supercell *)
Definition charge_of (oxi : species -> Z) (bits : list (list species)) (n : list Qc) : Qc := qdot (map (fun sp => Qc_of_Z (oxi sp)) (concat bits)) n.
Record composition_ok (oxi : species -> Z) (bits : list (list species)) (sizes : list Z) (neutral : bool) (eqs : list (list Qc * Qc)) (size : Z) (n : list Qc) : Prop := {
  co_length : length n = num_dims bits;
  co_nonneg : forall x, In x n -> (0 <= x)%Qc;
  co_neutral : neutral = true -> charge_of oxi bits n = 0%Qc;
  co_sizes : forall k b s, nth_error (blocks bits n) k = Some b -> nth_error sizes k = Some s -> qsum (snd b) = (Qc_of_Z s * Qc_of_Z size)%Qc;
  co_eqs : forall a b, In (a, b) eqs -> qdot a n = (b * Qc_of_Z size)%Qc }.
(** Constraints whose coefficients have small denominators. *)
Definition exact_eqs (eqs : list (list Qc * Qc)) : Prop := forall a b x, In (a, b) eqs -> In x a -> (Zpos (Qden (this x)) <= max_den)%Z.
Definition exact_rhs (sp : cspace) : Prop := forall x, In x (cs_b sp) -> (Zpos (Qden (this x)) <= max_den)%Z.

(** ** Dot products *)
Lemma qdot_app a : forall v b w, length a = length v -> qdot (a ++ b) (v ++ w) = (qdot a v + qdot b w)%Qc.
Proof. induction a as [|x a IH]; intros [|y v] b w H; try discriminate; cbn [app qdot]; [ring|]. rewrite IH by (simpl in H; lia). ring. Qed.
Lemma qdot_ones k v : length v = k -> qdot (repeat 1%Qc k) v = qsum v.
Proof. intros <-. induction v as [|x v IH]; cbn [length repeat qdot qsum]; auto. rewrite IH. ring. Qed.
Lemma qdot_scale_l k a n : qdot (map (fun x => x * k)%Qc a) n = (qdot a n * k)%Qc.
Proof. revert n. induction a as [|x a IH]; intros [|y n]; cbn [map qdot]; try ring. rewrite IH. ring. Qed.
Lemma qdot_scale_r k a n : qdot a (map (fun x => x * k)%Qc n) = (qdot a n * k)%Qc.
Proof. revert n. induction a as [|x a IH]; intros [|y n]; cbn [map qdot]; try ring. rewrite IH. ring. Qed.
Lemma qdot_sub a : forall u v, length u = length v -> qdot a (qmap2 Qcminus u v) = (qdot a u - qdot a v)%Qc.
Proof. unfold qmap2. induction a as [|x a IH]; intros [|y u] [|z v] H; try discriminate; cbn [combine map qdot fst snd]; try ring. rewrite IH by (simpl in H; lia). ring. Qed.
Lemma zsum_zero {A} (f : A -> Z) l : (forall i, In i l -> f i = 0%Z) -> zsum (map f l) = 0%Z.
Proof. induction l as [|x l IH]; intros H; auto. cbn [map zsum]. rewrite H by (left; auto). rewrite IH by (intros i Hi; apply H; right; auto). auto. Qed.
Lemma qdot_Z u : forall v, qdot (map Qc_of_Z u) (map Qc_of_Z v) = Qc_of_Z (zsum (map (fun i => nth i u 0 * nth i v 0)%Z (seq 0 (length u)))).
Proof.
  induction u as [|x u IH]; intros v; auto. destruct v as [|y v].
  - rewrite zsum_zero; auto. intros i _. destruct i; simpl nth; lia.
  - cbn [map nth length seq zsum qdot]. rewrite IH, Qc_of_Z_add, Qc_of_Z_mul. rewrite <- seq_shift, map_map. auto.
Qed.
Lemma map_const_repeat {A B} (f : A -> B) c l : (forall x, In x l -> f x = c) -> map f l = repeat c (length l).
Proof. induction l as [|x l IH]; intros H; auto. cbn [map length repeat]. rewrite H by (left; auto). rewrite IH; auto. intros y Hy. apply H. right. auto. Qed.
Lemma memb_seq i o len : memb i (seq o len) = true <-> o <= i < o + len.
Proof. unfold memb. rewrite existsb_exists. split; [intros (x & Hx & E); apply Nat.eqb_eq in E; subst; apply in_seq; auto|]. intros H. exists i. split; [apply in_seq; auto|apply Nat.eqb_refl]. Qed.
Lemma qdot_size_row o len nd n : length n = nd -> o + len <= nd -> qdot (map Qc_of_Z (size_row nd (seq o len))) n = qsum (firstn len (skipn o n)).
Proof.
  intros L B. unfold size_row. rewrite map_map. replace (seq 0 nd) with (seq 0 o ++ seq o len ++ seq (o + len) (nd - (o + len))) by (rewrite <- !seq_app; f_equal; lia). rewrite !map_app.
  rewrite (map_const_repeat (c := 0%Qc) (l := seq 0 o)), (map_const_repeat (c := 1%Qc) (l := seq o len)), (map_const_repeat (c := 0%Qc) (l := seq (o + len) _)).
  2:{ intros x Hx. apply in_seq in Hx. destruct (memb x (seq o len)) eqn:E; auto. apply memb_seq in E. lia. }
  2:{ intros x Hx. apply in_seq in Hx. rewrite (proj2 (memb_seq x o len)); auto; lia. }
  2:{ intros x Hx. apply in_seq in Hx. destruct (memb x (seq o len)) eqn:E; auto. apply memb_seq in E. lia. }
  rewrite !seq_length. rewrite <- (firstn_skipn o n) at 1. rewrite <- (firstn_skipn len (skipn o n)) at 1.
  assert (L2 : length (skipn o n) = nd - o) by (rewrite skipn_length; lia).
  rewrite !qdot_app by (rewrite repeat_length, firstn_length; lia). rewrite !qdot_zero_vec, qdot_ones by (rewrite firstn_length; lia). ring.
Qed.

(** ** The equations *)
Lemma eq_row_exact nd a b row rhs : (forall x, In x a -> (Zpos (Qden (this x)) <= max_den)%Z) -> eq_row nd (a, b) = Some (row, rhs) ->
  exists sc, (0 < sc)%Z /\ length a = nd /\ map Qc_of_Z row = map (fun x => x * Qc_of_Z sc)%Qc a /\ rhs = (b * Qc_of_Z sc)%Qc.
Proof.
  intros S H. unfold eq_row in H. cbn [fst snd] in H. destruct (Nat.eqb_spec (length a) nd) as [L|]; [|discriminate]. unfold integerize in H.
  destruct a as [|x0 a0]; [discriminate|]. set (a := x0 :: a0) in *. destruct (@C78_exact max_den num_tol a) as (ints & m & E & P & Q & _); auto; [unfold max_den; lia|discriminate|discriminate|]. rewrite E in H. cbn [option_bind] in H. apply (f_equal (fun o => match o with Some p => p | None => ([], 0%Qc) end)) in H. exists m. split; auto. split; auto.
  assert (R : row = map (fun x => qround (x * Qc_of_Z m)%Qc) a) by (apply (f_equal fst) in H; auto). assert (R2 : rhs = (b * Qc_of_Z m)%Qc) by (apply (f_equal snd) in H; auto). split; auto.
  rewrite R, <- (map_map (fun x => (x * Qc_of_Z m)%Qc) qround), <- Q, !map_map. apply map_ext. intros z. rewrite qround_int. auto.
Qed.
Lemma size_pos_nz z : (0 < z)%Z -> Qc_of_Z z <> 0%Qc.
Proof. intros H E. apply (@Qc_of_Z_inj z 0%Z) in E. lia. Qed.
Lemma mul_cancel (a b k : Qc) : k <> 0%Qc -> (a * k = b * k)%Qc -> a = b.
Proof. intros K E. transitivity ((a * k) / k)%Qc; [field; auto|]. rewrite E. field; auto. Qed.
Lemma sized_rows nd n S bits : length n = nd -> forall o sizes, o + num_dims bits <= nd ->
  ((forall p, In p (combine (dim_ids_from o (map (@length species) bits)) sizes) -> qdot (map Qc_of_Z (size_row nd (fst p))) n = (Qc_of_Z (snd p) * S)%Qc) <->
   (forall k b s, nth_error (blocks bits (skipn o n)) k = Some b -> nth_error sizes k = Some s -> qsum (snd b) = (Qc_of_Z s * S)%Qc)).
Proof.
  intros L. induction bits as [|sps bits IH]; intros o sizes B; cbn [map dim_ids_from combine blocks].
  - split; [intros _ k b s H; destruct k; discriminate|intros _ p []].
  - unfold num_dims in B. cbn [map] in B. change (list_sum (length sps :: map (@length species) bits)) with (length sps + num_dims bits) in B. destruct sizes as [|s sizes]; [split; [intros _ k b s _ H; destruct k; discriminate|intros _ p []]|]. cbn [combine]. specialize (IH (o + length sps) sizes ltac:(lia)). rewrite skipn_add. split.
    + intros H k b s' Hb Hs. destruct k as [|k]; cbn [nth_error] in *.
      * injection Hb as <-. injection Hs as <-. cbn [snd]. pose proof (H (seq o (length sps), s) (or_introl eq_refl)) as H0. cbn [fst snd] in H0. rewrite qdot_size_row in H0 by lia. auto.
      * apply (proj1 IH (fun p Hp => H p (or_intror Hp)) k b s'); auto.
    + intros H p [<- | Hp]; cbn [fst snd].
      * rewrite qdot_size_row by lia. apply (H 0 (sps, firstn (length sps) (skipn o n)) s); auto.
      * apply (proj2 IH); auto. intros k b s' Hb Hs. apply (H (Datatypes.S k) b s'); auto.
Qed.
(** The rows that are checked say the same as the definition. *)
Lemma equations_iff oxi bits sizes neutral eqs rows size n : (0 < size)%Z -> exact_eqs eqs -> equations oxi bits sizes neutral eqs = Some rows -> length n = num_dims bits ->
  ((forall p, In p rows -> qdot (map Qc_of_Z (fst p)) n = (snd p * Qc_of_Z size)%Qc) <->
   (neutral = true -> charge_of oxi bits n = 0%Qc) /\
   (forall k b s, nth_error (blocks bits n) k = Some b -> nth_error sizes k = Some s -> qsum (snd b) = (Qc_of_Z s * Qc_of_Z size)%Qc) /\
   (forall a b, In (a, b) eqs -> qdot a n = (b * Qc_of_Z size)%Qc)).
Proof.
  intros HS EX H L. unfold equations in H. destruct (opt_map (eq_row (cs_dims bits)) eqs) as [others|] eqn:EO; [|discriminate]. cbn [option_bind] in H. apply (f_equal (fun o => match o with Some p => p | None => [] end)) in H. subst rows.
  pose proof (@sized_rows (num_dims bits) n (Qc_of_Z size) bits L 0 sizes (le_n _)) as SR. cbn [skipn] in SR.
  assert (OT : (forall p, In p others -> qdot (map Qc_of_Z (fst p)) n = (snd p * Qc_of_Z size)%Qc) <-> (forall a b, In (a, b) eqs -> qdot a n = (b * Qc_of_Z size)%Qc)).
  { clear SR. revert others EO. induction eqs as [|[a b] eqs IH]; intros others EO; cbn [opt_map] in EO; [injection EO as <-; split; intros ? ? *; simpl; tauto|].
    destruct (eq_row (cs_dims bits) (a, b)) as [[row rhs]|] eqn:ER; [|discriminate]. cbn [option_bind] in EO. destruct (opt_map (eq_row (cs_dims bits)) eqs) as [os|] eqn:EO'; [|discriminate]. cbn [option_bind] in EO. apply (f_equal (fun o => match o with Some p => p | None => [] end)) in EO. subst others.
    destruct (eq_row_exact (fun x Hx => EX a b x (or_introl eq_refl) Hx) ER) as (sc & P & _ & R1 & R2).
    assert (ROW : qdot (map Qc_of_Z row) n = (rhs * Qc_of_Z size)%Qc <-> qdot a n = (b * Qc_of_Z size)%Qc).
    { rewrite R1, R2, qdot_scale_l. split; intros Q; [apply mul_cancel with (k := Qc_of_Z sc); [apply size_pos_nz; auto|rewrite Q; ring]|rewrite Q; ring]. }
    destruct (IH (fun a' b' x Ha Hx => EX a' b' x (or_intror Ha) Hx) os eq_refl) as [I1 I2]. split.
    - intros A a' b' [E | I]; [injection E as <- <-; apply ROW, (A (row, rhs)); left; auto|]. apply I1; auto. intros p Hp. apply A. right. auto.
    - intros A p [<- | Hp]; [apply ROW, A; left; auto|]. apply I2; auto. intros a' b' I. apply A. right. auto. }
  split.
  - intros A. split; [|split; [apply SR|apply OT]].
    + intros ->. unfold charge_of. rewrite <- (map_map oxi Qc_of_Z). pose proof (A (map oxi (concat bits), 0%Qc) (or_introl eq_refl)) as A0. cbn [fst snd] in A0. rewrite A0. ring.
    + intros p Hp. apply (A (size_row (cs_dims bits) (fst p), Qc_of_Z (snd p))). apply in_or_app. right. apply in_or_app. left. apply in_map_iff. exists p. auto.
    + intros p Hp. apply A. apply in_or_app. right. apply in_or_app. auto.
  - intros (A1 & A2 & A3) p Hp. apply in_app_or in Hp. destruct Hp as [Hp | Hp].
    + destruct neutral; [|destruct Hp]. destruct Hp as [<- | []]. cbn [fst snd]. rewrite map_map. unfold charge_of in A1. rewrite A1 by auto. ring.
    + apply in_app_or in Hp. destruct Hp as [Hp | Hp]; [|apply OT; auto]. apply in_map_iff in Hp. destruct Hp as (q & <- & Hq). cbn [fst snd]. apply SR; auto.
Qed.

(** ** Coordinates *)
(** The solver's basis depends on the matrix only. *)
Lemma solver_basis n d A b b' n0 vs n0' vs' : solve_diophantines n d A (Some b) = Some (n0, vs) -> solve_diophantines n d A (Some b') = Some (n0', vs') -> vs = vs'.
Proof.
  unfold solve_diophantines. destruct (compute_snf n d A) as [x|]; [|discriminate]. cbn [option_bind]. destruct (negb (length b =? n)); [discriminate|]. destruct (negb (length b' =? n)); [discriminate|].
  destruct (negb (forallb _ _)); [discriminate|]. destruct (negb (forallb _ _)); [discriminate|]. intros H H'. injection H as _ <-. injection H' as _ <-. auto.
Qed.
(** Equations whose integer solutions are found, all of them. *)
Definition solved_whole (n d : nat) (A : mat) (b : list Z) : Prop :=
  forall n0 vs, solve_diophantines n d A (Some b) = Some (n0, vs) -> solves n d A b n0 /\ forall v, solves n d A b v -> exists co, length co = length vs /\ v = combine_with d n0 vs co.
Lemma whole_independent n d A b : SnfProofs.shape n d A -> length b = n -> independent_rows n d A -> solved_whole n d A b.
Proof. intros HA Hb HI n0 vs E. pose proof (C42_lattice_partial HA Hb HI) as H. rewrite E in H. destruct H as [H1 H2]. split; auto. intros v Hv. apply H2; auto. Qed.
Lemma whole_one_zero n d A b x : SnfProofs.shape n d A -> length b = n -> compute_snf n d A = Some x ->
  (forall i j, i < Nat.min n d -> j < Nat.min n d -> get (st_m x) i i = 0%Z -> get (st_m x) j j = 0%Z -> i = j) -> (exists v, solves n d A b v) -> solved_whole n d A b.
Proof. intros HA Hb HX HZ HE n0 vs E. split; [apply (C42_sound HA Hb E HE)|]. intros v Hv. apply (C42_one_zero_partial HA Hb HX HZ E Hv). Qed.
(** Combinations. *)
Definition span_q (nd : nat) (vs : list (list Z)) (x : list Qc) : list Qc := map (fun i => qsum (map (fun p => fst p * Qc_of_Z (nth i (snd p) 0%Z))%Qc (combine x vs))) (seq 0 nd).
Lemma from_coords_span nd vs n0 x : length n0 = nd -> length x = length vs -> from_coords nd vs n0 x = Some (qmap2 Qcplus (span_q nd vs x) (map Qc_of_Z n0)).
Proof.
  intros L LX. unfold from_coords. rewrite LX, Nat.eqb_refl. f_equal. unfold span_q, qmap2.
  assert (G : forall (f : nat -> Qc) s k l, length l = k -> map (fun i => f i + Qc_of_Z (nth (i - s) l 0%Z))%Qc (seq s k) = map (fun p => (fst p + snd p)%Qc) (combine (map f (seq s k)) (map Qc_of_Z l))).
  { intros f s k. revert s. induction k as [|k IH]; intros s l Hl; [auto|]. destruct l as [|z l]; [discriminate|]. cbn [seq map combine fst snd]. rewrite Nat.sub_diag. cbn [nth]. f_equal. rewrite <- IH by (simpl in Hl; lia). apply map_ext_in. intros i Hi. apply in_seq in Hi. replace (i - s) with (S (i - S s)) by lia. auto. }
  rewrite <- (G _ 0 nd n0 L). apply map_ext. intros i. rewrite Nat.sub_0_r. auto.
Qed.
Lemma span_length nd vs x : length (span_q nd vs x) = nd.
Proof. unfold span_q. rewrite map_length, seq_length. auto. Qed.
Lemma qmap2_length f u v : length u = length v -> length (qmap2 f u v) = length u.
Proof. intros H. unfold qmap2. rewrite map_length, combine_length. lia. Qed.
Lemma qmap2_add_sub u : forall v, length u = length v -> qmap2 Qcminus (qmap2 Qcplus u v) v = u.
Proof. unfold qmap2. induction u as [|x u IH]; intros [|y v] H; try discriminate; cbn [combine map fst snd]; auto. rewrite IH by (simpl in H; lia). f_equal. ring. Qed.
Lemma qmap2_sub_add u : forall v, length u = length v -> qmap2 Qcplus (qmap2 Qcminus u v) v = u.
Proof. unfold qmap2. induction u as [|x u IH]; intros [|y v] H; try discriminate; cbn [combine map fst snd]; auto. rewrite IH by (simpl in H; lia). f_equal. ring. Qed.
(** [P] undoes combinations of [vs]. *)
Definition left_inverse (nd : nat) (P : list (list Qc)) (vs : list (list Z)) : Prop := forall x, length x = length vs -> map (fun row => qdot row (span_q nd vs x)) P = x.
(** A rational vector times an integer is integral. *)
Lemma common_den w : exists D z, (0 < D)%Z /\ map Qc_of_Z z = map (fun x => x * Qc_of_Z D)%Qc w.
Proof.
  induction w as [|x w (D & z & P & E)]; [exists 1%Z, []; split; auto; lia|]. set (d := Zpos (Qden (this x))). exists (D * d)%Z, ((Qnum (this x) * D)%Z :: map (fun a => a * d)%Z z). split; [unfold d; lia|]. cbn [map]. f_equal.
  - rewrite (qfrac_this x) at 2. rewrite qfrac_mul; [|lia|exists D; unfold d; auto]. f_equal. unfold d. rewrite Z.div_mul by lia. auto.
  - rewrite map_map. rewrite (map_ext _ (fun a => Qc_of_Z a * Qc_of_Z d)%Qc) by (intros; apply Qc_of_Z_mul). rewrite <- (map_map Qc_of_Z (fun a => (a * Qc_of_Z d)%Qc)), E, map_map. apply map_ext. intros a. rewrite Qc_of_Z_mul. ring.
Qed.
Lemma span_Z nd vs co : length co = length vs -> (forall v, In v vs -> length v = nd) -> span_q nd vs (map Qc_of_Z co) = map (fun r => Qc_of_Z (sum (length vs) (fun q => nth q co 0 * nth r (nth q vs []) 0)%Z)) (seq 0 nd).
Proof.
  intros L LV. unfold span_q. apply map_ext. intros i. clear LV. revert co L. induction vs as [|v vs IH]; intros [|c co] L; try discriminate; auto. cbn [map combine qsum fst snd]. rewrite IH by (simpl in L; lia). unfold sum. cbn [length]. cbn [seq map zsum nth]. rewrite <- seq_shift, map_map, Qc_of_Z_add, Qc_of_Z_mul. auto.
Qed.
Lemma span_scale nd vs x k : span_q nd vs (map (fun a => a * k)%Qc x) = map (fun a => a * k)%Qc (span_q nd vs x).
Proof.
  unfold span_q. rewrite map_map. apply map_ext. intros i. revert vs. induction x as [|a x IH]; intros [|v vs]; cbn [map combine qsum fst snd]; try ring. rewrite IH. ring.
Qed.
