(** C45: translation between formats of compositions. *)
From Verif Require Import LibProofs DomainProofs SiteTableProofs ClusterProps SnfProofs SnfProps RationalizeProps.
From Verif Require Export ConstraintsProps.
From Verif Require Export CompSpace CompSpaceProofs.
From Coq Require Import Lqa.
Set Implicit Arguments.
Unset Strict Implicit.
Open Scope nat_scope.

(** The space [sp] is built from the arguments, and [eqs] are the equality constraints that were stored (their meaning is C46). *)
Definition built (oxi : species -> Z) (rank : list (list Z) -> nat) (bits : list (list species)) (sizes : list Z) (neutral : bool) (other : option (list entry)) (sp : cspace) (eqs : list (list Qc * Qc)) : Prop :=
  make_space oxi rank bits (Some sizes) neutral other = Some sp /\
  exists attr, assign bits None other = Some attr /\ eqs = match attr with Some c => cl_eq c | None => [] end.
Definition integral (n : list Qc) : Prop := exists z, n = map Qc_of_Z z.

Lemma combine_fst_snd {A B} (l : list (A * B)) : combine (map fst l) (map snd l) = l.
Proof. induction l as [|[a b] l IH]; cbn [map combine fst snd]; congruence. Qed.
Lemma built_rows oxi rank bits sizes neutral other sp eqs : built oxi rank bits sizes neutral other sp eqs ->
  cs_bits sp = bits /\ cs_sizes sp = sizes /\ length sizes = length bits /\ equations oxi bits sizes neutral eqs = Some (combine (cs_A sp) (cs_b sp)) /\ length (cs_A sp) = length (cs_b sp) /\ (forall r, In r (cs_A sp) -> length r = num_dims bits).
Proof.
  intros [H (attr & E & ->)]. unfold make_space in H. destruct (Nat.eqb_spec (length sizes) (length bits)) as [L|]; [|discriminate]. cbn [negb] in H. rewrite E in H. cbn [option_bind] in H.
  assert (CL : cl_eq (match attr with Some c => c | None => mkCL [] [] end) = match attr with Some c => cl_eq c | None => [] end) by (destruct attr; auto). rewrite CL in H. set (eqs := match attr with Some c => cl_eq c | None => [] end) in *.
  destruct (equations oxi bits sizes neutral eqs) as [rows|] eqn:EE; [|discriminate]. cbn [option_bind] in H. destruct (_ <=? _)%nat; [discriminate|]. injection H as <-. cbn [cs_bits cs_sizes cs_A cs_b]. repeat split; auto; [rewrite combine_fst_snd; auto|rewrite !map_length; auto|].
  intros r Hr. apply in_map_iff in Hr. destruct Hr as ([r' b] & <- & Hr). cbn [fst]. unfold equations in EE. destruct (opt_map (eq_row (cs_dims bits)) eqs) as [others|] eqn:EO; [|discriminate]. cbn [option_bind] in EE. apply (f_equal (fun o => match o with Some p => p | None => [] end)) in EE. subst rows.
  apply in_app_or in Hr. destruct Hr as [Hr | Hr]; [destruct neutral; [|destruct Hr]; destruct Hr as [Hr | []]; apply (f_equal fst) in Hr; cbn [fst] in Hr; subst r'; rewrite map_length; unfold num_dims; clear; induction bits as [|s bits IH]; simpl; auto; rewrite app_length; lia|].
  apply in_app_or in Hr. destruct Hr as [Hr | Hr]; [apply in_map_iff in Hr; destruct Hr as (q & Hr & _); apply (f_equal fst) in Hr; cbn [fst] in Hr; subst r'; unfold size_row; rewrite map_length, seq_length; auto|].
  apply In_nth_error in Hr. destruct Hr as [i Hi]. destruct (nth_error eqs i) as [c|] eqn:EI.
  - destruct (opt_map_nth _ _ _ EO EI) as (y & Ey & Hy). rewrite Hi in Hy. apply (f_equal (fun o => match o with Some p => fst p | None => [] end)) in Hy. cbn [fst] in Hy. subst r'. unfold eq_row in Ey. destruct (Nat.eqb_spec (length (fst c)) (cs_dims bits)) as [LL|]; [|discriminate]. destruct (integerize (fst c)) as [[x s]|]; [|discriminate]. cbn [option_bind] in Ey. apply (f_equal (fun o => match o with Some p => fst p | None => [] end)) in Ey. cbn [fst] in Ey. rewrite <- Ey, map_length. exact LL.
  - exfalso. apply nth_error_None in EI. rewrite <- (opt_map_length _ _ EO) in EI. apply nth_error_None in EI. congruence.
Qed.

(** ** Counts *)
Lemma counts_ok_iff sp size n : (0 < size)%Z -> counts_ok sp size n = true <->
  length n = num_dims (cs_bits sp) /\ (forall x, In x n -> - num_tol <= x)%Qc /\ (forall p, In p (combine (cs_A sp) (cs_b sp)) -> (qabs (qdot (map Qc_of_Z (fst p)) n - snd p * Qc_of_Z size) <= num_tol * Qc_of_Z size)%Qc).
Proof.
  intros HS. unfold counts_ok. rewrite !andb_true_iff, Nat.eqb_eq, negb_true_iff, forallb_forall, <- not_true_iff_false, existsb_exists. change (cs_dims (cs_bits sp)) with (num_dims (cs_bits sp)).
  assert (S0 : Qc_of_Z size <> 0%Qc) by (apply size_pos_nz; auto). assert (SP : (0 < Qc_of_Z size)%Qc) by (apply Qcnot_le_lt; intros C; apply (proj2 (Qc_of_Z_le size 0)) in C; lia).
  assert (R : forall p : list Z * Qc, Qcleb (qabs (qdot (map Qc_of_Z (fst p)) (map (fun x => (x / Qc_of_Z size)%Qc) n) - snd p)) num_tol = true <-> (qabs (qdot (map Qc_of_Z (fst p)) n - snd p * Qc_of_Z size) <= num_tol * Qc_of_Z size)%Qc).
  { intros p. unfold Qcdiv. rewrite qdot_scale_r. set (d := qdot _ n). replace (d - snd p * Qc_of_Z size)%Qc with ((d * / Qc_of_Z size - snd p) * Qc_of_Z size)%Qc by (field; auto). set (e := (d * / Qc_of_Z size - snd p)%Qc).
    assert (QA : qabs (e * Qc_of_Z size) = (qabs e * Qc_of_Z size)%Qc).
    { unfold qabs. destruct (Qcltb_spec e 0), (Qcltb_spec (e * Qc_of_Z size) 0); try ring; exfalso.
      - apply Qcnot_lt_le in n0. clear - n0 q SP. qcnra.
      - apply Qcnot_lt_le in n0. clear - n0 q SP. qcnra. }
    rewrite QA. destruct (Qcleb_spec (qabs e) num_tol) as [L|L]; split; intros H; auto; try discriminate.
    - apply Qcmult_le_compat_r; auto. apply Qclt_le_weak; auto.
    - exfalso. apply L. apply Qcmult_lt_0_le_reg_r with (Qc_of_Z size); auto. }
  split.
  - intros ((L & N) & F). split; auto. split; [|intros p Hp; apply R; auto]. intros x Hx. apply Qcnot_lt_le. intros C. apply N. exists x. split; auto. destruct (Qcltb_spec x (- num_tol)); auto.
  - intros (L & N & F). repeat split; auto; [|intros p Hp; apply R; auto]. intros (x & Hx & C). destruct (Qcltb_spec x (- num_tol)) as [B|]; [|discriminate]. apply (Qclt_not_le _ _ B). auto.
Qed.
Lemma round_all_int z : round_all (map Qc_of_Z z) = Some (map Qc_of_Z z).
Proof.
  unfold round_all. replace (existsb _ _) with false.
  - f_equal. rewrite map_map. apply map_ext. intros a. rewrite qround_int. auto.
  - symmetry. apply not_true_iff_false. rewrite existsb_exists. intros (x & Hx & C). apply in_map_iff in Hx. destruct Hx as (a & <- & _). rewrite qround_int in C. replace (Qc_of_Z a - Qc_of_Z a)%Qc with 0%Qc in C by ring. discriminate.
Qed.
Lemma qabs_zero : qabs 0%Qc = 0%Qc.
Proof. reflexivity. Qed.
Lemma Qc_of_Z_pos z : (0 < z)%Z -> (0 < Qc_of_Z z)%Qc.
Proof. intros H. apply Qcnot_le_lt; intros C; apply (proj2 (Qc_of_Z_le z 0)) in C; lia. Qed.
Lemma feasible_ok oxi rank bits sizes neutral other sp eqs size n : built oxi rank bits sizes neutral other sp eqs -> exact_eqs eqs -> (0 < size)%Z -> composition_ok oxi bits sizes neutral eqs size n -> counts_ok sp size n = true.
Proof.
  intros B EX HS OK. destruct (built_rows B) as (E1 & E2 & E3 & E4 & E5 & E6). apply counts_ok_iff; auto. rewrite E1. split; [apply (co_length OK)|]. split.
  - intros x Hx. apply Qcle_trans with 0%Qc; [discriminate|apply (co_nonneg OK); auto].
  - intros p Hp. rewrite (proj2 (equations_iff HS EX E4 (co_length OK))); auto; [|split; [apply (co_neutral OK)|split; [apply (co_sizes OK)|apply (co_eqs OK)]]].
    replace (_ - _)%Qc with 0%Qc by ring. rewrite qabs_zero. replace 0%Qc with (0 * Qc_of_Z size)%Qc by ring. apply Qcmult_le_compat_r; [discriminate|apply Qclt_le_weak, Qc_of_Z_pos; auto].
Qed.
Lemma Qc_of_Z_lt a b : (a < b)%Z <-> (Qc_of_Z a < Qc_of_Z b)%Qc.
Proof.
  split; intros H.
  - apply Qcnot_le_lt. intros C. apply (proj2 (Qc_of_Z_le b a)) in C. lia.
  - assert (~ (b <= a)%Z); [|lia]. intros C. apply (proj1 (Qc_of_Z_le b a)) in C. apply (Qclt_not_le _ _ H C).
Qed.
Lemma Qc_of_Z_opp z : Qc_of_Z (- z) = (- Qc_of_Z z)%Qc.
Proof. replace (- z)%Z with ((-1) * z)%Z by ring. rewrite Qc_of_Z_mul. change (Qc_of_Z (-1)) with (- (1))%Qc. ring. Qed.
Lemma qabs_Z z : qabs (Qc_of_Z z) = Qc_of_Z (Z.abs z).
Proof.
  unfold qabs. change 0%Qc with (Qc_of_Z 0). destruct (Qcltb_spec (Qc_of_Z z) (Qc_of_Z 0)) as [N|N]; rewrite <- Qc_of_Z_lt in N.
  - rewrite <- Qc_of_Z_opp. f_equal. lia.
  - f_equal. lia.
Qed.
Lemma qabs_lt_Z z : (qabs (Qc_of_Z z) < 1)%Qc -> z = 0%Z.
Proof. rewrite qabs_Z. change 1%Qc with (Qc_of_Z 1). rewrite <- Qc_of_Z_lt. lia. Qed.
Lemma qabs_mul_pos a k : (0 < k)%Qc -> qabs (a * k) = (qabs a * k)%Qc.
Proof. intros K. unfold qabs. destruct (Qcltb_spec a 0), (Qcltb_spec (a * k) 0); try ring; exfalso; apply Qcnot_lt_le in n; clear - n q K; qcnra. Qed.
Lemma ok_feasible oxi rank bits sizes neutral other sp eqs size n M : built oxi rank bits sizes neutral other sp eqs -> exact_eqs eqs -> (0 < size)%Z ->
  (forall b, In b (cs_b sp) -> Zpos (Qden (this b)) <= M)%Z -> (M * size < 1000000)%Z -> integral n -> counts_ok sp size n = true -> composition_ok oxi bits sizes neutral eqs size n.
Proof.
  intros B EX HS HM HB [z ->] OK. destruct (built_rows B) as (E1 & E2 & E3 & E4 & E5 & E6). apply counts_ok_iff in OK; auto. rewrite E1 in OK. destruct OK as (L & N & R).
  destruct (proj1 (equations_iff HS EX E4 L)) as (A1 & A2 & A3).
  - intros [row b] Hp. pose proof (R _ Hp) as H. cbn [fst snd] in *. rewrite qdot_Z in *. set (r := zsum _) in *. set (q := Zpos (Qden (this b))). assert (Q0 : (0 < q)%Z) by (unfold q; lia).
    assert (BQ : (b * Qc_of_Z q)%Qc = Qc_of_Z (Qnum (this b))). { rewrite (qfrac_this b) at 1. rewrite qfrac_mul; [|unfold q; lia|exists 1%Z; unfold q; lia]. f_equal. unfold q. rewrite Z.div_same by lia. lia. }
    assert (Z0 : (r * q - Qnum (this b) * size)%Z = 0%Z).
    { apply qabs_lt_Z. replace (Qc_of_Z (r * q - Qnum (this b) * size)) with ((Qc_of_Z r - b * Qc_of_Z size) * Qc_of_Z q)%Qc.
      - rewrite qabs_mul_pos by (apply Qc_of_Z_pos; auto). apply Qcle_lt_trans with (num_tol * Qc_of_Z size * Qc_of_Z q)%Qc; [apply Qcmult_le_compat_r; auto; apply Qclt_le_weak, Qc_of_Z_pos; auto|]. rewrite <- Qcmult_assoc, <- Qc_of_Z_mul. assert (QM : (size * q < 1000000)%Z) by (specialize (HM b (in_combine_r _ _ _ _ Hp)); fold q in HM; nia).
        apply Qcnot_le_lt. intros C. assert (D : (Qc_of_Z 1000000 <= Qc_of_Z (size * q))%Qc). { replace (Qc_of_Z 1000000) with (1 * Qc_of_Z 1000000)%Qc by ring. replace (Qc_of_Z (size * q)) with (num_tol * Qc_of_Z (size * q) * Qc_of_Z 1000000)%Qc. - apply Qcmult_le_compat_r; auto. discriminate. - replace (num_tol * Qc_of_Z (size * q) * Qc_of_Z 1000000)%Qc with ((num_tol * Qc_of_Z 1000000) * Qc_of_Z (size * q))%Qc by ring. replace (num_tol * Qc_of_Z 1000000)%Qc with 1%Qc; [ring|]. apply Qc_is_canon. reflexivity. }
        apply (proj2 (Qc_of_Z_le _ _)) in D. lia.
      - replace (r * q - Qnum (this b) * size)%Z with (r * q + (-1) * (Qnum (this b) * size))%Z by ring. rewrite Qc_of_Z_add, !Qc_of_Z_mul, <- BQ. change (Qc_of_Z (-1)) with (- (1))%Qc. ring. }
    apply mul_cancel with (k := Qc_of_Z q); [apply size_pos_nz; auto|]. replace (b * Qc_of_Z size * Qc_of_Z q)%Qc with ((b * Qc_of_Z q) * Qc_of_Z size)%Qc by ring. rewrite BQ, <- !Qc_of_Z_mul. f_equal. lia.
  - constructor; auto. intros x Hx. pose proof (N x Hx) as Nx. apply in_map_iff in Hx. destruct Hx as (a & <- & _). apply (proj1 (Qc_of_Z_le 0 a)). assert (~ (a <= -1)%Z); [|lia]. intros C. apply (proj1 (Qc_of_Z_le a (-1))) in C. apply (Qcle_trans _ _ _ Nx) in C. apply C. reflexivity.
Qed.

(** Feasible compositions are accepted as they are; rounding only needs them to be integers. *)
Theorem C45_accept oxi rank bits sizes neutral other sp eqs size n pinv leb ms : built oxi rank bits sizes neutral other sp eqs -> exact_eqs eqs -> (0 < size)%Z -> composition_ok oxi bits sizes neutral eqs size n ->
  translate pinv leb sp ms Counts Counts size false (Vec n) = Some (Vec n) /\ (integral n -> translate pinv leb sp ms Counts Counts size true (Vec n) = Some (Vec n)).
Proof.
  intros B EX HS OK. pose proof (feasible_ok B EX HS OK) as K. unfold translate, to_counts, counts_to. cbn [option_bind]. split.
  - rewrite K. cbn [negb option_bind]. auto.
  - intros [z ->]. rewrite round_all_int. cbn [option_bind]. rewrite K. cbn [negb option_bind]. rewrite round_all_int. auto.
Qed.
(** Whole numbers of species that are not a feasible composition are never translated to anything, unless the cell
    is so large that the tolerance hides the difference. *)
Theorem C45_reject_partial oxi rank bits sizes neutral other sp eqs size n M pinv leb ms to rounding : built oxi rank bits sizes neutral other sp eqs -> exact_eqs eqs -> (0 < size)%Z ->
  (forall b, In b (cs_b sp) -> Zpos (Qden (this b)) <= M)%Z -> (M * size < 1000000)%Z -> integral n -> ~ composition_ok oxi bits sizes neutral eqs size n ->
  translate pinv leb sp ms Counts to size rounding (Vec n) = None.
Proof.
  intros B EX HS HM HB I NO. unfold translate, to_counts. cbn [option_bind].
  assert (K : counts_ok sp size n = false) by (destruct (counts_ok sp size n) eqn:K; auto; exfalso; apply NO; apply (ok_feasible B EX HS HM HB I K)).
  destruct rounding; cbn [option_bind]; [destruct I as [z ->]; rewrite round_all_int; cbn [option_bind]|]; unfold counts_to; rewrite K; auto.
Qed.
(** Anything that is translated is nonnegative and meets the equations within the tolerance per primitive cell. *)
Theorem C45_tolerance oxi rank bits sizes neutral other sp eqs size n pinv leb ms to r : built oxi rank bits sizes neutral other sp eqs -> exact_eqs eqs -> (0 < size)%Z ->
  translate pinv leb sp ms Counts to size false (Vec n) = Some r -> length n = num_dims bits /\ (forall x, In x n -> - num_tol <= x)%Qc /\
  (neutral = true -> (qabs (charge_of oxi bits n) <= num_tol * Qc_of_Z size)%Qc) /\
  (forall k b s, nth_error (blocks bits n) k = Some b -> nth_error sizes k = Some s -> (qabs (qsum (snd b) - Qc_of_Z s * Qc_of_Z size) <= num_tol * Qc_of_Z size)%Qc).
Proof.
  intros B EX HS H. unfold translate, to_counts in H. cbn [option_bind] in H. unfold counts_to in H. destruct (counts_ok sp size n) eqn:K; [|discriminate]. clear H. destruct (built_rows B) as (E1 & E2 & E3 & E4 & E5 & E6). apply counts_ok_iff in K; auto. rewrite E1 in K. destruct K as (L & N & R). split; auto. split; auto.
  unfold equations in E4. destruct (opt_map (eq_row (cs_dims bits)) eqs) as [others|] eqn:EO; [|discriminate]. cbn [option_bind] in E4. apply (f_equal (fun o => match o with Some p => p | None => [] end)) in E4. rewrite <- E4 in R. split.
  - intros ->. pose proof (R (map oxi (concat bits), 0%Qc) (or_introl eq_refl)) as R0. cbn [fst snd] in R0. rewrite map_map in R0. unfold charge_of. replace (qdot _ n) with (qdot (map (fun x => Qc_of_Z (oxi x)) (concat bits)) n - 0 * Qc_of_Z size)%Qc by ring. auto.
  - intros k b s Hb Hs. destruct (nth_error bits k) as [sps|] eqn:EB.
    + destruct (@dims_at bits 0 n k sps EB) as (o & D1 & D2 & D3). change (skipn 0 n) with n in D3. rewrite Hb in D3. apply (f_equal (fun o => match o with Some p => p | None => ([], []) end)) in D3. subst b. cbn [snd].
      assert (IN : In (size_row (cs_dims bits) (seq o (length sps)), Qc_of_Z s) (map (fun p : list nat * Z => (size_row (cs_dims bits) (fst p), Qc_of_Z (snd p))) (combine (cs_dim_ids bits) sizes))).
      { apply in_map_iff. exists (seq o (length sps), s). split; auto. apply nth_error_In with k. unfold cs_dim_ids, get_dim_ids_by_sublattice. clear - D1 Hs. revert Hs D1. generalize (dim_ids_from 0 (map (length (A:=species)) bits)). revert sizes. induction k as [|k IH]; intros [|x xs] [|y ys]; cbn [nth_error combine]; intros; try discriminate; [congruence|auto]. }
      assert (IN2 := fun a c => in_or_app a _ _ (or_intror (in_or_app _ c _ (or_introl IN)))). specialize (R _ (IN2 _ _)). cbn [fst snd] in R. rewrite qdot_size_row in R; auto.
    + exfalso. assert (LB : length (blocks bits n) = length bits) by (clear; revert n; induction bits as [|x l IH]; intros n; cbn [blocks length]; auto). apply nth_error_None in EB. rewrite <- LB in EB. apply nth_error_None in EB. congruence.
Qed.

(** ** Coordinates *)
(** What [numpy.linalg.pinv] of the transpose of [vs] guarantees: [M P M = M]. *)
Definition pseudo_inverse (nd : nat) (P : list (list Qc)) (vs : list (list Z)) : Prop :=
  length P = length vs /\ forall x, length x = length vs -> span_q nd vs (map (fun row => qdot row (span_q nd vs x)) P) = span_q nd vs x.
Definition dims (sp : cspace) : nat := num_dims (cs_bits sp).
(** The rational solutions per supercell. *)
Definition meets (sp : cspace) (size : Z) (n : list Qc) : Prop := length n = dims sp /\ forall i row b, nth_error (cs_A sp) i = Some row -> nth_error (cs_b sp) i = Some b -> qdot (map Qc_of_Z row) n = (b * Qc_of_Z size)%Qc.
Lemma solves_qdot nd A b x : SnfProofs.shape (length A) nd A -> length b = length A -> (solves (length A) nd A b x <-> length x = nd /\ forall i row, nth_error A i = Some row -> qdot (map Qc_of_Z row) (map Qc_of_Z x) = Qc_of_Z (nth i b 0%Z)).
Proof.
  intros [_ HA] Lb. unfold solves. assert (G : forall i row, nth_error A i = Some row -> qdot (map Qc_of_Z row) (map Qc_of_Z x) = Qc_of_Z (sum nd (fun j => get A i j * nth j x 0)%Z)).
  { intros i row E. rewrite qdot_Z. f_equal. rewrite Forall_forall in HA. rewrite (HA row) by (apply nth_error_In in E; auto). unfold sum. f_equal. apply map_ext. intros j. unfold get. rewrite (nth_error_nth _ _ _ E). auto. }
  split; intros [L H]; split; auto.
  - intros i row E. rewrite (G _ _ E). f_equal. apply H. apply nth_error_Some. congruence.
  - intros i Hi. destruct (nth_error A i) as [row|] eqn:E; [|apply nth_error_None in E; lia]. specialize (H i row E). rewrite (G _ _ E) in H. apply Qc_of_Z_inj in H. auto.
Qed.

(** The integer solutions at the least size with whole right sides are found, all of them. *)
Definition regular (sp : cspace) : Prop := forall ints m, integerize (cs_b sp) = Some (ints, m) -> solved_whole (length (cs_A sp)) (dims sp) (cs_A sp) ints.
Definition well_shaped (sp : cspace) : Prop := length (cs_A sp) = length (cs_b sp) /\ (forall r, In r (cs_A sp) -> length r = dims sp).
Lemma shaped sp : well_shaped sp -> SnfProofs.shape (length (cs_A sp)) (dims sp) (cs_A sp).
Proof. intros [_ H]. split; auto. apply Forall_forall. auto. Qed.
Lemma app_inv_length {A} (a b c d : list A) : a ++ b = c ++ d -> length a = length c -> a = c /\ b = d.
Proof. revert c. induction a as [|x a IH]; intros [|y c] H L; try discriminate; auto. cbn [app] in H. injection H as <- H. destruct (IH c H) as [-> ->]; auto. Qed.
Lemma nth_map_seq_q (f : nat -> Qc) k r : r < k -> nth r (map f (seq 0 k)) 0%Qc = f r.
Proof. intros H. rewrite (nth_indep _ 0%Qc (f 0)) by (rewrite map_length, seq_length; auto). rewrite map_nth, seq_nth by auto. auto. Qed.
Lemma nth_map_q (f : Qc -> Qc) l i : i < length l -> nth i (map f l) 0%Qc = f (nth i l 0%Qc).
Proof. intros H. rewrite (nth_indep _ 0%Qc (f 0%Qc)) by (rewrite map_length; auto). apply map_nth. Qed.
Lemma qdot_zeros_r r : forall l, (forall y, In y l -> y = 0%Qc) -> qdot r l = 0%Qc.
Proof. induction r as [|a r IH]; intros [|y l] H; cbn [qdot]; auto. rewrite (H y (or_introl eq_refl)), (IH l) by (intros z Hz; apply H; right; auto). ring. Qed.
Lemma solve_span sp m nm vs : well_shaped sp -> solve_at sp m = Some (nm, vs) -> solves (length (cs_A sp)) (dims sp) (cs_A sp) (map (fun b => qround (b * Qc_of_Z m)%Qc) (cs_b sp)) nm ->
  (forall v, In v vs -> length v = dims sp) /\
  (forall x, length x = length vs -> forall row, In row (cs_A sp) -> qdot (map Qc_of_Z row) (span_q (dims sp) vs x) = 0%Qc) /\
  (forall x x', length x = length vs -> length x' = length vs -> span_q (dims sp) vs x = span_q (dims sp) vs x' -> x = x').
Proof.
  intros W H HS. unfold solve_at in H. change (cs_dims (cs_bits sp)) with (dims sp) in H. set (b := map (fun b => qround (b * Qc_of_Z m)%Qc) (cs_b sp)) in *. assert (Lb : length b = length (cs_A sp)) by (unfold b; rewrite map_length; symmetry; apply W).
  destruct (C42_sound (shaped W) Lb H (ex_intro _ _ HS)) as (_ & K & _ & U). rewrite Forall_forall in K. assert (LV : forall v, In v vs -> length v = dims sp) by (intros v Hv; apply (K v Hv)). split; auto. split.
  - intros x L row Hr. assert (V0 : forall v, In v vs -> qdot (map Qc_of_Z row) (map Qc_of_Z v) = 0%Qc).
    { intros v Hv. apply In_nth_error in Hr. destruct Hr as [i Hi]. destruct (proj1 (@solves_qdot _ _ _ v (shaped W) (repeat_length 0%Z _)) (K v Hv)) as [_ Q]. rewrite (Q _ _ Hi). rewrite nth_repeat. auto. }
    pose proof (proj2 W row Hr) as LR. clear - V0 LV LR. unfold span_q. revert x. induction vs as [|v vs IH]; intros x.
    + apply qdot_zeros_r. intros y Hy. apply in_map_iff in Hy. destruct Hy as (i & <- & _). destruct x; auto.
    + destruct x as [|c x]; [apply qdot_zeros_r; intros y Hy; apply in_map_iff in Hy; destruct Hy as (i & <- & _); auto|].
      cbn [combine map qsum fst snd].
      assert (SP : forall (f g : nat -> Qc) l r, qdot r (map (fun i => f i + g i)%Qc l) = (qdot r (map f l) + qdot r (map g l))%Qc). { clear. intros f g l. induction l as [|i l IH]; intros [|a r]; cbn [map qdot]; try ring. rewrite IH. ring. }
      rewrite SP, IH by (intros; try apply V0; try apply LV; right; auto). replace (map (fun i => (c * Qc_of_Z (nth i v 0%Z))%Qc) (seq 0 (dims sp))) with (map (fun y => (y * c)%Qc) (map Qc_of_Z v)).
      * rewrite qdot_scale_r, V0 by (left; auto). ring.
      * rewrite <- (LV v (or_introl eq_refl)). clear. rewrite map_map. induction v as [|z v IH]; cbn [length seq map nth]; auto. rewrite <- seq_shift, map_map. rewrite IH. f_equal. ring.
  - intros x x' L L' E. destruct (common_den (x ++ x')) as (D & z & PD & EZ). rewrite map_app in EZ. set (co := firstn (length x) z). set (co' := skipn (length x) z). assert (LZ : length z = length x + length x') by (apply (f_equal (@length Qc)) in EZ; rewrite app_length, !map_length in EZ; auto).
    rewrite <- (firstn_skipn (length x) z), map_app in EZ. fold co co' in EZ. assert (LC : length co = length x) by (unfold co; rewrite firstn_length; lia). assert (LC' : length co' = length x') by (unfold co'; rewrite skipn_length; lia).
    apply app_inv_length in EZ as [E1 E2]; [|rewrite !map_length; auto].
    assert (CE : co = co').
    { apply U; try congruence. unfold combine_with. apply map_ext_in. intros r Hr. f_equal. apply Qc_of_Z_inj. assert (SE : span_q (dims sp) vs (map Qc_of_Z co) = span_q (dims sp) vs (map Qc_of_Z co')) by (rewrite E1, E2, !span_scale, E; auto).
      rewrite !span_Z in SE by (auto; congruence). apply in_seq in Hr. apply (f_equal (fun l => nth r l 0%Qc)) in SE. rewrite !(nth_map_seq_q) in SE by lia. auto. }
    apply nth_ext with 0%Qc 0%Qc; [congruence|]. intros i Hi. apply mul_cancel with (k := Qc_of_Z D); [apply size_pos_nz; auto|]. rewrite CE in E1. rewrite E1 in E2. apply (f_equal (fun l => nth i l 0%Qc)) in E2. rewrite !(nth_map_q (fun x => (x * Qc_of_Z D)%Qc)) in E2 by congruence. auto.
Qed.
Lemma nth_zadd a : forall b i, length a = length b -> nth i (map (fun p => (fst p + snd p)%Z) (combine a b)) 0%Z = (nth i a 0 + nth i b 0)%Z.
Proof. induction a as [|x a IH]; intros [|y b] i H; try discriminate; cbn [combine map]; destruct i; cbn [nth fst snd]; auto. Qed.
Definition kernel (sp : cspace) (w : list Qc) : Prop := length w = dims sp /\ forall row, In row (cs_A sp) -> qdot (map Qc_of_Z row) w = 0%Qc.
Lemma base_facts sp size n0 ms vs : well_shaped sp -> exact_rhs sp -> regular sp -> (0 < size)%Z -> base_solution sp size = Some n0 -> basis sp ms = Some vs ->
  length n0 = dims sp /\ meets sp size (map Qc_of_Z n0) /\
  (forall x, length x = length vs -> kernel sp (span_q (dims sp) vs x)) /\
  (forall x x', length x = length vs -> length x' = length vs -> span_q (dims sp) vs x = span_q (dims sp) vs x' -> x = x') /\
  (forall z, kernel sp (map Qc_of_Z z) -> exists co, length co = length vs /\ map Qc_of_Z z = span_q (dims sp) vs (map Qc_of_Z co)) /\
  (forall w, kernel sp w -> exists x, length x = length vs /\ w = span_q (dims sp) vs x).
Proof.
  intros W EX RG HS HB HV. unfold base_solution in HB. destruct (integerize (cs_b sp)) as [[ints m]|] eqn:EI; [|discriminate]. cbn [option_bind] in HB.
  assert (NE : cs_b sp <> []) by (intros C; rewrite C in EI; discriminate). destruct (@C78_exact max_den num_tol (cs_b sp)) as (ints' & m' & E & P & Q & _); auto; [unfold max_den; lia|discriminate|]. unfold integerize in EI. rewrite EI in E. injection E as <- <-.
  destruct (Z.eqb_spec (size mod m) 0) as [DV|]; [|discriminate]. cbn [negb] in HB. destruct (solve_at sp m) as [[nm vs']|] eqn:ES; [|discriminate]. cbn [option_bind] in HB. injection HB as <-.
  assert (RI : map (fun b => qround (b * Qc_of_Z m)%Qc) (cs_b sp) = ints).
  { rewrite <- (map_map (fun x => (x * Qc_of_Z m)%Qc) qround), <- Q, map_map. rewrite (map_ext _ (fun x => x)) by (intros; apply qround_int). apply map_id. }
  pose proof ES as ES'. unfold solve_at in ES'. change (cs_dims (cs_bits sp)) with (dims sp) in ES'. rewrite RI in ES'. destruct (RG _ _ EI _ _ ES') as [SN ALL]. assert (LI : length ints = length (cs_A sp)) by (rewrite <- RI, map_length; symmetry; apply W).
  assert (VV : vs' = vs). { unfold basis in HV. destruct (solve_at sp ms) as [[nn vv]|] eqn:E2; [|discriminate]. cbn [option_bind] in HV. injection HV as ->. apply (solver_basis ES E2). } subst vs'.
  destruct (solve_span W ES) as (LV & K1 & K2); [rewrite RI; auto|].
  assert (LN : length nm = dims sp) by apply SN. destruct (proj1 (@solves_qdot _ _ _ nm (shaped W) LI) SN) as [_ SQ].
  assert (KZ : forall z, kernel sp (map Qc_of_Z z) -> exists co, length co = length vs /\ map Qc_of_Z z = span_q (dims sp) vs (map Qc_of_Z co)).
  { intros z [L K]. rewrite map_length in L. set (v := map (fun p => (fst p + snd p)%Z) (combine nm z)). assert (LVv : length v = dims sp) by (unfold v; rewrite map_length, combine_length; lia).
    assert (VN : map Qc_of_Z v = map (fun p => (fst p + snd p)%Qc) (combine (map Qc_of_Z nm) (map Qc_of_Z z))). { unfold v. clear. revert z. induction nm as [|a nm IH]; intros [|c z]; cbn [combine map fst snd]; auto. rewrite IH, Qc_of_Z_add. auto. }
    destruct (ALL v) as (co & LC & EC).
    - apply (proj2 (@solves_qdot _ _ _ v (shaped W) LI)). split; auto. intros i row Hi. rewrite VN. rewrite <- (SQ _ _ Hi).
      assert (AD : forall r a c, length a = length c -> qdot r (map (fun p => (fst p + snd p)%Qc) (combine a c)) = (qdot r a + qdot r c)%Qc). { clear. intros r. induction r as [|x r IH]; intros [|a aa] [|c cc] H; try discriminate; cbn [combine map qdot fst snd]; try ring. rewrite IH by (simpl in H; lia). ring. }
      rewrite AD by (rewrite !map_length; lia). rewrite (K row) by (apply nth_error_In in Hi; auto). ring.
    - exists co. split; auto. rewrite span_Z by auto. apply nth_ext with 0%Qc 0%Qc; [rewrite !map_length, seq_length; auto|]. intros i Hi. rewrite map_length in Hi. rewrite nth_map_seq_q by lia. change 0%Qc with (Qc_of_Z 0). rewrite map_nth. f_equal.
      apply (f_equal (fun l => nth i l 0%Z)) in EC. unfold combine_with in EC. rewrite nth_map_seq in EC by lia. unfold v in EC. rewrite nth_zadd in EC by lia. lia. }
  assert (MZ : map Qc_of_Z (map (fun x => (x * size / m)%Z) nm) = map (fun x => x * (Qc_of_Z size / Qc_of_Z m))%Qc (map Qc_of_Z nm)).
  { rewrite !map_map. apply map_ext. intros a. apply Z.mod_divide in DV; [|lia]. destruct DV as [k ->]. replace (a * (k * m))%Z with (a * k * m)%Z by ring. rewrite Z.div_mul by lia. rewrite !Qc_of_Z_mul. field. apply size_pos_nz; auto. }
  split; [rewrite map_length; auto|]. split; [|split; [|split; [exact K2|split; [exact KZ|]]]].
  - split; [rewrite !map_length; auto|]. intros i row b Hi Hb. rewrite MZ, qdot_scale_r, (SQ _ _ Hi).
    assert (IB : Qc_of_Z (nth i ints 0%Z) = (b * Qc_of_Z m)%Qc). { rewrite <- (map_nth Qc_of_Z). rewrite Q. change (Qc_of_Z 0) with ((fun x => x * Qc_of_Z m)%Qc 0%Qc) || (rewrite (nth_indep _ _ 0%Qc) by (rewrite map_length; apply nth_error_Some; congruence)). rewrite nth_map_q by (apply nth_error_Some; congruence). rewrite (nth_error_nth _ _ _ Hb). auto. }
    rewrite IB. field. apply size_pos_nz; auto.
  - intros x L. split; [apply span_length|]. intros row Hr. apply K1; auto.
  - intros w [L K]. destruct (common_den w) as (D & z & PD & EZ). destruct (KZ z) as (co & LC & EC).
    + split; [rewrite EZ, map_length; auto|]. intros row Hr. rewrite EZ, qdot_scale_r, K by auto. ring.
    + exists (map (fun x => x * / Qc_of_Z D)%Qc (map Qc_of_Z co)). split; [rewrite !map_length; auto|]. rewrite span_scale, <- EC, EZ, map_map. rewrite <- (map_id w) at 1. apply map_ext. intros a. field. apply size_pos_nz; auto.
Qed.
Lemma meets_iff oxi rank bits sizes neutral other sp eqs size n : built oxi rank bits sizes neutral other sp eqs -> exact_eqs eqs -> (0 < size)%Z -> composition_ok oxi bits sizes neutral eqs size n -> meets sp size n.
Proof.
  intros B EX HS OK. destruct (built_rows B) as (E1 & E2 & E3 & E4 & E5 & E6). split; [unfold dims; rewrite E1; apply (co_length OK)|]. intros i row b Hi Hb.
  apply (proj2 (equations_iff HS EX E4 (co_length OK))) with (p := (row, b)); [split; [apply (co_neutral OK)|split; [apply (co_sizes OK)|apply (co_eqs OK)]]|].
  apply nth_error_In with i. clear - Hi Hb. revert i Hi Hb. generalize (cs_b sp). induction (cs_A sp) as [|a A IH]; intros [|c l] [|i]; cbn [nth_error combine]; intros; try discriminate; [congruence|auto].
Qed.
Lemma left_inverse_of nd P vs : (forall x x', length x = length vs -> length x' = length vs -> span_q nd vs x = span_q nd vs x' -> x = x') -> pseudo_inverse nd P vs -> left_inverse nd P vs.
Proof. intros U [L H] x Lx. apply U; auto. rewrite map_length; auto. Qed.
Lemma built_shaped oxi rank bits sizes neutral other sp eqs : built oxi rank bits sizes neutral other sp eqs -> well_shaped sp.
Proof. intros B. destruct (built_rows B) as (E1 & E2 & E3 & E4 & E5 & E6). split; auto. unfold dims. rewrite E1. auto. Qed.
(** Translation to coordinates and back is the identity in both directions, for fractional compositions too, and whole
    compositions have whole coordinates. *)
Theorem C45_coordinates_partial oxi rank bits sizes neutral other sp eqs size n0 ms vs pinv leb : built oxi rank bits sizes neutral other sp eqs -> exact_eqs eqs -> exact_rhs sp -> regular sp -> (0 < size)%Z ->
  base_solution sp size = Some n0 -> basis sp ms = Some vs -> pseudo_inverse (num_dims bits) (pinv vs) vs ->
  (forall n, composition_ok oxi bits sizes neutral eqs size n -> exists x, length x = length vs /\
     translate pinv leb sp ms Counts Coords size false (Vec n) = Some (Vec x) /\ translate pinv leb sp ms Coords Counts size false (Vec x) = Some (Vec n) /\
     (integral n -> integral x /\ translate pinv leb sp ms Counts Coords size true (Vec n) = Some (Vec x) /\ translate pinv leb sp ms Coords Counts size true (Vec x) = Some (Vec n))) /\
  (forall x n, translate pinv leb sp ms Coords Counts size false (Vec x) = Some (Vec n) -> length x = length vs /\ translate pinv leb sp ms Counts Coords size false (Vec n) = Some (Vec x)).
Proof.
  intros B EX ER RG HS HB HV HP. pose proof (built_shaped B) as W. destruct (built_rows B) as (E1 & _). destruct (base_facts W ER RG HS HB HV) as (L0 & M0 & KS & U & KZ & KQ).
  assert (DD : cs_dims (cs_bits sp) = dims sp) by auto. assert (DB : dims sp = num_dims bits) by (unfold dims; rewrite E1; auto). rewrite <- DB in HP. pose proof (left_inverse_of U HP) as LI.
  assert (LSP : forall x, length (span_q (dims sp) vs x) = length (map Qc_of_Z n0)) by (intros; rewrite span_length, map_length; auto).
  split.
  - intros n OK. pose proof (feasible_ok B EX HS OK) as K. destruct (meets_iff B EX HS OK) as [LN MN].
    assert (KD : kernel sp (qmap2 Qcminus n (map Qc_of_Z n0))).
    { split; [rewrite qmap2_length; auto; rewrite map_length; congruence|]. intros row Hr. apply In_nth_error in Hr. destruct Hr as [i Hi]. destruct (nth_error (cs_b sp) i) as [b|] eqn:Hb; [|apply nth_error_None in Hb; rewrite <- (proj1 W) in Hb; apply nth_error_None in Hb; congruence].
      rewrite qdot_sub by (rewrite map_length; congruence). rewrite (MN _ _ _ Hi Hb), (proj2 M0 _ _ _ Hi Hb). ring. }
    destruct (KQ _ KD) as (x & LX & EXS). assert (NB : qmap2 Qcplus (span_q (dims sp) vs x) (map Qc_of_Z n0) = n) by (rewrite <- EXS; apply qmap2_sub_add; rewrite map_length; congruence).
    assert (PX : map (fun row => qdot row (qmap2 Qcminus n (map Qc_of_Z n0))) (pinv vs) = x) by (rewrite EXS; apply LI; auto).
    assert (FC : from_coords (cs_dims (cs_bits sp)) vs n0 x = Some n) by (rewrite DD, from_coords_span by auto; rewrite NB; auto).
    exists x. split; auto. unfold translate, to_counts, counts_to. rewrite HB, HV. cbn [option_bind]. rewrite FC. cbn [option_bind]. rewrite K. cbn [negb option_bind]. rewrite PX. split; auto. split; auto.
    intros [z ->]. assert (IX : integral x).
    { destruct (KZ (map (fun p => (fst p - snd p)%Z) (combine z n0))) as (co & LC & EC).
      - replace (map Qc_of_Z (map (fun p => (fst p - snd p)%Z) (combine z n0))) with (qmap2 Qcminus (map Qc_of_Z z) (map Qc_of_Z n0)); auto. unfold qmap2. clear. revert n0. induction z as [|a z IH]; intros [|c l]; cbn [map combine fst snd]; auto. rewrite IH. f_equal. unfold Z.sub. rewrite Qc_of_Z_add, Qc_of_Z_opp. auto.
      - exists co. apply U; auto; [rewrite map_length; auto|]. rewrite <- EC, <- EXS. unfold qmap2. clear. revert n0. induction z as [|a z IH]; intros [|c l]; cbn [map combine fst snd]; auto. rewrite IH. f_equal. unfold Z.sub. rewrite Qc_of_Z_add, Qc_of_Z_opp. auto. }
    split; auto. rewrite round_all_int. cbn [option_bind]. rewrite K. cbn [negb option_bind]. rewrite PX. destruct IX as [c ->]. rewrite !round_all_int. cbn [option_bind]. auto.
  - intros x n H. unfold translate, to_counts, counts_to in *. rewrite HB, HV in *. cbn [option_bind] in *. destruct (from_coords (cs_dims (cs_bits sp)) vs n0 x) as [n'|] eqn:FC; [|discriminate]. cbn [option_bind] in H. destruct (counts_ok sp size n') eqn:K; [|discriminate]. cbn [negb option_bind] in H.
    assert (NN : n' = n) by (apply (f_equal (fun o => match o with Some (Vec v) => v | _ => [] end)) in H; auto). subst n'. rewrite K. cbn [negb]. pose proof FC as FC'. unfold from_coords in FC'. destruct (Nat.eqb_spec (length x) (length vs)) as [LX|]; [|discriminate]. clear FC'. split; auto.
    rewrite DD, from_coords_span in FC by auto. assert (EN : qmap2 Qcplus (span_q (dims sp) vs x) (map Qc_of_Z n0) = n) by (apply (f_equal (fun o => match o with Some v => v | _ => [] end)) in FC; auto). rewrite <- EN, qmap2_add_sub by auto. rewrite LI by auto. auto.
Qed.
(** Which spaces are regular: no equation is a consequence of the others, or one is and the least size is feasible. *)
Theorem C45_regular oxi rank bits sizes neutral other sp eqs : built oxi rank bits sizes neutral other sp eqs ->
  independent_rows (length (cs_A sp)) (num_dims bits) (cs_A sp) \/
  (exists st, compute_snf (length (cs_A sp)) (num_dims bits) (cs_A sp) = Some st /\
     (forall i j, i < Nat.min (length (cs_A sp)) (num_dims bits) -> j < Nat.min (length (cs_A sp)) (num_dims bits) -> get (st_m st) i i = 0%Z -> get (st_m st) j j = 0%Z -> i = j) /\
     (forall ints m, integerize (cs_b sp) = Some (ints, m) -> exists v, solves (length (cs_A sp)) (num_dims bits) (cs_A sp) ints v)) -> regular sp.
Proof.
  intros B H ints m E. pose proof (built_shaped B) as W. destruct (built_rows B) as (E1 & _). assert (DB : dims sp = num_dims bits) by (unfold dims; rewrite E1; auto).
  assert (LI : length ints = length (cs_A sp)). { unfold integerize, integerize_vector in E. destruct (opt_map _ _) as [fs|]; [|discriminate]. cbn [option_bind] in E. destruct fs; [discriminate|]. injection E as <- _. rewrite map_length. symmetry. apply W. }
  destruct H as [I | (st & HS & HZ & HE)].
  - apply whole_independent; auto; [apply shaped; auto|rewrite DB; auto].
  - apply whole_one_zero with (x := st); auto; [apply shaped; auto|rewrite DB; auto|rewrite DB; auto|]. rewrite DB. eauto.
Qed.

(** ** Compositions of the sublattices *)
Definition entry_of (sp : species) (c : list (species * Qc)) : Qc := qsum (map (fun p => if sp_eqb (fst p) sp then snd p else 0%Qc) c).
Lemma comp_get_entry c sp : NoDup (map fst c) -> comp_get c sp = entry_of sp c.
Proof.
  unfold comp_get, entry_of. induction c as [|[k v] c IH]; intros ND; [auto|]. cbn [map fst] in ND. inversion ND as [|? ? N1 N2]; subst. cbn [find map qsum fst snd]. destruct (sp_eqb k sp) eqn:E.
  - apply sp_eqb_eq in E. subst k. cbn [snd]. replace (qsum _) with 0%Qc; [ring|]. symmetry. clear - N1. induction c as [|[k w] c IH]; auto. cbn [map qsum fst snd] in *. destruct (sp_eqb k sp) eqn:E; [apply sp_eqb_eq in E; subst; exfalso; apply N1; left; auto|]. rewrite IH; [ring|]. intros C. apply N1. right. auto.
  - rewrite IH by auto. ring.
Qed.
Lemma entry_filter f sp c : (forall p, In p c -> f p = false -> fst p = sp -> snd p = 0%Qc) -> entry_of sp (filter f c) = entry_of sp c.
Proof.
  unfold entry_of. induction c as [|p c IH]; intros H; auto. cbn [filter map qsum]. rewrite <- IH by (intros; apply H; simpl; auto). destruct (f p) eqn:F; cbn [map qsum]; auto. destruct (sp_eqb (fst p) sp) eqn:E; [|ring]. apply sp_eqb_eq in E. rewrite (H p (or_introl eq_refl) F E). ring.
Qed.
Lemma NoDup_filter_fst {A B} (f : A * B -> bool) c : NoDup (map fst c) -> NoDup (map fst (filter f c)).
Proof. induction c as [|p c IH]; intros ND; auto. cbn [map] in ND. inversion ND as [|? ? N1 N2]; subst. cbn [filter]. destruct (f p); auto. cbn [map]. constructor; auto. intros C. apply N1. apply in_map_iff in C. destruct C as (q & <- & Hq). apply filter_In in Hq. apply in_map, Hq. Qed.
Lemma map_fst_combine {A B} (a : list A) : forall (b : list B), length a = length b -> map fst (combine a b) = a.
Proof. induction a as [|x a IH]; intros [|y b] H; try discriminate; cbn [combine map fst]; auto. rewrite IH; auto. Qed.
Lemma atoms_filter f c : (forall p, In p c -> f p = false -> snd p = 0%Qc) -> num_atoms (filter f c) = num_atoms c.
Proof. unfold num_atoms. induction c as [|p c IH]; intros H; auto. cbn [filter map qsum]. rewrite <- IH by (intros; apply H; simpl; auto). destruct (f p) eqn:F; cbn [map qsum]; auto. rewrite (H p (or_introl eq_refl) F). ring. Qed.
Lemma atoms_novac c : num_atoms c = (num_atoms (filter (fun p => negb (is_vac (fst p))) c) + entry_of Vac c)%Qc.
Proof.
  unfold num_atoms, entry_of. induction c as [|[k v] c IH]; [reflexivity|]. cbn [filter map qsum fst snd]. rewrite IH. destruct k; cbn [is_vac negb sp_eqb map qsum snd]; ring.
Qed.
Definition count_in (c : composition) (S : Qc) (sp : species) : Qc := if is_vac sp then ((1 - num_atoms (filter (fun p => negb (is_vac (fst p))) c)) * S)%Qc else (comp_get c sp * S)%Qc.
Lemma sublattice_counts_ok c S sps : NoDup sps -> forall vc, (vc = true -> ~ In Vac sps) -> sublattice_counts c S vc sps = Some (map (count_in c S) sps).
Proof.
  induction sps as [|sp sps IH]; intros ND vc HV; auto. inversion ND as [|? ? N1 N2]; subst. cbn [sublattice_counts map]. unfold count_in at 1. destruct (is_vac sp) eqn:E.
  - destruct sp; [discriminate|]. destruct vc; [exfalso; apply HV; simpl; auto|]. rewrite IH by auto. auto.
  - rewrite IH; auto. intros -> C. apply HV; simpl; auto.
Qed.
Lemma amount_scale sp sps k xs : amount_in sp (sps, map (fun x => x * k)%Qc xs) = (amount_in sp (sps, xs) * k)%Qc.
Proof. unfold amount_in. cbn [fst snd]. revert xs. induction sps as [|s sps IH]; intros [|x xs]; cbn [combine map qsum fst snd]; try ring. rewrite IH. destruct (sp_eqb s sp); ring. Qed.
Lemma qsum_scale k xs : qsum (map (fun x => x * k)%Qc xs) = (qsum xs * k)%Qc.
Proof. induction xs as [|x xs IH]; cbn [map qsum]; [ring|]. rewrite IH. ring. Qed.
Lemma map_snd_combine {A B} (a : list A) : forall (b : list B), length a = length b -> map snd (combine a b) = b.
Proof. induction a as [|x a IH]; intros [|y b] H; try discriminate; cbn [combine map snd]; auto. rewrite IH; auto. Qed.
Lemma amount_at sps xs j : NoDup sps -> length xs = length sps -> j < length sps -> amount_in (nth j sps Vac) (sps, xs) = nth j xs 0%Qc.
Proof.
  intros ND L H. apply amount_nth; auto. destruct (sp_index (nth j sps Vac) sps) as [i|] eqn:E; [|apply sp_index_none in E; exfalso; apply E, nth_In; auto]. pose proof (sp_index_lt E) as LT. apply sp_index_some in E. f_equal. apply (proj1 (NoDup_nth sps Vac) ND); auto. apply nth_error_nth with (d := Vac) in E. auto.
Qed.
Definition visible (S x : Qc) : Prop := x = 0%Qc \/ (amount_tol <= x / S)%Qc.
Lemma block_ok S sps xs : NoDup sps -> length xs = length sps -> (0 < S)%Qc -> (forall x, In x xs -> 0 <= x)%Qc -> (forall x, In x xs -> visible S x) -> qsum xs = S ->
  exists c, make_composition (filter (fun p => negb (is_vac (fst p))) (combine sps (map (fun x => x / S)%Qc xs))) = Some c /\ (0 <= num_atoms c <= 1)%Qc /\ map (count_in c S) sps = xs /\
    (forall sp, is_vac sp = false -> comp_get c sp = (amount_in sp (sps, xs) / S)%Qc).
Proof.
  intros ND L HS NN VI SM. set (ys := map (fun x => x / S)%Qc xs). assert (LY : length sps = length ys) by (unfold ys; rewrite map_length; auto). set (l := filter _ _).
  assert (S0 : S <> 0%Qc) by (intros C; rewrite C in HS; discriminate). assert (IS : (0 <= / S)%Qc). { destruct (Qclt_le_dec (/ S) 0) as [C|C]; auto. exfalso. assert (S * / S = 1)%Qc by (field; auto). clear - C HS H. qcnra. }
  assert (PY : forall p, In p l -> (0 <= snd p)%Qc /\ (snd p = 0%Qc \/ (amount_tol <= snd p)%Qc)).
  { intros [k y] Hp. apply filter_In in Hp. destruct Hp as [Hp _]. apply in_combine_r in Hp. unfold ys in Hp. apply in_map_iff in Hp. destruct Hp as (x & <- & Hx). cbn [snd]. split; [unfold Qcdiv; pose proof (NN x Hx); clear - H IS; qcnra|]. destruct (VI x Hx) as [-> | V]; [left; unfold Qcdiv; ring|right; auto]. }
  assert (QA : forall y, (0 <= y)%Qc -> qabs y = y). { intros y H. unfold qabs. destruct (Qcltb_spec y 0) as [C|]; auto. exfalso. apply (Qclt_not_le _ _ C H). }
  unfold make_composition. replace (existsb _ l) with false.
  2:{ symmetry. apply not_true_iff_false. rewrite existsb_exists. intros (p & Hp & C). destruct (Qcltb_spec (snd p) (- amount_tol)) as [B|]; [|discriminate]. apply (Qclt_not_le _ _ B). apply Qcle_trans with 0%Qc; [discriminate|apply PY; auto]. }
  set (c := filter _ l). exists c. split; auto.
  assert (FZ : forall p, In p l -> Qcleb amount_tol (qabs (snd p)) = false -> snd p = 0%Qc). { intros p Hp F. destruct (PY p Hp) as [N [Z | V]]; auto. rewrite QA in F by auto. destruct (Qcleb_spec amount_tol (snd p)); [discriminate|contradiction]. }
  assert (NA : num_atoms c = (1 - amount_in Vac (sps, xs) / S)%Qc).
  { unfold c. rewrite atoms_filter by auto. pose proof (atoms_novac (combine sps ys)) as AN. fold l in AN. unfold num_atoms at 1 in AN. rewrite map_snd_combine in AN by auto. change (entry_of Vac (combine sps ys)) with (amount_in Vac (sps, ys)) in AN. unfold ys, Qcdiv in AN. rewrite qsum_scale, amount_scale, SM in AN. unfold Qcdiv. replace (S * / S)%Qc with 1%Qc in AN by (field; auto). rewrite AN. ring. }
  assert (AV : (0 <= amount_in Vac (sps, xs))%Qc /\ (amount_in Vac (sps, xs) <= S)%Qc).
  { rewrite <- SM. clear - NN L. unfold amount_in. cbn [fst snd]. revert xs L NN. induction sps as [|s sps IH]; intros [|x xs] L NN; try discriminate; cbn [combine map qsum fst snd]; [split; apply Qcle_refl|]. destruct (IH xs) as [I1 I2]; [simpl in L; lia|intros; apply NN; right; auto|]. pose proof (NN x (or_introl eq_refl)) as N0. destruct (sp_eqb s Vac); split; qclra. }
  assert (NC : NoDup (map fst c)) by (unfold c, l; apply NoDup_filter_fst, NoDup_filter_fst; rewrite map_fst_combine by auto; auto).
  assert (CG : forall sp, is_vac sp = false -> comp_get c sp = (amount_in sp (sps, xs) / S)%Qc).
  { intros sp E. rewrite comp_get_entry by auto. unfold c. rewrite entry_filter by auto. unfold l. rewrite entry_filter. - change (amount_in sp (sps, ys) = (amount_in sp (sps, xs) / S)%Qc). unfold ys. apply amount_scale. - intros p _ F <-. rewrite E in F. discriminate. }
  split.
  { rewrite NA. unfold Qcdiv. destruct AV as [A1 A2]. assert (A2' : (amount_in Vac (sps, xs) * / S <= 1)%Qc) by (replace 1%Qc with (S * / S)%Qc by (field; auto); apply Qcmult_le_compat_r; auto). assert (A1' : (0 <= amount_in Vac (sps, xs) * / S)%Qc) by (replace 0%Qc with (0 * / S)%Qc by ring; apply Qcmult_le_compat_r; auto). split; qclra. }
  split; [|exact CG]. apply nth_ext with 0%Qc 0%Qc; [rewrite map_length; auto|]. intros j Hj. rewrite map_length in Hj. rewrite (nth_indep _ 0%Qc (count_in c S Vac)) by (rewrite map_length; auto). rewrite map_nth. unfold count_in. destruct (is_vac (nth j sps Vac)) eqn:EV.
  - replace (filter (fun p => negb (is_vac (fst p))) c) with c.
    + rewrite NA. replace (amount_in Vac (sps, xs)) with (nth j xs 0%Qc); [field; auto|]. symmetry. rewrite <- (amount_at ND L Hj). destruct (nth j sps Vac); [discriminate|auto].
    + unfold c, l. clear. induction (combine sps ys) as [|p q IH]; auto. cbn [filter]. destruct (negb (is_vac (fst p))) eqn:N; auto. cbn [filter]. destruct (Qcleb amount_tol (qabs (snd p))); auto. cbn [filter]. rewrite N. f_equal. auto.
  - rewrite CG by auto. rewrite amount_at by auto. field; auto.
Qed.
(** Each sublattice is filled and every nonzero fraction is large enough for a [Composition] to keep. *)
Definition kept (bits : list (list species)) (sizes : list Z) (size : Z) (n : list Qc) : Prop :=
  forall k b s, nth_error (blocks bits n) k = Some b -> nth_error sizes k = Some s -> forall x, In x (snd b) -> visible (Qc_of_Z s * Qc_of_Z size)%Qc x.
Lemma opt_map_dims (n : list Qc) : forall o len, o + len <= length n -> opt_map (nth_error n) (seq o len) = Some (firstn len (skipn o n)).
Proof.
  intros o len. revert o. induction len as [|len IH]; intros o H; auto. cbn [seq opt_map]. destruct (nth_error n o) as [x|] eqn:E; [|apply nth_error_None in E; lia]. cbn [option_bind]. rewrite IH by lia. cbn [option_bind]. f_equal. 
  assert (SK : skipn o n = x :: skipn (S o) n). { clear - E. revert o E. induction n as [|y n IH]; intros [|o] E; try discriminate; cbn [skipn nth_error] in *; [congruence|rewrite (IH o E); auto]. }
  rewrite SK. auto.
Qed.
Lemma in_firstn {A} (x : A) k l : In x (firstn k l) -> In x l.
Proof. revert l. induction k as [|k IH]; intros [|y l] H; cbn [firstn] in H; auto; [destruct H|]. destruct H as [-> | H]; [left|right]; auto. Qed.
Lemma in_skipn {A} (x : A) k l : In x (skipn k l) -> In x l.
Proof. revert l. induction k as [|k IH]; intros [|y l] H; cbn [skipn] in H; auto. right. auto. Qed.
(** The composition of sublattice [k] lists the fraction of each species. *)
Definition fractions_of (bits : list (list species)) (sizes : list Z) (size : Z) (n : list Qc) (cs : list composition) : Prop :=
  length cs = length bits /\ forall k c b s, nth_error cs k = Some c -> nth_error (blocks bits n) k = Some b -> nth_error sizes k = Some s ->
    forall sp, is_vac sp = false -> comp_get c sp = (amount_in sp b / (Qc_of_Z s * Qc_of_Z size))%Qc.
Lemma comps_ok size n : (0 < size)%Z -> (forall x, In x n -> 0 <= x)%Qc -> forall bits sizes o, bits_ok bits -> length sizes = length bits -> (forall s, In s sizes -> (0 < s)%Z) -> o + num_dims bits = length n ->
  (forall k b s, nth_error (blocks bits (skipn o n)) k = Some b -> nth_error sizes k = Some s -> qsum (snd b) = (Qc_of_Z s * Qc_of_Z size)%Qc) -> kept bits sizes size (skipn o n) ->
  exists cs, comps_of bits sizes (dim_ids_from o (map (@length species) bits)) size n = Some cs /\ comp_counts bits sizes size cs = Some (skipn o n) /\ fractions_of bits sizes size (skipn o n) cs.
Proof.
  intros HS NN. induction bits as [|sps bits IH]; intros sizes o OK LS PS D SM KP; destruct sizes as [|s sizes]; try discriminate; cbn [map dim_ids_from comps_of].
  - exists []. split; auto. cbn [comp_counts]. split; [rewrite skipn_all2; auto; unfold num_dims in D; simpl in D; lia|]. split; auto. intros k c b s H. destruct k; discriminate.
  - unfold num_dims in D. cbn [map] in D. change (list_sum (length sps :: map (@length species) bits)) with (length sps + num_dims bits) in D. rewrite opt_map_dims by lia. cbn [option_bind]. set (xs := firstn (length sps) (skipn o n)).
    assert (LX : length xs = length sps) by (unfold xs; rewrite firstn_length, skipn_length; lia). set (Sz := (Qc_of_Z s * Qc_of_Z size)%Qc).
    assert (SP : (0 < Sz)%Qc) by (unfold Sz; rewrite <- Qc_of_Z_mul; apply Qc_of_Z_pos; pose proof (PS s (or_introl eq_refl)); nia).
    destruct (@block_ok Sz sps xs) as (c & MC & NA & CT & CG); auto; [apply OK; left; auto|intros x Hx; apply NN; apply in_firstn, in_skipn in Hx; auto|intros x Hx; apply (KP 0 (sps, xs) s); auto|apply (SM 0 (sps, xs) s); auto|]. rewrite MC. cbn [option_bind].
    destruct (IH sizes (o + length sps)) as (cs & CO & CC & FR); auto; [intros y Hy; apply OK; right; auto|intros y Hy; apply PS; right; auto|lia|intros k b s' Hb Hs; rewrite <- skipn_add in Hb; apply (SM (S k) b s'); auto|intros k b s' Hb Hs x Hx; rewrite <- skipn_add in Hb; apply (KP (S k) b s' Hb Hs); auto|]. rewrite CO. cbn [option_bind]. exists (c :: cs). split; auto. split.
    + cbn [comp_counts]. destruct (Qcltb_spec 1 (num_atoms c)) as [C|_]; [exfalso; apply (Qclt_not_le _ _ C); apply NA|]. destruct (Qcltb_spec (num_atoms c) 0) as [C|_]; [exfalso; apply (Qclt_not_le _ _ C); apply NA|]. cbn [orb].
      fold Sz. rewrite sublattice_counts_ok by (try apply OK; try (left; auto); discriminate). cbn [option_bind]. rewrite CC. cbn [option_bind]. rewrite CT. f_equal. unfold xs. rewrite <- (firstn_skipn (length sps) (skipn o n)) at 2. rewrite skipn_add. auto.
    + destruct FR as [FL FR]. split; [simpl; auto|]. intros k c' b s' Hc Hb Hs. destruct k as [|k]; cbn [nth_error blocks] in *.
      * injection Hc as <-. injection Hs as <-. apply (f_equal (fun o => match o with Some p => p | None => ([], []) end)) in Hb. subst b. apply CG.
      * rewrite skipn_add in Hb. apply (FR k c' b s'); auto.
Qed.
(** Counts to compositions: every fraction is the count over the size of the sublattice, and translating back
    gives the same counts. *)
Theorem C45_compositions oxi rank bits sizes neutral other sp eqs size n pinv leb ms : built oxi rank bits sizes neutral other sp eqs -> exact_eqs eqs -> (0 < size)%Z -> bits_ok bits -> (forall s, In s sizes -> (0 < s)%Z) ->
  composition_ok oxi bits sizes neutral eqs size n -> kept bits sizes size n ->
  exists cs, translate pinv leb sp ms Counts Comps size false (Vec n) = Some (CompList cs) /\ fractions_of bits sizes size n cs /\
    translate pinv leb sp ms Comps Counts size false (CompList cs) = Some (Vec n) /\
    (integral n -> translate pinv leb sp ms Counts Comps size true (Vec n) = Some (CompList cs) /\ translate pinv leb sp ms Comps Counts size true (CompList cs) = Some (Vec n)).
Proof.
  intros B EX HS BO PS OK KP. pose proof (feasible_ok B EX HS OK) as K. destruct (built_rows B) as (E1 & E2 & E3 & _).
  destruct (@comps_ok size n HS (co_nonneg OK) bits sizes 0) as (cs & CO & CC & FR); auto; [rewrite (co_length OK); auto|exact (co_sizes OK)|]. cbn [skipn] in CC, FR.
  assert (CO' : comps_of (cs_bits sp) (cs_sizes sp) (cs_dim_ids (cs_bits sp)) size n = Some cs) by (rewrite E1, E2; exact CO).
  exists cs. unfold translate, to_counts, counts_to. rewrite E1, E2 in *. cbn [option_bind]. rewrite CC, CO'. cbn [option_bind]. rewrite K. cbn [negb]. split; auto. split; auto. split; auto. intros [z ->]. rewrite round_all_int. cbn [option_bind]. rewrite K. cbn [negb option_bind]. rewrite round_all_int, CO'. auto.
Qed.
(** Compositions to counts and back: the fractions of the species of each sublattice are the same. *)
Theorem C45_fractions oxi rank bits sizes neutral other sp eqs size n cs pinv leb ms : built oxi rank bits sizes neutral other sp eqs -> exact_eqs eqs -> (0 < size)%Z -> bits_ok bits -> (forall s, In s sizes -> (0 < s)%Z) -> length cs = length bits ->
  translate pinv leb sp ms Comps Counts size false (CompList cs) = Some (Vec n) -> composition_ok oxi bits sizes neutral eqs size n -> kept bits sizes size n ->
  exists cs', translate pinv leb sp ms Counts Comps size false (Vec n) = Some (CompList cs') /\ length cs' = length cs /\
    forall k c c' sps, nth_error cs k = Some c -> nth_error cs' k = Some c' -> nth_error bits k = Some sps -> forall sp', is_vac sp' = false -> In sp' sps -> comp_get c' sp' = comp_get c sp'.
Proof.
  intros B EX HS BO PS LC TR OK KP. destruct (C45_compositions pinv leb ms B EX HS BO PS OK KP) as (cs' & T & [FL FR] & _). exists cs'. split; auto. split; [congruence|]. intros k c c' sps Hc Hc' Hs sp' V I.
  destruct (built_rows B) as (E1 & E2 & E3 & _). assert (CC : comp_counts bits sizes size cs = Some n).
  { unfold translate, to_counts in TR. rewrite E1, E2 in TR. destruct (comp_counts bits sizes size cs) as [n'|]; [|discriminate]. cbn [option_bind] in TR. unfold counts_to in TR. destruct (negb _); [discriminate|]. cbn [option_bind] in TR. apply (f_equal (fun o => match o with Some (Vec v) => v | _ => [] end)) in TR. congruence. }
  destruct (nth_error sizes k) as [s|] eqn:Hz; [|apply nth_error_None in Hz; rewrite E3 in Hz; apply nth_error_None in Hz; congruence].
  assert (G : exists xs, nth_error (blocks bits n) k = Some (sps, xs) /\ xs = map (count_in c (Qc_of_Z s * Qc_of_Z size)%Qc) sps).
  { clear - CC Hc Hs Hz BO. revert sizes cs n k CC Hc Hs Hz. induction bits as [|sp0 bits IH]; intros sizes cs n k CC Hc Hs Hz; [destruct k; discriminate|]. destruct sizes as [|s0 sizes]; [destruct k; discriminate|]. destruct cs as [|c0 cs]; [destruct k; discriminate|]. cbn [comp_counts] in CC. destruct (_ || _); [discriminate|]. rewrite sublattice_counts_ok in CC by (try apply BO; try (left; auto); discriminate). cbn [option_bind] in CC. destruct (comp_counts bits sizes size cs) as [n'|] eqn:EC; [|discriminate]. cbn [option_bind] in CC. apply (f_equal (fun o => match o with Some v => v | _ => [] end)) in CC. subst n.
    destruct k as [|k]; cbn [nth_error blocks] in *.
    - injection Hc as <-. injection Hs as <-. injection Hz as <-. eexists. split; [reflexivity|]. rewrite <- (map_length (count_in c0 (Qc_of_Z s0 * Qc_of_Z size)%Qc) sp0) at 1. apply firstn_mid.
    - rewrite skipn_app, skipn_all2, map_length, Nat.sub_diag by (rewrite map_length; auto). cbn [skipn app]. apply (IH (fun x Hx => BO x (or_intror Hx)) sizes cs n' k); auto. }
  destruct G as (xs & GB & ->). rewrite (FR k c' _ s Hc' GB Hz sp' V). set (Sz := (Qc_of_Z s * Qc_of_Z size)%Qc). destruct (In_nth _ _ Vac I) as (j & Hj & <-).
  assert (ND : NoDup sps) by (apply BO; apply nth_error_In in Hs; auto). rewrite (@amount_at sps _ j ND) by (rewrite ?map_length; auto). rewrite (nth_indep _ 0%Qc (count_in c Sz Vac)) by (rewrite map_length; auto). rewrite map_nth. unfold count_in. rewrite V. field.
  unfold Sz. rewrite <- Qc_of_Z_mul. apply size_pos_nz. pose proof (PS s (nth_error_In _ _ Hz)). nia.
Qed.

(** ** Species of the whole structure *)
Lemma dedup_in x l : In x (dedup l) <-> In x l.
Proof.
  induction l as [|y l IH]; [tauto|]. cbn [dedup]. destruct (existsb (sp_eqb y) l) eqn:E.
  - rewrite IH. split; [right; auto|]. intros [<- | H]; auto. apply existsb_exists in E. destruct E as (z & Hz & E). apply sp_eqb_eq in E. subst. auto.
  - cbn [In]. tauto.
Qed.
Lemma dedup_nodup l : NoDup (dedup l).
Proof.
  induction l as [|y l IH]; [constructor|]. cbn [dedup]. destruct (existsb (sp_eqb y) l) eqn:E; auto. constructor; auto. rewrite dedup_in. intros C. apply not_true_iff_false in E. apply E. apply existsb_exists. exists y. split; auto. apply sp_eqb_eq. auto.
Qed.
Lemma nth_upd_q (c : list Qc) i j x : i < length c -> nth j (upd c i x) 0%Qc = if Nat.eqb i j then x else nth j c 0%Qc.
Proof.
  intros H. destruct (Nat.eqb_spec i j) as [->|N].
  - apply nth_error_nth. apply nth_error_upd_eq. auto.
  - pose proof (nth_error_upd_neq c x N) as E. destruct (nth_error c j) as [y|] eqn:Ej.
    + rewrite (nth_error_nth _ _ _ E), (nth_error_nth _ _ _ Ej). auto.
    + apply nth_error_None in E. apply nth_error_None in Ej. rewrite !nth_overflow; auto.
Qed.
Lemma add_fancy_ok all sps : NoDup all -> NoDup sps -> forall ids, opt_map (fun s => sp_index s all) sps = Some ids -> forall xs c0 c, length xs = length sps -> length c = length all -> (forall i, In i ids -> nth i c 0%Qc = nth i c0 0%Qc) ->
  let r := fold_left (fun c' p => upd c' (fst p) (snd p)) (combine ids (map (fun p => (nth (fst p) c0 0 + snd p)%Qc) (combine ids xs))) c in
  length r = length all /\ forall j, j < length all -> nth j r 0%Qc = (nth j c 0 + amount_in (nth j all Vac) (sps, xs))%Qc.
Proof.
  intros NA. induction sps as [|s sps IH]; intros ND ids HI xs c0 c LX LC AG; cbn [opt_map] in HI.
  - injection HI as <-. cbn [combine map fold_left]. split; auto. intros j Hj. unfold amount_in. cbn [fst snd combine map qsum]. ring.
  - destruct (sp_index s all) as [i|] eqn:EI; [|discriminate]. cbn [option_bind] in HI. destruct (opt_map (fun s => sp_index s all) sps) as [ids'|] eqn:EO; [|discriminate]. cbn [option_bind] in HI. injection HI as <-. destruct xs as [|x xs]; [discriminate|]. cbn [combine map fold_left fst snd]. inversion ND as [|? ? N1 N2]; subst.
    pose proof (sp_index_lt EI) as LT. pose proof (sp_index_some EI) as EN. assert (NI : ~ In i ids').
    { intros C. apply In_nth_error in C. destruct C as [q Hq]. destruct (nth_error sps q) as [s'|] eqn:Es.
      - destruct (opt_map_nth _ _ _ EO Es) as (y & Ey & Hy). rewrite Hq in Hy. injection Hy as <-. apply sp_index_some in Ey. rewrite EN in Ey. injection Ey as <-. apply N1. apply nth_error_In in Es. auto.
      - apply nth_error_None in Es. rewrite <- (opt_map_length _ _ EO) in Es. apply nth_error_None in Es. congruence. }
    destruct (IH N2 ids' eq_refl xs c0 (upd c i (nth i c0 0 + x)%Qc)) as [L1 L2]; [simpl in LX; lia|rewrite length_upd; auto| |].
    + intros q Hq. rewrite nth_upd_q by lia. destruct (Nat.eqb_spec i q) as [->|]; [contradiction|]. apply AG. right. auto.
    + split; auto. intros j Hj. rewrite L2 by auto. rewrite nth_upd_q by lia. unfold amount_in. cbn [fst snd combine map qsum]. destruct (Nat.eqb_spec i j) as [->|NE].
      * rewrite (nth_error_nth _ _ Vac EN), (proj2 (sp_eqb_eq s s) eq_refl). rewrite (AG j (or_introl eq_refl)). ring.
      * destruct (sp_eqb s (nth j all Vac)) eqn:E; [|ring]. apply sp_eqb_eq in E. exfalso. apply NE. apply (proj1 (NoDup_nth all Vac) NA); auto. rewrite (nth_error_nth _ _ Vac EN). auto.
Qed.
Lemma species_counts_ok all n bits : NoDup all -> bits_ok bits -> (forall sp, In sp (concat bits) -> In sp all) -> forall o c, length c = length all -> o + num_dims bits <= length n ->
  exists r, fold_left (fun c p => let? c' := c in let? ids := opt_map (fun sp => sp_index sp all) (fst p) in let? xs := opt_map (nth_error n) (snd p) in Some (add_fancy c' ids xs)) (combine bits (dim_ids_from o (map (@length species) bits))) (Some c) = Some r /\
    length r = length all /\ forall j, j < length all -> nth j r 0%Qc = (nth j c 0 + amount bits (skipn o n) (nth j all Vac) None)%Qc.
Proof.
  intros NA. unfold amount. induction bits as [|sps bits IH]; intros OK IN o c LC D; cbn [map dim_ids_from combine fold_left blocks].
  - exists c. split; auto. split; auto. intros j Hj. cbn [map qsum]. ring.
  - unfold num_dims in D. cbn [map] in D. change (list_sum (length sps :: map (@length species) bits)) with (length sps + num_dims bits) in D. cbn [option_bind fst snd].
    assert (EI : exists ids, opt_map (fun sp => sp_index sp all) sps = Some ids).
    { assert (IS : forall sp, In sp sps -> In sp all) by (intros sp Hs; apply IN; simpl; apply in_or_app; auto). clear - IS. induction sps as [|s sps IH]; cbn [opt_map]; eauto. destruct (sp_index s all) as [i|] eqn:E; [|apply sp_index_none in E; exfalso; apply E, IS; left; auto]. cbn [option_bind]. destruct IH as [ids ->]; [intros; apply IS; right; auto|]. cbn [option_bind]. eauto. }
    destruct EI as [ids EI]. rewrite EI. cbn [option_bind]. rewrite opt_map_dims by lia. cbn [option_bind]. unfold add_fancy.
    destruct (@add_fancy_ok all sps NA (OK sps (or_introl eq_refl)) ids EI (firstn (length sps) (skipn o n)) c c) as [L1 L2]; auto; [rewrite firstn_length, skipn_length; lia|].
    destruct (IH (fun x Hx => OK x (or_intror Hx)) (fun sp Hs => IN sp (in_or_app _ _ _ (or_intror Hs))) (o + length sps) _ L1 ltac:(lia)) as (r & ER & LR & R). exists r. split; auto. split; auto. intros j Hj. rewrite R, L2 by auto. rewrite <- skipn_add. cbn [map qsum]. ring.
Qed.
(** Species counts: the total amount of each species, listed without repetition. *)
Theorem C45_species oxi rank bits sizes neutral other sp eqs size n pinv leb ms : built oxi rank bits sizes neutral other sp eqs -> exact_eqs eqs -> (0 < size)%Z -> bits_ok bits -> composition_ok oxi bits sizes neutral eqs size n ->
  let all := species_list leb bits in NoDup all /\ (forall s, In s all <-> exists sps, In sps bits /\ In s sps) /\
  translate pinv leb sp ms Counts SpeciesCounts size false (Vec n) = Some (Vec (map (fun s => amount bits n s None) all)) /\
  (forall c rounding, translate pinv leb sp ms SpeciesCounts Counts size rounding c = None).
Proof.
  intros B EX HS BO OK all. pose proof (feasible_ok B EX HS OK) as K. destruct (built_rows B) as (E1 & _).
  assert (NA : NoDup all) by (unfold all, species_list; eapply Permutation_NoDup; [apply sort_by_perm|apply dedup_nodup]).
  assert (IA : forall s, In s all <-> In s (concat bits)). { intros s. unfold all, species_list. rewrite <- (dedup_in s (concat bits)). split; apply Permutation_in; [apply Permutation_sym|]; apply sort_by_perm. }
  split; auto. split; [intros s; rewrite IA, in_concat; split; intros (x & H1 & H2); exists x; auto|]. split; [|intros c rd; unfold translate, to_counts; destruct c; auto].
  unfold translate, to_counts, counts_to. cbn [option_bind]. rewrite K. cbn [negb]. rewrite E1. fold all. unfold species_counts, cs_dim_ids, get_dim_ids_by_sublattice.
  destruct (@species_counts_ok all n bits NA BO (fun s => proj2 (IA s)) 0 (repeat 0%Qc (length all))) as (r & ER & LR & R); [apply repeat_length|rewrite (co_length OK); auto|]. rewrite ER. cbn [option_bind]. do 2 f_equal.
  apply nth_ext with 0%Qc 0%Qc; [rewrite map_length; auto|]. intros j Hj. rewrite R by congruence. rewrite (nth_indep (map _ _) 0%Qc (amount bits n Vac None)) by (rewrite map_length; congruence). rewrite (map_nth (fun s => amount bits n s None)). rewrite nth_repeat. change (skipn 0 n) with n. ring.
Qed.

(** ** Limits *)
Lemma basis_same sp m n0 vs ms vs' : solve_at sp m = Some (n0, vs) -> basis sp ms = Some vs' -> vs' = vs.
Proof. unfold basis. intros E H. destruct (solve_at sp ms) as [[n1 v1]|] eqn:E1; [|discriminate]. cbn [option_bind] in H. injection H as <-. exact (solver_basis E1 E). Qed.
Definition space_of (o : option cspace) : cspace := match o with Some s => s | None => mkCS [] [] [] [] [] end.
Definition present {A} (o : option A) : bool := match o with Some _ => true | None => false end.
Lemma space_of_ok o : present o = true -> o = Some (space_of o).
Proof. destruct o; [auto|discriminate]. Qed.
Definition eqs_of (o : option (option constraint_lists)) : list (list Qc * Qc) := match o with Some (Some c) => cl_eq c | _ => [] end.
Lemma built_by oxi rank bits sizes neutral other : present (make_space oxi rank bits (Some sizes) neutral other) = true ->
  built oxi rank bits sizes neutral other (space_of (make_space oxi rank bits (Some sizes) neutral other)) (eqs_of (assign bits None other)).
Proof.
  intros P. split; [apply space_of_ok; auto|]. unfold make_space in P. destruct (negb _); [discriminate|]. destruct (assign bits None other) as [[c|]|]; [| |discriminate]; eexists; split; reflexivity.
Qed.
(** Whether [n] is a composition can be computed. *)
Definition composition_b (oxi : species -> Z) (bits : list (list species)) (sizes : list Z) (eqs : list (list Qc * Qc)) (size : Z) (n : list Qc) : bool :=
  Nat.eqb (length n) (num_dims bits) && forallb (Qcleb 0) n && Qceqb (charge_of oxi bits n) 0 &&
  forallb (fun p => Qceqb (qsum (snd (fst p))) (Qc_of_Z (snd p) * Qc_of_Z size)) (combine (blocks bits n) sizes) && forallb (fun p => Qceqb (qdot (fst p) n) (snd p * Qc_of_Z size)) eqs.
Lemma composition_by oxi bits sizes neutral eqs size n : composition_b oxi bits sizes eqs size n = true -> composition_ok oxi bits sizes neutral eqs size n.
Proof.
  unfold composition_b. rewrite !andb_true_iff, !forallb_forall, Nat.eqb_eq. intros ((((H1 & H2) & H3) & H4) & H5). constructor; auto.
  - intros x Hx. specialize (H2 x Hx). destruct (Qcleb_spec 0 x); [auto|discriminate].
  - intros _. destruct (Qceqb_spec (charge_of oxi bits n) 0); [auto|discriminate].
  - intros k b s Hb Hs. specialize (H4 (b, s)). cbn [fst snd] in H4. destruct (Qceqb_spec (qsum (snd b)) (Qc_of_Z s * Qc_of_Z size)); [auto|discriminate H4]. apply nth_error_In with k. clear - Hb Hs. revert sizes k Hb Hs. induction (blocks bits n) as [|x l IH]; intros [|y sizes] [|k]; cbn [nth_error combine]; intros; try discriminate; [congruence|auto].
  - intros a b I. specialize (H5 (a, b) I). cbn [fst snd] in H5. destruct (Qceqb_spec (qdot a n) (b * Qc_of_Z size)); [auto|discriminate].
Qed.
Definition small_b (l : list Qc) : bool := forallb (fun x => (Zpos (Qden (this x)) <=? max_den)%Z) l.
Lemma small_by l : small_b l = true -> forall x, In x l -> (Zpos (Qden (this x)) <= max_den)%Z.
Proof. unfold small_b. rewrite forallb_forall. intros H x Hx. exact (proj1 (Z.leb_le _ _) (H x Hx)). Qed.
Lemma exact_by eqs : small_b (concat (map fst eqs)) = true -> exact_eqs eqs.
Proof. intros H a b x I Hx. apply (@small_by _ H x). apply in_concat. exists a. split; auto. apply (in_map fst _ _ I). Qed.
Lemma rhs_by sp : small_b (cs_b sp) = true -> exact_rhs sp.
Proof. intros H x. apply (@small_by _ H x). Qed.

(** Inequality constraints are not checked by the translation. *)
Theorem C45_inequality_refuted : exists oxi rank bits sizes other sp eqs, built oxi rank bits sizes false other sp eqs /\ bits_ok bits /\
  exists a b n, In (a, b) (cs_leq sp) /\ (forall pinv leb ms, translate pinv leb sp ms Counts Counts 2 false (Vec n) = Some (Vec n)) /\ ~ (qdot a n <= b * Qc_of_Z 2)%Qc.
Proof.
  exists (fun _ => 0%Z), (fun _ => 1), [[Sp 0; Sp 1]], [1%Z], (Some [Tuple [1; 0]%Qc (Qc_frac 1 2) (Some RLe)]). do 2 eexists. split; [apply built_by; vm_compute; reflexivity|]. split; [intros s [<- | []]; repeat constructor; simpl; intuition discriminate|]. exists [1; 0]%Qc, (Qc_frac 1 2), [Qc_frac 2 1; 0%Qc]. split; [left; reflexivity|]. split.
  - intros. set (sp := space_of _). assert (K : counts_ok sp 2 [Qc_frac 2 1; 0%Qc] = true) by (vm_compute; reflexivity). unfold translate, to_counts, counts_to. cbn [option_bind]. rewrite K. reflexivity.
  - intros C. vm_compute in C. apply C. reflexivity.
Qed.
(** In large cells the tolerance accepts whole compositions that do not fill the sublattice. *)
Theorem C45_large_refuted : exists oxi rank bits sizes sp eqs, built oxi rank bits sizes false None sp eqs /\ bits_ok bits /\
  exists n, integral n /\ (forall pinv leb ms, translate pinv leb sp ms Counts Counts 2000000 true (Vec n) = Some (Vec n)) /\ ~ composition_ok oxi bits sizes false eqs 2000000 n.
Proof.
  exists (fun _ => 0%Z), (fun _ => 1), [[Sp 0; Sp 1]], [1%Z]. do 2 eexists. split; [apply built_by; vm_compute; reflexivity|]. split; [intros s [<- | []]; repeat constructor; simpl; intuition discriminate|]. exists (map Qc_of_Z [2000001; 0]%Z). split; [exists [2000001; 0]%Z; reflexivity|]. split.
  - intros. set (sp := space_of _). assert (K : counts_ok sp 2000000 (map Qc_of_Z [2000001; 0]%Z) = true) by (vm_compute; reflexivity). unfold translate, to_counts, counts_to. cbn [option_bind]. rewrite round_all_int. cbn [option_bind]. rewrite K. cbn [negb option_bind]. rewrite round_all_int. reflexivity.
  - intros OK. pose proof (co_sizes OK (k := 0) eq_refl eq_refl) as C. apply (f_equal (fun q => Qnum (this q))) in C. vm_compute in C. discriminate.
Qed.
Lemma redundant_aux sp : solve_at sp 1 = Some ([-1; 1; 1]%Z, [[1; 0; -1]%Z]) -> base_solution sp 1 = Some [-1; 1; 1]%Z -> cs_dims (cs_bits sp) = 3 ->
  forall x leb ms pinv, translate pinv leb sp ms Coords Counts 1 false (Vec x) <> Some (Vec (map Qc_of_Z [0; 0; 1]%Z)).
Proof.
  intros E0 B0 DD.
  intros x leb ms pinv H. unfold translate, to_counts in H. destruct (basis sp ms) as [vs|] eqn:EV; [|discriminate]. cbn [option_bind] in H.
  rewrite (basis_same E0 EV) in *. rewrite B0 in H. cbn [option_bind] in H. unfold from_coords in H. destruct (Nat.eqb_spec (length x) (length [[1; 0; -1]%Z])) as [L|]; [|discriminate]. destruct x as [|a [|c x]]; try discriminate. cbn [option_bind] in H. unfold counts_to in H. destruct (negb _); [discriminate|]. cbn [option_bind] in H.
  apply (f_equal (fun o => match o with Some (Vec v) => nth 1 v 0%Qc | _ => 0%Qc end)) in H. rewrite DD in H. cbn [seq map nth combine qsum fst snd] in H. change (Qc_of_Z 0) with 0%Qc in H. change (Qc_of_Z 1) with 1%Qc in H. assert (C : 1%Qc = 0%Qc) by (rewrite <- H; ring). discriminate.
Qed.
(** When two constraints repeat others, feasible compositions have no coordinates: no coordinates translate to them. *)
Theorem C45_redundant_refuted : exists oxi rank bits sizes other sp eqs, built oxi rank bits sizes true other sp eqs /\ bits_ok bits /\ exact_eqs eqs /\ exact_rhs sp /\
  exists n, composition_ok oxi bits sizes true eqs 1 n /\ forall x leb ms pinv, translate pinv leb sp ms Coords Counts 1 false (Vec x) <> Some (Vec n).
Proof.
  exists (fun _ => 0%Z), (fun _ => 1), [[Sp 0; Sp 1; Sp 2]], [1%Z], (Some [Tuple [1; 1; 1]%Qc 1%Qc (Some REq)]). do 2 eexists. split; [apply built_by; vm_compute; reflexivity|].
  split; [intros s [<- | []]; repeat constructor; simpl; intuition discriminate|].
  split; [apply exact_by; vm_compute; reflexivity|]. split; [apply rhs_by; vm_compute; reflexivity|].
  exists (map Qc_of_Z [0; 0; 1]%Z). split; [apply composition_by; vm_compute; reflexivity|].
  apply redundant_aux; vm_compute; reflexivity.
Qed.
(** Translating to coordinates raises for feasible compositions of a doubled cell when the primitive cell has none. *)
Theorem C45_doubled_refuted : exists oxi rank bits sizes sp eqs, built oxi rank bits sizes true None sp eqs /\ bits_ok bits /\ exact_rhs sp /\ regular sp /\
  exists n, integral n /\ composition_ok oxi bits sizes true eqs 2 n /\ forall leb ms pinv rounding, translate pinv leb sp ms Counts Coords 2 rounding (Vec n) = None.
Proof.
  exists (fun s => match s with Sp 0 => 1 | Sp 1 => 3 | Sp 2 => 5 | Sp 3 => -2 | _ => 0 end)%Z, (fun _ => 3), [[Sp 0; Sp 1; Sp 2]; [Sp 3]], [1%Z; 1%Z]. do 2 eexists. split; [apply built_by; vm_compute; reflexivity|].
  split; [intros s [<- | [<- | []]]; repeat constructor; simpl; intuition discriminate|]. split; [apply rhs_by; vm_compute; reflexivity|].
  set (sp := space_of _). assert (EI : integerize (cs_b sp) = Some ([0; 1; 1]%Z, 1%Z)) by (vm_compute; reflexivity).
  assert (HN : solve_diophantines (length (cs_A sp)) (dims sp) (cs_A sp) (Some [0; 1; 1]%Z) = None) by (vm_compute; reflexivity). assert (B0 : base_solution sp 2 = None) by (vm_compute; reflexivity). clearbody sp.
  split; [intros ints m E n0 vs HS; rewrite EI in E; injection E as <- <-; rewrite HN in HS; discriminate|].
  exists (map Qc_of_Z [1; 1; 0; 2]%Z). split; [eexists; reflexivity|]. split; [apply composition_by; vm_compute; reflexivity|].
  intros leb ms pinv rounding. unfold translate, to_counts, counts_to. rewrite B0. cbn [option_bind]. destruct rounding; [rewrite round_all_int|]; cbn [option_bind]; destruct (negb _); reflexivity.
Qed.

(** A pseudo-inverse can be checked row by row. *)
Lemma qdot_span nd vs : (forall v, In v vs -> length v = nd) -> forall x row, length x = length vs -> qdot row (span_q nd vs x) = qsum (map (fun p => fst p * qdot row (map Qc_of_Z (snd p)))%Qc (combine x vs)).
Proof.
  induction vs as [|v vs IH]; intros LV [|c x] row L; try discriminate; unfold span_q; cbn [combine map qsum fst snd].
  - apply qdot_zeros_r. intros y Hy. apply in_map_iff in Hy. destruct Hy as (i & <- & _). auto.
  - assert (SP : forall (f g : nat -> Qc) l r, qdot r (map (fun i => f i + g i)%Qc l) = (qdot r (map f l) + qdot r (map g l))%Qc) by (clear; intros f g l; induction l as [|i l IH]; intros [|a r]; cbn [map qdot]; try ring; rewrite IH; ring).
    rewrite SP. fold (span_q nd vs x). rewrite IH by (try (intros; apply LV; right; auto); simpl in L; lia). f_equal. replace (map (fun i => (c * Qc_of_Z (nth i v 0%Z))%Qc) (seq 0 nd)) with (map (fun y => (y * c)%Qc) (map Qc_of_Z v)).
    + rewrite qdot_scale_r. ring.
    + rewrite <- (LV v (or_introl eq_refl)). clear. rewrite map_map. induction v as [|z v IH]; cbn [length seq map nth]; auto. rewrite <- seq_shift, map_map. rewrite IH. f_equal. ring.
Qed.
Definition identity_rows (k : nat) : list (list Qc) := map (fun i => map (fun j => if Nat.eqb i j then 1%Qc else 0%Qc) (seq 0 k)) (seq 0 k).
Definition inverse_b (P : list (list Qc)) (vs : list (list Z)) : bool :=
  Nat.eqb (length P) (length vs) && forallb (fun i => forallb (fun j => Qceqb (qdot (nth i P []) (map Qc_of_Z (nth j vs []))) (if Nat.eqb i j then 1 else 0)%Qc) (seq 0 (length vs))) (seq 0 (length vs)).
Lemma qsum_pick (x : list Qc) (f : nat -> Qc) i : i < length x -> (forall j, j < length x -> f j = if Nat.eqb i j then 1%Qc else 0%Qc) -> qsum (map (fun j => nth j x 0 * f j)%Qc (seq 0 (length x))) = nth i x 0%Qc.
Proof.
  revert f i. induction x as [|a x IH]; intros f i H HF; [simpl in H; lia|]. cbn [length seq map qsum]. rewrite <- seq_shift, map_map. cbn [nth]. rewrite (HF 0) by (simpl; lia). destruct i as [|i]; cbn [Nat.eqb].
  - replace (qsum _) with 0%Qc; [ring|]. symmetry. assert (G : forall l, (forall j, In j l -> j < length x) -> qsum (map (fun j => nth j x 0 * f (S j))%Qc l) = 0%Qc); [|apply G; intros j Hj; apply in_seq in Hj; lia]. induction l as [|j l IHl]; intros G; auto. cbn [map qsum]. rewrite IHl by (intros; apply G; right; auto). rewrite (HF (S j)) by (simpl; specialize (G j (or_introl eq_refl)); lia). cbn [Nat.eqb]. ring.
  - rewrite (IH (fun j => f (S j)) i); [ring|simpl in H; lia|]. intros j Hj. rewrite (HF (S j)) by (simpl; lia). auto.
Qed.
Lemma inverse_by nd P vs : (forall v, In v vs -> length v = nd) -> inverse_b P vs = true -> pseudo_inverse nd P vs.
Proof.
  intros LV. unfold inverse_b. rewrite andb_true_iff, Nat.eqb_eq, forallb_forall. intros [L H]. split; auto. intros x Lx. f_equal. apply nth_ext with 0%Qc 0%Qc; [rewrite map_length; congruence|]. intros i Hi. rewrite map_length in Hi. rewrite (nth_indep _ 0%Qc (qdot [] (span_q nd vs x))) by (rewrite map_length; auto). rewrite (map_nth (fun row => qdot row (span_q nd vs x))). rewrite qdot_span by auto.
  assert (HF : forall j, j < length x -> qdot (nth i P []) (map Qc_of_Z (nth j vs [])) = if Nat.eqb i j then 1%Qc else 0%Qc).
  { intros j Hj. specialize (H i). rewrite in_seq, forallb_forall in H. specialize (H ltac:(lia) j). rewrite in_seq in H. specialize (H ltac:(lia)). destruct (Qceqb_spec (qdot (nth i P []) (map Qc_of_Z (nth j vs []))) (if Nat.eqb i j then 1 else 0)%Qc) as [E|]; [exact E|discriminate]. }
  rewrite <- (@qsum_pick x _ i ltac:(lia) HF). clear HF H.
  f_equal. generalize (nth i P []). intros r. clear - Lx. revert vs Lx. induction x as [|a x IH]; intros [|v vs] L; try discriminate; auto. cbn [combine map length seq nth fst snd]. f_equal. rewrite IH by (simpl in L; lia). rewrite <- seq_shift, map_map. auto.
Qed.

(** Lithium, manganese and vacancies beside oxygen and fluorine, at two primitive cells: one Li, one Mn and two O. *)
Definition c45_oxi (s : species) : Z := match s with Sp 0 => 1 | Sp 1 => 3 | Sp 2 => -2 | Sp 3 => -1 | _ => 0 end%Z.
Definition c45_bits : list (list species) := [[Sp 0; Sp 1; Vac]; [Sp 2; Sp 3]].
Definition c45_other : option (list entry) := Some [Tuple [1; 0; 0; 0; 0]%Qc (Qc_frac 3 4) (Some RLe)].
Definition c45_sp : cspace := space_of (make_space c45_oxi (fun _ => 3) c45_bits (Some [1; 1]%Z) true c45_other).
Definition c45_n : list Qc := map Qc_of_Z [1; 1; 0; 2; 0]%Z.
Definition c45_vs : list (list Z) := [[-3; 1; 2; 0; 0]; [2; -1; -1; -1; 1]]%Z.
Definition c45_pinv (vs : list (list Z)) : list (list Qc) := map (map (fun z => Qc_frac z 31)) [[-6; -1; 7; -9; 9]; [1; -5; 4; -14; 14]]%Z.
Lemma c45_regular : regular c45_sp.
Proof.
  assert (BB : built c45_oxi (fun _ => 3) c45_bits [1; 1]%Z true c45_other c45_sp []) by (apply built_by; vm_compute; reflexivity). apply (C45_regular BB). left.
  replace (cs_A c45_sp) with [[1; 3; 0; -2; -1]; [1; 1; 1; 0; 0]; [0; 0; 0; 1; 1]]%Z by (vm_compute; reflexivity). change (num_dims c45_bits) with 5. cbn [length]. intros a H i Hi.
  pose proof (H 0 ltac:(lia)) as H0. pose proof (H 1 ltac:(lia)) as H1. pose proof (H 2 ltac:(lia)) as H2. pose proof (H 4 ltac:(lia)) as H4. clear H. unfold sum, get in *. cbn [seq map zsum nth] in *. destruct i as [|[|[|i]]]; lia.
Qed.
Example C45_case : built c45_oxi (fun _ => 3) c45_bits [1; 1]%Z true c45_other c45_sp [] /\ bits_ok c45_bits /\ exact_rhs c45_sp /\ regular c45_sp /\
  base_solution c45_sp 2 = Some [-2; 2; 2; 2; 0]%Z /\ basis c45_sp 2 = Some c45_vs /\ pseudo_inverse 5 (c45_pinv c45_vs) c45_vs /\
  composition_ok c45_oxi c45_bits [1; 1]%Z true [] 2 c45_n /\ kept c45_bits [1; 1]%Z 2 c45_n /\ ~ composition_ok c45_oxi c45_bits [1; 1]%Z true [] 2 (map Qc_of_Z [1; 1; 1; 2; 0]%Z).
Proof.
  split; [apply built_by; vm_compute; reflexivity|]. split; [intros s [<- | [<- | []]]; repeat constructor; simpl; intuition discriminate|]. split; [apply rhs_by; vm_compute; reflexivity|]. split; [apply c45_regular|].
  split; [vm_compute; reflexivity|]. split; [vm_compute; reflexivity|]. split; [apply inverse_by; [intros v [<- | [<- | []]]; reflexivity|vm_compute; reflexivity]|]. split; [apply composition_by; vm_compute; reflexivity|]. split.
  - intros [|[|[|k]]] b s Hb Hs x Hx; try discriminate; injection Hs as <-; apply (f_equal (fun o => match o with Some p => snd p | None => [] end)) in Hb; rewrite <- Hb in Hx; clear Hb; unfold visible.
    + change (In x (map Qc_of_Z [1; 1; 0]%Z)) in Hx. apply in_map_iff in Hx. destruct Hx as (z & <- & [<- | [<- | [<- | []]]]); [right; vm_compute; discriminate|right; vm_compute; discriminate|left; reflexivity].
    + change (In x (map Qc_of_Z [2; 0]%Z)) in Hx. apply in_map_iff in Hx. destruct Hx as (z & <- & [<- | [<- | []]]); [right; vm_compute; discriminate|left; reflexivity].
  - intros OK. pose proof (co_sizes OK (k := 0) eq_refl eq_refl) as C. apply (f_equal (fun q => Qnum (this q))) in C. vm_compute in C. discriminate.
Qed.

Print Assumptions C45_accept.
Print Assumptions C45_reject_partial.
Print Assumptions C45_tolerance.
Print Assumptions C45_coordinates_partial.
Print Assumptions C45_regular.
Print Assumptions C45_compositions.
Print Assumptions C45_fractions.
Print Assumptions C45_species.
Print Assumptions C45_inequality_refuted.
Print Assumptions C45_large_refuted.
Print Assumptions C45_redundant_refuted.
Print Assumptions C45_doubled_refuted.
Print Assumptions C45_case.
