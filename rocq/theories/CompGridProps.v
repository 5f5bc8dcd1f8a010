(** C95: enumerating the compositions of a supercell. *)
From Verif Require Import LibProofs QcLib RationalizeProps SnfProofs SnfProps CompSpaceProofs CompSpaceProps NatSolProps.
From Verif Require Export FlipTableProps.
Set Implicit Arguments.
Unset Strict Implicit.
Open Scope Z_scope.

(** Inequalities per primitive cell, with the tolerance of the code. *)
Definition within_leq (sp : cspace) (size : Z) (n : list Z) : Prop :=
  forall a b, In (a, b) (cs_leq sp) -> (qdot a (map Qc_of_Z n) <= (b + num_tol) * Qc_of_Z size)%Qc.
(** Requests of a size and a step, one after the other; a request that raises stores nothing. *)
Fixpoint asked lp tol sp vs (requests : list (Z * Z)) (cache : grid_cache) : grid_cache :=
  match requests with
  | [] => cache
  | r :: requests' =>
      asked lp tol sp vs requests' (match get_composition_grid lp tol sp vs (fst r) (snd r) cache with Some (_, c) => c | None => cache end)
  end.
(** The basis generates the same flips as that of the solver. *)
Record good_basis (sp : cspace) (vs : list (list Z)) : Prop := {
  gb_rows : Forall (fun v => length v = dims sp) vs;
  gb_independent : independent vs;
  gb_lattice : exists ms us, basis sp ms = Some us /\ same_lattice (dims sp) us vs }.

(** ** The store *)
Section Store.
Variables (lp : list Z -> list (list Z) -> option (Q * Q)) (tol : Q) (sp : cspace) (vs : list (list Z)).
Definition key_ok (e : (Z * Z) * list (list Z)) : Prop :=
  0 < fst (fst e) /\ 0 < snd (fst e) /\ Z.gcd (fst (fst e)) (snd (fst e)) = 1 /\
  option_map fst (enumerate_grid lp tol sp vs (fst (fst e)) (snd (fst e)) []) = Some (snd e).
Definition store_ok (cache : grid_cache) : Prop := Forall key_ok cache.
Lemma enumerate_cache size step c c' : option_map fst (enumerate_grid lp tol sp vs size step c) = option_map fst (enumerate_grid lp tol sp vs size step c').
Proof. unfold enumerate_grid. destruct (base_solution sp size) as [n0|]; [|auto]. cbn [option_bind]. destruct (natural lp tol step n0 vs); auto. Qed.
Lemma enumerate_store size step c g c' : enumerate_grid lp tol sp vs size step c = Some (g, c') -> c' = c ++ [((size, step), g)].
Proof. unfold enumerate_grid. destruct (base_solution sp size) as [n0|]; [|discriminate]. cbn [option_bind]. destruct (natural lp tol step n0 vs); [|discriminate]. cbn [option_bind]. intros H. injection H as <- <-. auto. Qed.
Lemma coprime_key k1 k2 size step : 0 < k1 -> 0 < k2 -> Z.gcd k1 k2 = 1 -> 0 < size -> 0 < step -> size mod k1 = 0 -> step mod k2 = 0 -> size / k1 = step / k2 ->
  k1 = size / Z.gcd size step /\ k2 = step / Z.gcd size step /\ size / k1 = Z.gcd size step.
Proof.
  intros K1 K2 G S T M1 M2 E. set (q := size / k1) in *. assert (ES : size = q * k1) by (unfold q; rewrite (Z.div_mod size k1) at 1 by lia; lia). assert (ET : step = q * k2) by (rewrite E, (Z.div_mod step k2) at 1 by lia; lia).
  assert (Q : 0 < q) by nia. assert (GG : Z.gcd size step = q) by (rewrite ES, ET, Z.gcd_mul_mono_l_nonneg by lia; rewrite G; lia). rewrite GG. split; [rewrite ES; rewrite Z.mul_comm, Z.div_mul; lia|]. split; [rewrite ET; rewrite Z.mul_comm, Z.div_mul; lia|auto].
Qed.
Lemma find_grid_ok size step cache s g : store_ok cache -> 0 < size -> 0 < step -> find_grid size step cache = Some (s, g) ->
  s = Z.gcd size step /\ option_map fst (enumerate_grid lp tol sp vs (size / s) (step / s) []) = Some g.
Proof.
  intros OK S T H. unfold find_grid in H. destruct (find _ cache) as [e|] eqn:F; [|discriminate]. cbn [option_map] in H. injection H as <- <-. apply find_some in F as (IN & C). rewrite !andb_true_iff, !Z.eqb_eq in C. destruct C as ((C1 & C2) & C3).
  unfold store_ok in OK. rewrite Forall_forall in OK. destruct (OK e IN) as (K1 & K2 & G & E). destruct (coprime_key K1 K2 G S T C1 C2 C3) as (A1 & A2 & A3). rewrite A3. split; auto. rewrite <- A1, <- A2. auto.
Qed.
(** What a request returns does not depend on the store. *)
Definition plain (size step : Z) : option (list (list Z)) :=
  let s := Z.gcd size step in option_map (fun p => scale_grid s (fst p)) (enumerate_grid lp tol sp vs (size / s) (step / s) []).
Lemma scale_one g : scale_grid 1 g = g.
Proof. unfold scale_grid. rewrite <- (map_id g) at 2. apply map_ext. intros v. unfold vscale. rewrite <- (map_id v) at 2. apply map_ext. intros; lia. Qed.
Lemma gcd_parts size step : 0 < size -> 0 < step -> 0 < Z.gcd size step /\ 0 < size / Z.gcd size step /\ 0 < step / Z.gcd size step /\ Z.gcd (size / Z.gcd size step) (step / Z.gcd size step) = 1.
Proof.
  intros S T. set (s := Z.gcd size step). assert (G0 : 0 <= s) by apply Z.gcd_nonneg. assert (GN : s <> 0) by (intros E; apply Z.gcd_eq_0_l in E; lia).
  destruct (Z.gcd_divide_l size step) as (a & EA). destruct (Z.gcd_divide_r size step) as (b & EB). fold s in EA, EB.
  assert (DA : size / s = a) by (rewrite EA; apply Z.div_mul; auto). assert (DB : step / s = b) by (rewrite EB; apply Z.div_mul; auto). rewrite DA, DB. split; [lia|]. split; [nia|]. split; [nia|]. rewrite <- DA, <- DB. apply Z.gcd_div_gcd; auto.
Qed.
Lemma grid_plain size step cache : store_ok cache -> 0 < size -> 0 < step ->
  option_map fst (get_composition_grid lp tol sp vs size step cache) = plain size step /\
  forall g c, get_composition_grid lp tol sp vs size step cache = Some (g, c) -> store_ok c.
Proof.
  intros OK S T. destruct (gcd_parts S T) as (G0 & GS & GT & G1). unfold get_composition_grid, plain.
  destruct (find_grid size step cache) as [[s g]|] eqn:F1.
  - destruct (find_grid_ok OK S T F1) as (-> & E). cbn [option_map]. split; [|intros g' c H; injection H as <- <-; auto]. destruct (enumerate_grid lp tol sp vs _ _ []) as [[g' c]|]; [|discriminate]. cbn [option_map fst] in *. congruence.
  - cbv zeta. set (s := Z.gcd size step) in *. destruct (Z.ltb_spec 1 s) as [L|L].
    + destruct (find_grid (size / s) (step / s) cache) as [[s' g]|] eqn:F2.
      * destruct (find_grid_ok OK GS GT F2) as (-> & E). rewrite G1 in *. rewrite !Z.div_1_r in E. rewrite scale_one. cbn [option_map]. split; [|intros g' c H; injection H as <- <-; auto]. destruct (enumerate_grid lp tol sp vs _ _ []) as [[g' c]|]; [|discriminate]. cbn [option_map fst] in *. congruence.
      * pose proof (enumerate_cache (size / s) (step / s) cache []) as EC. destruct (enumerate_grid lp tol sp vs (size / s) (step / s) cache) as [[g c]|] eqn:E1; destruct (enumerate_grid lp tol sp vs (size / s) (step / s) []) as [[g' c']|] eqn:E2; try discriminate; cbn [option_map fst option_bind] in *; (split; [congruence|]); intros g2 c2 H; [|discriminate].
        injection H as _ <-. rewrite (enumerate_store E1). apply Forall_app. split; auto. constructor; [|constructor]. unfold key_ok. cbn [fst snd]. repeat split; auto. rewrite E2. cbn [option_map fst]. congruence.
    + assert (s = 1) by lia. rewrite H in *. rewrite !Z.div_1_r in *. pose proof (enumerate_cache size step cache []) as EC. destruct (enumerate_grid lp tol sp vs size step cache) as [[g c]|] eqn:E1; destruct (enumerate_grid lp tol sp vs size step []) as [[g' c']|] eqn:E2; try discriminate; cbn [option_map fst] in *; (split; [rewrite ?scale_one; congruence|]); intros g2 c2 H2; [|discriminate].
      injection H2 as _ <-. rewrite (enumerate_store E1). apply Forall_app. split; auto. constructor; [|constructor]. unfold key_ok. cbn [fst snd]. repeat split; auto. rewrite E2. cbn [option_map fst]. congruence.
Qed.
Lemma asked_ok requests : Forall (fun r => 0 < fst r /\ 0 < snd r) requests -> forall cache, store_ok cache -> store_ok (asked lp tol sp vs requests cache).
Proof.
  induction 1 as [|[a b] r (S & T) _ IH]; intros cache OK; auto. cbn [asked fst snd] in *. apply IH. destruct (grid_plain OK S T) as (_ & N). destruct (get_composition_grid lp tol sp vs a b cache) as [[g c]|]; [apply (N g c); auto|auto].
Qed.
End Store.

(** Whatever was asked before, a request returns what it returns first. *)
Theorem C95_history lp tol sp vs before size step :
  Forall (fun r => 0 < fst r /\ 0 < snd r) before -> 0 < size -> 0 < step ->
  option_map fst (get_composition_grid lp tol sp vs size step (asked lp tol sp vs before [])) = option_map fst (get_composition_grid lp tol sp vs size step []).
Proof.
  intros F S T. assert (N : store_ok lp tol sp vs []) by constructor. destruct (grid_plain (asked_ok F N) S T) as (E1 & _). destruct (grid_plain N S T) as (E2 & _). congruence.
Qed.

(** ** Compositions *)
Lemma zcomb_lc x : forall vs i, zcomb x vs i = lc (combine x vs) i.
Proof. induction x as [|a x IH]; intros [|v vs] i; auto. cbn [zcomb combine]. rewrite lc_cons, IH. auto. Qed.
Lemma meets_ok oxi rank bits sizes neutral other sp eqs size n : built oxi rank bits sizes neutral other sp eqs -> exact_eqs eqs -> 0 < size ->
  (composition_ok oxi bits sizes neutral eqs size n <-> meets sp size n /\ forall x, In x n -> (0 <= x)%Qc).
Proof.
  intros B EX HS. split; [intros OK; split; [apply (meets_iff B EX HS OK)|apply (co_nonneg OK)]|]. intros ((L & M) & NN). destruct (built_rows B) as (E1 & E2 & E3 & E4 & E5 & E6). unfold dims in L. rewrite E1 in L.
  destruct (proj1 (equations_iff HS EX E4 L)) as (A1 & A2 & A3); [|constructor; auto]. intros [row b] P. cbn [fst snd]. apply In_nth_error in P as (i & Hi). apply (M i).
  - revert i Hi. clear. generalize (cs_b sp). induction (cs_A sp) as [|a A IH]; intros [|c l] [|i] H; try discriminate; simpl in *; [congruence|eauto].
  - revert i Hi. clear. generalize (cs_b sp). induction (cs_A sp) as [|a A IH]; intros [|c l] [|i] H; try discriminate; simpl in *; [congruence|eauto].
Qed.
Lemma qdot_sub_Z r : forall a b, length a = length b -> qdot r (map Qc_of_Z (vadd a (vopp b))) = (qdot r (map Qc_of_Z a) - qdot r (map Qc_of_Z b))%Qc.
Proof.
  induction r as [|x r IH]; intros [|a aa] [|b bb] L; try discriminate; cbn [map qdot]; try ring; [reflexivity|]. unfold vopp, vadd in *. cbn [map combine fst snd qdot] in *. rewrite IH by (simpl in L; lia). rewrite Qc_of_Z_add, Qc_of_Z_opp. ring.
Qed.
Section Points.
Variables (oxi : species -> Z) (rank : list (list Z) -> nat) (bits : list (list species)) (sizes : list Z) (neutral : bool) (other : option (list entry)) (sp : cspace) (eqs : list (list Qc * Qc)).
Hypotheses (B : built oxi rank bits sizes neutral other sp eqs) (EX : exact_eqs eqs) (ER : exact_rhs sp) (RG : regular sp).
Variable vs : list (list Z).
Hypothesis GB : good_basis sp vs.
Variables (size : Z) (n0 : list Z).
Hypotheses (HS : 0 < size) (HB : base_solution sp size = Some n0).

Lemma basis_facts : rows (dims sp) vs /\ length n0 = dims sp /\ meets sp size (map Qc_of_Z n0) /\ forall z, in_lattice (dims sp) vs z <-> kernel sp (map Qc_of_Z z).
Proof.
  destruct GB as [R I (ms & us & HV & SL)]. rewrite Forall_forall in R. pose proof (built_shaped B) as W. destruct (base_facts W ER RG HS HB HV) as (L0 & M0 & _). split; [exact R|]. split; auto. split; auto.
  unfold basis in HV. destruct (solve_at sp ms) as [[nm us']|] eqn:EM; [|discriminate]. cbn [option_bind] in HV. injection HV as ->. destruct (space_lattice B ER RG HS HB EM) as (_ & _ & _ & LAT). intro z. rewrite <- (SL z). apply LAT.
Qed.
(** The points with the feasible coordinates are the compositions. *)
Lemma point_ok x : length x = length vs -> (composition_ok oxi bits sizes neutral eqs size (map Qc_of_Z (lattice_point n0 vs x)) <-> feasible n0 vs x).
Proof.
  intros LX. destruct basis_facts as (R & L0 & M0 & LAT). pose proof (length_point x L0 R) as LP. rewrite (meets_ok _ B EX HS). split.
  - intros (_ & NN). split; auto. intros i Hi. rewrite zcomb_lc, <- (nth_point x i L0 R). apply (proj2 (Qc_of_Z_le 0 _)). apply NN. apply in_map. apply nth_In. lia.
  - intros (_ & F). split; [|intros q Q; apply in_map_iff in Q as (z & <- & Z); apply In_nth with (d := 0) in Z as (i & Hi & <-); apply (proj1 (Qc_of_Z_le 0 _)); rewrite (nth_point x i L0 R), <- zcomb_lc; apply F; lia].
    assert (K : kernel sp (map Qc_of_Z (vadd (lattice_point n0 vs x) (vopp n0)))).
    { apply LAT. split; [rewrite length_vadd_; rewrite ?length_vopp; congruence|]. exists (combine x vs). split; [apply combine_snd; auto|]. intro i. rewrite nth_vadd_, nth_vopp by (rewrite length_vopp; congruence). rewrite (nth_point x i L0 R). lia. }
    destruct K as (_ & K). destruct M0 as (_ & M0). split; [rewrite map_length; auto|]. intros i row b Hi Hb. rewrite <- (M0 i row b Hi Hb). specialize (K row (nth_error_In _ _ Hi)). rewrite qdot_sub_Z in K by congruence.
    replace (qdot (map Qc_of_Z row) (map Qc_of_Z (lattice_point n0 vs x))) with ((qdot (map Qc_of_Z row) (map Qc_of_Z (lattice_point n0 vs x)) - qdot (map Qc_of_Z row) (map Qc_of_Z n0)) + qdot (map Qc_of_Z row) (map Qc_of_Z n0))%Qc by ring. rewrite K. ring.
Qed.
(** Every composition has coordinates. *)
Lemma point_of n : composition_ok oxi bits sizes neutral eqs size (map Qc_of_Z n) -> exists x, length x = length vs /\ n = lattice_point n0 vs x.
Proof.
  intros OK. destruct basis_facts as (R & L0 & (_ & M0) & LAT). destruct (proj1 (meets_ok _ B EX HS) OK) as ((LN & M) & _). rewrite map_length in LN.
  assert (K : kernel sp (map Qc_of_Z (vadd n (vopp n0)))).
  { split; [rewrite map_length, length_vadd_; rewrite ?length_vopp; congruence|]. intros row Hr. rewrite qdot_sub_Z by congruence. apply In_nth_error in Hr as (i & Hi). destruct (nth_error (cs_b sp) i) as [b|] eqn:Eb.
    - rewrite (M i row b Hi Eb), (M0 i row b Hi Eb). ring.
    - exfalso. apply nth_error_None in Eb. destruct (built_rows B) as (_ & _ & _ & _ & E5 & _). assert (i < length (cs_A sp))%nat by (apply nth_error_Some; congruence). lia. }
  apply LAT in K as (_ & l & ML & E). exists (map fst l). split; [rewrite <- ML, !map_length; auto|]. apply nth_ext with 0 0; [rewrite (length_point _ L0 R); auto|]. intros i _. rewrite (nth_point _ i L0 R). replace (combine (map fst l) vs) with l by (rewrite <- ML; symmetry; apply combine_fst_snd). rewrite <- E, nth_vadd_, nth_vopp by (rewrite length_vopp; congruence). lia.
Qed.
Lemma leq_iff n : leq_ok sp size n = true <-> within_leq sp size n.
Proof.
  unfold leq_ok, within_leq. rewrite forallb_forall. assert (SP : (0 < Qc_of_Z size)%Qc) by (apply Qc_of_Z_pos; auto). assert (S0 : Qc_of_Z size <> 0%Qc) by (apply size_pos_nz; auto).
  assert (E : forall a b : Qc, (a / Qc_of_Z size <= b)%Qc <-> (a <= b * Qc_of_Z size)%Qc).
  { intros a b. split; intros H.
    - replace a with (a / Qc_of_Z size * Qc_of_Z size)%Qc by (field; auto). apply Qcmult_le_compat_r; auto. apply Qclt_le_weak; auto.
    - apply Qcmult_lt_0_le_reg_r with (Qc_of_Z size); auto. replace (a / Qc_of_Z size * Qc_of_Z size)%Qc with a by (field; auto). auto. }
  split.
  - intros H a b I. specialize (H (a, b) I). cbn [fst snd] in H. destruct (Qcleb_spec (qdot a (map Qc_of_Z n) / Qc_of_Z size) (b + num_tol)) as [L|]; [|discriminate]. apply E. auto.
  - intros H [a b] I. cbn [fst snd]. specialize (H a b I). apply E in H. destruct (Qcleb_spec (qdot a (map Qc_of_Z n) / Qc_of_Z size) (b + num_tol)); auto.
Qed.
End Points.

(** ** Scaling *)
Lemma base_scale sp g size n0 : 0 < g -> 0 < size -> base_solution sp size = Some n0 -> base_solution sp (g * size) = Some (vscale g n0).
Proof.
  intros G S H. unfold base_solution in *. destruct (integerize (cs_b sp)) as [[ints m]|]; [|discriminate]. cbn [option_bind] in *. destruct (Z.eqb_spec (size mod m) 0) as [D|]; [|discriminate]. cbn [negb] in H.
  assert (M0 : m <> 0) by (intros ->; rewrite Zmod_0_r in D; lia). apply Z.mod_divide in D; auto. destruct D as (k & ->). replace (g * (k * m)) with (g * k * m) by ring. rewrite Z.mod_mul by auto. cbn [negb Z.eqb]. destruct (solve_at sp m) as [[nm us]|]; [|discriminate]. cbn [option_bind] in *. injection H as <-.
  f_equal. unfold vscale. rewrite map_map. apply map_ext. intros a. rewrite !Z.mul_assoc, !Z.div_mul by auto. ring.
Qed.
Lemma point_scale d g n0 vs x : length n0 = d -> rows d vs -> lattice_point (vscale g n0) vs (vscale g x) = vscale g (lattice_point n0 vs x).
Proof.
  intros L R. assert (L' : length (vscale g n0) = d) by (unfold vscale; rewrite map_length; auto). assert (NV : forall v i, nth i (vscale g v) 0 = g * nth i v 0) by (intros v i; unfold vscale; transitivity (nth i (map (Z.mul g) v) (g * 0)); [rewrite Z.mul_0_r; auto|apply map_nth]).
  apply nth_ext with 0 0; [rewrite (length_point _ L' R); unfold vscale; rewrite map_length, (length_point _ L R); auto|]. intros i _. rewrite (nth_point _ i L' R), !NV, (nth_point _ i L R).
  assert (E : forall ws, lc (combine (vscale g x) ws) i = g * lc (combine x ws) i); [|rewrite E; lia]. clear. induction x as [|a x IH]; intros [|w ws]; try (unfold lc; simpl; lia). unfold vscale in *. cbn [map combine]. rewrite !lc_cons, IH. lia.
Qed.
Lemma qdot_vscale a g n : qdot a (map Qc_of_Z (vscale g n)) = (Qc_of_Z g * qdot a (map Qc_of_Z n))%Qc.
Proof. apply qdot_scale_l. Qed.
Lemma composition_scale oxi rank bits sizes neutral other sp eqs g size n : built oxi rank bits sizes neutral other sp eqs -> exact_eqs eqs -> 0 < g -> 0 < size ->
  composition_ok oxi bits sizes neutral eqs size (map Qc_of_Z n) -> composition_ok oxi bits sizes neutral eqs (g * size) (map Qc_of_Z (vscale g n)).
Proof.
  intros B EX G S OK. apply (meets_ok _ B EX); [lia|]. apply (meets_ok _ B EX S) in OK as ((L & M) & NN). split.
  - split; [unfold vscale; rewrite !map_length in *; auto|]. intros i row b Hi Hb. rewrite qdot_vscale, (M i row b Hi Hb), Qc_of_Z_mul. ring.
  - intros q Q. apply in_map_iff in Q as (z & <- & Z). apply in_map_iff in Z as (y & <- & Y). apply (proj1 (Qc_of_Z_le 0 _)). assert (0 <= y); [|nia]. apply (proj2 (Qc_of_Z_le 0 _)). apply NN, in_map. auto.
Qed.
Lemma within_scale sp g size n : 0 < g -> within_leq sp size n -> within_leq sp (g * size) (vscale g n).
Proof.
  intros G W a b I. rewrite qdot_vscale, Qc_of_Z_mul. specialize (W a b I). rewrite (Qcmult_comm (Qc_of_Z g) (qdot _ _)). replace ((b + num_tol) * (Qc_of_Z g * Qc_of_Z size))%Qc with ((b + num_tol) * Qc_of_Z size * Qc_of_Z g)%Qc by ring. apply Qcmult_le_compat_r; auto. apply Qclt_le_weak, Qc_of_Z_pos. auto.
Qed.

(** ** Theorems *)
Section Grids.
Variables (lp : list Z -> list (list Z) -> option (Q * Q)) (tol : Q).
Variables (oxi : species -> Z) (rank : list (list Z) -> nat) (bits : list (list species)) (sizes : list Z) (neutral : bool) (other : option (list entry)) (sp : cspace) (eqs : list (list Qc * Qc)) (vs : list (list Z)).
Hypotheses (B : built oxi rank bits sizes neutral other sp eqs) (EX : exact_eqs eqs) (ER : exact_rhs sp) (RG : regular sp) (GB : good_basis sp vs).
Hypothesis (TV : Forall (tol_ok tol) vs).
Variables (before : list (Z * Z)).
Hypothesis HF : Forall (fun r => 0 < fst r /\ 0 < snd r) before.

(** Every point of a grid, whatever the step, is a composition of the supercell. *)
Theorem C95_sound size step grid c : 0 < size -> 0 < step ->
  get_composition_grid lp tol sp vs size step (asked lp tol sp vs before []) = Some (grid, c) ->
  exists n0, base_solution sp size = Some n0 /\
  forall x, In x grid -> let n := lattice_point n0 vs x in
    composition_ok oxi bits sizes neutral eqs size (map Qc_of_Z n) /\ within_leq sp size n.
Proof.
  intros S T H. assert (N : store_ok lp tol sp vs []) by constructor. destruct (grid_plain (asked_ok HF N) S T) as (E & _). rewrite H in E. cbn [option_map fst] in E. unfold plain in E. destruct (gcd_parts S T) as (G0 & GS & GT & G1). set (s := Z.gcd size step) in *.
  unfold enumerate_grid in E. destruct (base_solution sp (size / s)) as [n1|] eqn:HB; [|discriminate]. cbn [option_bind] in E. destruct (natural lp tol (step / s) n1 vs) as [xs|] eqn:EN; [|discriminate]. cbn [option_bind option_map fst] in E. injection E as ->.
  assert (SZ : s * (size / s) = size) by (destruct (Z.gcd_divide_l size step) as (a & EA); fold s in EA; rewrite EA at 1; rewrite Z.div_mul by lia; lia).
  exists (vscale s n1). split; [rewrite <- SZ; apply base_scale; auto|]. intros x X. apply in_map_iff in X as (y & <- & Y). apply filter_In in Y as (Y & LQ). cbv zeta.
  destruct (basis_facts B ER RG GB GS HB) as (R & L0 & _). rewrite (point_scale s y L0 R).
  assert (FY : feasible n1 vs y) by (apply (@C43_natural_step_partial lp tol (step / s) GT vs n1 xs TV); auto; apply Forall_forall; intros v V; rewrite (R v V); auto).
  split; rewrite <- SZ.
  - apply (composition_scale B EX); auto. apply (point_ok B EX ER RG GB GS HB); [apply FY|auto].
  - apply within_scale; auto. apply (leq_iff _ GS). auto.
Qed.
(** When the step divides the size, the grid is that of the smaller cell, with every composition once. *)
Theorem C95_complete_partial size step grid c : lp_ok lp tol -> (tol < 1 # 2)%Q -> 0 < size -> 0 < step -> (step | size) ->
  get_composition_grid lp tol sp vs size step (asked lp tol sp vs before []) = Some (grid, c) ->
  exists n0, base_solution sp size = Some n0 /\ NoDup (map (lattice_point n0 vs) grid) /\
  forall n, In n (map (lattice_point n0 vs) grid) <->
    exists n', n = vscale step n' /\ composition_ok oxi bits sizes neutral eqs (size / step) (map Qc_of_Z n') /\ within_leq sp (size / step) n'.
Proof.
  intros LP TL S T DV H. assert (N : store_ok lp tol sp vs []) by constructor. destruct (grid_plain (asked_ok HF N) S T) as (E & _). rewrite H in E. cbn [option_map fst] in E. unfold plain in E. destruct (gcd_parts S T) as (_ & GS & _ & _).
  assert (GG : Z.gcd size step = step) by (rewrite Z.gcd_comm; apply Z.divide_gcd_iff; auto; lia). rewrite GG in *. rewrite Z.div_same in E by lia. set (s := step) in *.
  unfold enumerate_grid in E. destruct (base_solution sp (size / s)) as [n1|] eqn:HB; [|discriminate]. cbn [option_bind] in E. destruct (natural lp tol 1 n1 vs) as [xs|] eqn:EN; [|discriminate]. cbn [option_bind option_map fst] in E. injection E as ->.
  assert (SZ : s * (size / s) = size) by (destruct DV as (a & EA); rewrite EA at 1; rewrite Z.div_mul by lia; lia).
  exists (vscale s n1). split; [rewrite <- SZ at 1; apply base_scale; auto|]. destruct (basis_facts B ER RG GB GS HB) as (R & L0 & _).
  destruct (@C43_natural_partial lp tol n1 vs xs LP TL TV) as (ND & FE); auto; [apply Forall_forall; intros v V; rewrite (R v V); auto|].
  assert (MP : map (lattice_point (vscale s n1) vs) (scale_grid s (filter (fun x => leq_ok sp (size / s) (lattice_point n1 vs x)) xs)) = map (fun x => vscale s (lattice_point n1 vs x)) (filter (fun x => leq_ok sp (size / s) (lattice_point n1 vs x)) xs)).
  { unfold scale_grid. rewrite map_map. apply map_ext. intros x. apply (point_scale _ x L0 R). }
  rewrite MP. split.
  - rewrite <- (map_map (lattice_point n1 vs) (vscale s)). assert (NP : NoDup (map (lattice_point n1 vs) (filter (fun x => leq_ok sp (size / s) (lattice_point n1 vs x)) xs))).
    { apply (grid_nodup L0 R (gb_independent GB)); [apply NoDup_filter; auto|]. intros x X. apply filter_In in X as (X & _). apply FE in X. apply X. }
    clear -NP T. revert NP. generalize (map (lattice_point n1 vs) (filter (fun x => leq_ok sp (size / s) (lattice_point n1 vs x)) xs)). induction l as [|p l IH]; intros H; cbn [map]; constructor; inversion H; subst; auto.
    intros I. apply in_map_iff in I as (q & E & Q). apply H2. replace p with q; auto. clear -E T. revert p E. unfold vscale. fold s in T. induction q as [|a q IH]; intros [|b p] E; try discriminate; auto. cbn [map] in E. assert (s * a = s * b /\ map (Z.mul s) q = map (Z.mul s) p) as (E1 & E2) by (split; congruence). f_equal; [nia|auto].
  - intro n. rewrite in_map_iff. split.
    + intros (x & <- & X). apply filter_In in X as (X & LQ). apply FE in X. exists (lattice_point n1 vs x). split; auto. split; [apply (point_ok B EX ER RG GB GS HB); [apply X|auto]|apply (leq_iff _ GS); auto].
    + intros (n' & -> & OK & W). destruct (point_of B EX ER RG GB GS HB OK) as (x & LX & ->). exists x. split; auto. apply filter_In. split; [apply FE; apply (point_ok B EX ER RG GB GS HB); auto|apply (leq_iff _ GS); auto].
Qed.
(** Without a step: exactly the compositions of the supercell. *)
Theorem C95_all_partial size grid c : lp_ok lp tol -> (tol < 1 # 2)%Q -> 0 < size ->
  get_composition_grid lp tol sp vs size 1 (asked lp tol sp vs before []) = Some (grid, c) ->
  exists n0, base_solution sp size = Some n0 /\ NoDup (map (lattice_point n0 vs) grid) /\
  forall n, In n (map (lattice_point n0 vs) grid) <-> composition_ok oxi bits sizes neutral eqs size (map Qc_of_Z n) /\ within_leq sp size n.
Proof.
  intros LP TL S H. destruct (@C95_complete_partial size 1 grid c LP TL S ltac:(lia) (Z.divide_1_l _) H) as (n0 & HB & ND & I). exists n0. split; auto. split; auto. intro n. rewrite I, Z.div_1_r.
  assert (V1 : forall v, vscale 1 v = v) by (intros v; unfold vscale; rewrite <- (map_id v) at 2; apply map_ext; intros; lia). split; [intros (n' & -> & X); rewrite V1; auto|intros X; exists n; rewrite V1; auto].
Qed.
End Grids.

(** ** A size that has compositions, but no grid with a step *)
Definition half_other : option (list entry) := Some [Tuple [1; 0; 0]%Qc (Qc_frac 1 2) (Some REq)].
Definition half_sp : cspace := space_of (make_space (fun _ => 0) (fun _ => 2%nat) [[Sp 0; Sp 1; Sp 2]] (Some [1]) false half_other).
(** Two primitive cells have two compositions; with a step of two the grid of one cell is tried, which has none. *)
Theorem C95_half_refuted lp : built (fun _ => 0) (fun _ => 2%nat) [[Sp 0; Sp 1; Sp 2]] [1] false half_other half_sp [([1; 0; 0]%Qc, Qc_frac 1 2)] /\
  base_solution half_sp 2 = Some [1; 1; 0] /\ basis half_sp 2 = Some [[0; -1; 1]] /\
  composition_ok (fun _ => 0) [[Sp 0; Sp 1; Sp 2]] [1] false [([1; 0; 0]%Qc, Qc_frac 1 2)] 2 (map Qc_of_Z [1; 1; 0]) /\
  (exists c, get_composition_grid lp (1 # 1000000) half_sp [[0; -1; 1]] 2 1 [] = Some ([[0]; [1]], c)) /\
  get_composition_grid lp (1 # 1000000) half_sp [[0; -1; 1]] 2 2 [] = None.
Proof.
  split; [apply built_by; vm_compute; reflexivity|]. split; [vm_compute; reflexivity|]. split; [vm_compute; reflexivity|]. split; [apply composition_by; vm_compute; reflexivity|]. split; [eexists; vm_compute; reflexivity|vm_compute; reflexivity].
Qed.

(** The space of C45, with an inequality, after other requests. *)
Definition c95_lp (n0 : list Z) (vs : list (list Z)) : option (Q * Q) :=
  if list_eq_dec Z.eq_dec n0 [-2; 2; 2; 2; 0] then if list_eq_dec (list_eq_dec Z.eq_dec) vs c45_vs then Some ((-1 # 1)%Q, (2 # 3)%Q) else None else None.
Lemma c95_lp_ok : lp_ok c95_lp (1 # 1000000).
Proof.
  intros n0 vs lo hi H a x (L & F). unfold c95_lp in H. destruct (list_eq_dec Z.eq_dec n0 _) as [->|]; [|discriminate]. destruct (list_eq_dec _ vs c45_vs) as [->|]; [|discriminate]. injection H as <- <-.
  pose proof (F 0%nat ltac:(simpl; lia)) as F0. pose proof (F 1%nat ltac:(simpl; lia)) as F1. pose proof (F 2%nat ltac:(simpl; lia)) as F2. pose proof (F 3%nat ltac:(simpl; lia)) as F3. pose proof (F 4%nat ltac:(simpl; lia)) as F4. destruct x as [|b [|? ?]]; try discriminate. cbn [nth zcomb c45_vs] in F0, F1, F2, F3, F4. unfold Qle, Qminus, Qplus, Qopp, inject_Z. cbn [Qnum Qden Pos.mul]. lia.
Qed.
Lemma c95_good : good_basis c45_sp c45_vs.
Proof.
  constructor; [repeat constructor| |exists 2, c45_vs; split; [vm_compute; reflexivity|intro u; tauto]].
  intros l M E p P. destruct l as [|[a v] [|[b w] [|? ?]]]; try discriminate. cbn [map snd] in M. assert (v = [-3; 1; 2; 0; 0] /\ w = [2; -1; -1; -1; 1]) as (-> & ->) by (unfold c45_vs in M; split; congruence).
  pose proof (E 3%nat) as E3. pose proof (E 1%nat) as E1. unfold lc in E1, E3. cbn [map zsum fst snd nth] in E1, E3. destruct P as [<-|[<-|[]]]; cbn [fst]; lia.
Qed.
Example C95_case : built c45_oxi (fun _ => 3%nat) c45_bits [1; 1] true c45_other c45_sp [] /\ exact_eqs [] /\ exact_rhs c45_sp /\ regular c45_sp /\ good_basis c45_sp c45_vs /\
  Forall (tol_ok (1 # 1000000)) c45_vs /\ lp_ok c95_lp (1 # 1000000) /\ ((1 # 1000000) < 1 # 2)%Q /\
  (exists c, get_composition_grid c95_lp (1 # 1000000) c45_sp c45_vs 2 1 (asked c95_lp (1 # 1000000) c45_sp c45_vs [(4, 2); (3, 1)] []) = Some ([[-1; 0]; [0; 1]], c)) /\
  (exists c, get_composition_grid c95_lp (1 # 1000000) c45_sp c45_vs 6 3 (asked c95_lp (1 # 1000000) c45_sp c45_vs [(4, 2); (3, 1)] []) = Some ([[-3; 0]; [0; 3]], c)) /\
  ~ within_leq c45_sp 2 (lattice_point [-2; 2; 2; 2; 0] c45_vs [0; 2]).
Proof.
  split; [apply built_by; vm_compute; reflexivity|]. split; [intros a b x []|]. split; [apply rhs_by; vm_compute; reflexivity|]. split; [apply c45_regular|]. split; [apply c95_good|].
  split; [repeat constructor; try discriminate; intros a [<-|[<-|[<-|[<-|[<-|[]]]]]]; reflexivity|]. split; [apply c95_lp_ok|]. split; [reflexivity|]. split; [eexists; vm_compute; reflexivity|]. split; [eexists; vm_compute; reflexivity|].
  intros W. apply leq_iff in W; [|lia]. vm_compute in W. discriminate.
Qed.

Print Assumptions C95_history.
Print Assumptions C95_sound.
Print Assumptions C95_complete_partial.
Print Assumptions C95_all_partial.
Print Assumptions C95_half_refuted.
