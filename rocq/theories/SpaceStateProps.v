(** C123: what a composition space remembers and its dictionary. *)
From Verif Require Import LibProofs QcLib RationalizeProps SnfProofs SnfProps CompSpaceProofs CompSpaceProps NatSolProps FlipTableProps CompGridProps.
From Verif Require Export SpaceState.
Set Implicit Arguments.
Unset Strict Implicit.
Open Scope Z_scope.

(** ** The dictionary *)
Lemma dim_ids_length bits : length (cs_dim_ids bits) = length bits.
Proof.
  unfold cs_dim_ids, get_dim_ids_by_sublattice. generalize 0%nat. induction bits as [|b bits IH]; intros k; auto. cbn [map dim_ids_from length]. rewrite IH. auto.
Qed.
Lemma integer_den z : Zpos (Qden (this (Qc_of_Z z))) <= 1.
Proof. pose proof (@den_qfrac z 1 ltac:(lia)) as D. replace (qfrac z 1) with (Qc_of_Z z) in D; auto. Qed.
Lemma Qc_of_Z_one v : (v * Qc_of_Z 1)%Qc = v.
Proof. change (Qc_of_Z 1) with 1%Qc. ring. Qed.
(** Integers are their own multiples. *)
Lemma integerize_ints row : row <> [] -> integerize (map Qc_of_Z row) = Some (row, 1).
Proof.
  intros NE. assert (N : map Qc_of_Z row <> []) by (destruct row; [congruence|discriminate]).
  destruct (@C78_exact max_den num_tol (map Qc_of_Z row) ltac:(unfold max_den; lia) ltac:(discriminate) N) as (ints & m & E & P & Q & K).
  { intros x Hx. apply in_map_iff in Hx as (z & <- & _). pose proof (@integer_den z). unfold max_den. lia. }
  assert (M : (m | 1)) by (apply K; intros x Hx; apply in_map_iff in Hx as (z & <- & _); exists z; apply Qc_of_Z_one).
  assert (m = 1) by (apply Z.divide_1_r_nonneg; auto; lia). subst m. unfold integerize. rewrite E. do 2 f_equal.
  apply (f_equal (map qround)) in Q. rewrite !map_map in Q. rewrite (map_ext _ (fun z => z)), map_id in Q by apply qround_int. rewrite Q. rewrite <- (map_id row) at 2. apply map_ext. intros z. rewrite Qc_of_Z_one. apply qround_int.
Qed.
Lemma eq_row_again nd c row rhs : eq_row nd c = Some (row, rhs) -> eq_row nd (map Qc_of_Z row, rhs) = Some (row, rhs).
Proof.
  unfold eq_row. destruct c as [a b]. cbn [fst snd]. rewrite map_length. destruct (Nat.eqb_spec (length a) nd) as [L|]; [|discriminate]. destruct (integerize a) as [[ints m]|] eqn:E; [|discriminate]. cbn [option_bind]. intros H. injection H as <- <-.
  rewrite map_length. destruct (Nat.eqb_spec (length a) nd); [|congruence]. rewrite integerize_ints.
  - cbn [option_bind]. rewrite Qc_of_Z_one. do 2 f_equal. rewrite !map_map. apply map_ext. intros x. rewrite Qc_of_Z_one. apply qround_int.
  - intros M. apply map_eq_nil in M. subst a. unfold integerize, integerize_vector in E. discriminate E.
Qed.
Lemma eq_rows_again nd eqs others : opt_map (eq_row nd) eqs = Some others -> opt_map (eq_row nd) (map (fun p => (map Qc_of_Z (fst p), snd p)) others) = Some others.
Proof.
  revert others. induction eqs as [|c eqs IH]; intros others H; cbn [opt_map] in H; [injection H as <-; auto|]. destruct (eq_row nd c) as [[row rhs]|] eqn:E; [|discriminate]. destruct (opt_map (eq_row nd) eqs) as [os|] eqn:E2; [|discriminate]. injection H as <-.
  cbn [map opt_map fst snd]. rewrite (eq_row_again E), (IH _ eq_refl). auto.
Qed.
Lemma fold_eqs l : forall c, fold_left add_entry (map (fun p : list Qc * Qc => (fst p, snd p, Some REq)) l) c = mkCL (cl_eq c ++ l) (cl_leq c).
Proof. induction l as [|[a b] l IH]; intros c; cbn [map fold_left]; [rewrite app_nil_r; destruct c; auto|]. rewrite IH. cbn [add_entry cl_eq cl_leq fst snd]. rewrite <- app_assoc. auto. Qed.
Lemma fold_leqs l : forall c, fold_left add_entry (map (fun p : list Qc * Qc => (fst p, snd p, Some RLe)) l) c = mkCL (cl_eq c) (cl_leq c ++ l).
Proof. induction l as [|[a b] l IH]; intros c; cbn [map fold_left]; [rewrite app_nil_r; destruct c; auto|]. rewrite IH. cbn [add_entry cl_eq cl_leq fst snd]. rewrite <- app_assoc. auto. Qed.
Lemma read_tuples bits eqs leqs :
  read_entries bits (map (fun p => Tuple (fst p) (snd p) (Some REq)) eqs ++ map (fun p => Tuple (fst p) (snd p) (Some RLe)) leqs) = Some (mkCL eqs leqs).
Proof.
  unfold read_entries. assert (E : forall r l, opt_map (read_entry bits) (map (fun p => Tuple (fst p) (snd p) (Some r)) l) = Some (map (fun p : list Qc * Qc => (fst p, snd p, Some r)) l)) by (intros r l; induction l as [|p l IH]; auto; cbn [map opt_map read_entry]; rewrite IH; auto).
  assert (A : forall l1 l2 r1 r2, opt_map (read_entry bits) l1 = Some r1 -> opt_map (read_entry bits) l2 = Some r2 -> opt_map (read_entry bits) (l1 ++ l2) = Some (r1 ++ r2)).
  { induction l1 as [|x l1 IH]; intros l2 r1 r2 H1 H2; cbn [opt_map app] in *; [injection H1 as <-; auto|]. destruct (read_entry bits x); [|discriminate]. destruct (opt_map (read_entry bits) l1) as [q|] eqn:Q; [|discriminate]. injection H1 as <-. rewrite (IH _ _ _ eq_refl H2). auto. }
  rewrite (A _ _ _ _ (E REq eqs) (E RLe leqs)). cbn [option_bind]. rewrite fold_left_app, fold_eqs, fold_leqs. auto.
Qed.
Lemma combine_split_map {A B} (l : list (A * B)) : combine (map fst l) (map snd l) = l.
Proof. induction l as [|[a b] l IH]; auto. cbn [map combine fst snd]. rewrite IH. auto. Qed.
Lemma skipn_combine_maps {A B} n (l : list (A * B)) : combine (skipn n (map fst l)) (skipn n (map snd l)) = skipn n l.
Proof. rewrite !skipn_map. apply combine_split_map. Qed.

Section Dictionary.
Variables (oxi : species -> Z) (rank : list (list Z) -> nat).
(** The space itself: its equations and inequalities are those of the dictionary. *)
Lemma made_again bits sizes neutral other sp s : make_space oxi rank bits sizes neutral other = Some sp -> ss_space s = sp -> ss_neutral s = neutral ->
  make_space oxi rank (sd_bits (as_dict s)) (Some (sd_sizes (as_dict s))) neutral (Some (sd_other (as_dict s))) = Some sp.
Proof.
  intros H ES EN. unfold make_space in H. set (sz := match sizes with Some z => z | None => map (fun _ => 1) bits end) in *. destruct (Nat.eqb_spec (length sz) (length bits)) as [L|]; [|discriminate]. cbn [negb] in H.
  destruct (assign bits None other) as [attr|]; [|discriminate]. cbn [option_bind] in H. set (c := match attr with Some c => c | None => mkCL [] [] end) in *. unfold equations in H.
  destruct (opt_map (eq_row (cs_dims bits)) (cl_eq c)) as [others|] eqn:EO; [|discriminate]. cbn [option_bind] in H. set (rows := _ ++ _ ++ others) in H. destruct (cs_dims bits <=? rank (map fst rows))%nat eqn:RK; [discriminate|]. injection H as <-.
  unfold as_dict. rewrite ES, EN. cbn [sd_bits sd_sizes sd_other cs_bits cs_sizes cs_A cs_b cs_leq]. rewrite skipn_combine_maps.
  assert (SK : skipn (length bits + (if neutral then 1 else 0)) rows = others).
  { unfold rows. rewrite app_assoc. rewrite skipn_app. rewrite skipn_all2; [|rewrite app_length, map_length, combine_length, dim_ids_length, L; destruct neutral; cbn [length]; lia].
    replace (_ - _)%nat with 0%nat; auto. rewrite app_length, map_length, combine_length, dim_ids_length, L. destruct neutral; cbn [length]; lia. }
  rewrite SK. unfold make_space. rewrite L, Nat.eqb_refl. cbn [negb]. unfold assign.
  replace (map (fun p : list Z * Qc => Tuple (map Qc_of_Z (fst p)) (snd p) (Some REq)) others) with (map (fun p => Tuple (fst p) (snd p) (Some REq)) (map (fun p => (map Qc_of_Z (fst p), snd p)) others)) by (rewrite map_map; auto).
  rewrite read_tuples. cbn [option_bind cl_eq cl_leq]. unfold equations. rewrite (eq_rows_again EO). cbn [option_bind]. fold rows. rewrite RK. auto.
Qed.
Lemma loaded bits sizes neutral other sp s : make_space oxi rank bits sizes neutral other = Some sp -> ss_space s = sp -> ss_neutral s = neutral -> from_dict oxi rank (as_dict s) = Some s.
Proof.
  intros H ES EN. unfold from_dict, new_state. rewrite <- EN in H. change (sd_neutral (as_dict s)) with (ss_neutral s). rewrite (made_again H ES eq_refl). cbn [option_bind ss_space ss_neutral ss_optimize ss_ergodic]. destruct s. cbn in *. subst. auto.
Qed.
End Dictionary.

(** ** The values of a space that remembers nothing *)
Section Values.
Variables (oxi : species -> Z) (rank : list (list Z) -> nat) (vertices : list (list Z) -> list Qc -> option (list (list Qc)))
  (knn : knn_oracle) (lp : list Z -> list (list Z) -> option (Q * Q)) (tol : Q) (sp : cspace) (neutral optimize ergodic : bool).
Definition v_vertices : option (list (list Qc)) := vertices (cs_A sp) (cs_b sp).
Definition v_min : option Z := let? v := v_vertices in option_map snd (integerize_multiple max_den num_tol (cs_dims (cs_bits sp)) v).
Definition v_size (size : option Z) : option Z := match size with Some m => Some m | None => v_min end.
Definition v_basis : option (list (list Z)) := let? m := v_min in space_basis rank lp tol sp m optimize.
Definition v_grid (size step : Z) : option (list (list Z)) := let? vs := v_basis in option_map fst (get_composition_grid lp tol sp vs size step []).
Definition v_table : option (list (list Z)) := let? vs := v_basis in let? m := v_min in flip_table knn lp tol sp vs m ergodic [].
Definition value (r : request) : option answer :=
  match r with
  | Vertices => option_map Numbers v_vertices
  | MinSize => option_map Number v_min
  | Base size => option_map Vector (let? m := v_size size in base_solution sp m)
  | Basis => option_map Matrix v_basis
  | Table => option_map Matrix v_table
  | Grid size step => option_map Matrix (v_grid size step)
  | MinGrid => option_map Matrix (let? m := v_min in v_grid m 1)
  | Save => Some Saved
  end.
(** Sizes and steps are positive. *)
Definition request_ok (r : request) : Prop := match r with Grid size step => 0 < size /\ 0 < step | _ => True end.

Record kept (s : sstate) : Prop := {
  k_space : ss_space s = sp; k_neutral : ss_neutral s = neutral; k_optimize : ss_optimize s = optimize; k_ergodic : ss_ergodic s = ergodic;
  k_vertices : forall v, ss_vertices s = Some v -> v_vertices = Some v;
  k_min : forall m, ss_min s = Some m -> v_min = Some m;
  k_n0 : forall n, ss_n0 s = Some n -> exists ints m, integerize (cs_b sp) = Some (ints, m) /\ option_map fst (solve_at sp m) = Some n;
  k_vs : forall v, ss_vs s = Some v -> v_basis = Some v;
  k_table : forall t, ss_table s = Some t -> v_table = Some t;
  k_grids : match v_basis with Some vs => store_ok lp tol sp vs (ss_grids s) | None => ss_grids s = [] end }.
Definition gives {A} (c : call A) (v : option A) : Prop := forall s, kept s -> kept (fst (c s)) /\ snd (c s) = v.
Lemma gives_done {A} (x : option A) : gives (done x) x.
Proof. intros s K. auto. Qed.
Lemma gives_then {A B} (c : call A) (f : A -> call B) v g : gives c v -> (forall a, v = Some a -> gives (f a) (g a)) -> gives (then_ c f) (option_bind v g).
Proof. intros C F s K. unfold then_. destruct (C s K) as (K1 & E). destruct (c s) as [s1 x]. cbn [fst snd] in *. subst x. destruct v as [a|]; [|auto]. cbn [option_bind]. apply (F a eq_refl); auto. Qed.
Lemma gives_stored {A} (get : sstate -> option A) put (c : call A) v :
  (forall s a, kept s -> get s = Some a -> v = Some a) -> (forall s a, kept s -> v = Some a -> kept (put s a)) -> gives c v -> gives (stored get put c) v.
Proof.
  intros G P C s K. unfold stored. destruct (get s) as [a|] eqn:E; [rewrite (G s a K E); auto|]. destruct (C s K) as (K1 & E1). destruct (c s) as [s1 x]. cbn [fst snd] in *. subst x. destruct v as [a|]; cbn [fst snd]; split; auto.
Qed.
Lemma gives_space {A} (f : cspace -> option A) : gives (fun s => done (f (ss_space s)) s) (f sp).
Proof. intros s K. cbn. rewrite (k_space K). auto. Qed.

Ltac keep K := destruct K; constructor; cbn; auto; try congruence.
Lemma vertices_gives : gives (ask_vertices vertices) v_vertices.
Proof.
  apply gives_stored.
  - intros s a K. apply (k_vertices K).
  - intros s a K E. keep K.
  - apply (gives_space (fun sp => vertices (cs_A sp) (cs_b sp))).
Qed.
Lemma min_gives : gives (ask_min vertices) v_min.
Proof.
  apply gives_stored.
  - intros s a K. apply (k_min K).
  - intros s a K E. keep K.
  - apply gives_then; [apply vertices_gives|]. intros v _. apply (gives_space (fun sp => option_map snd (integerize_multiple max_den num_tol (cs_dims (cs_bits sp)) v))).
Qed.
Lemma size_gives size : gives (ask_size vertices size) (v_size size).
Proof. destruct size; [apply gives_done|apply min_gives]. Qed.
Lemma base_gives size : gives (ask_base vertices size) (let? m := v_size size in base_solution sp m).
Proof.
  apply gives_then; [apply size_gives|]. intros z _ s K. rewrite (k_space K). unfold base_solution. destruct (integerize (cs_b sp)) as [[ints m]|] eqn:EI; [|auto]. cbn [option_bind]. destruct (negb (z mod m =? 0)); [auto|].
  assert (G : gives (stored ss_n0 put_n0 (fun s => done (option_map fst (solve_at (ss_space s) m)) s)) (option_map fst (solve_at sp m))).
  { apply gives_stored.
    - intros s0 a K0 E. destruct (k_n0 K0 E) as (i2 & m2 & E2 & E3). congruence.
    - intros s0 a K0 E. keep K0. intros n H. exists ints, m. split; auto. congruence.
    - apply (gives_space (fun sp => option_map fst (solve_at sp m))). }
  destruct (G s K) as (K1 & E1). unfold then_. destruct (stored _ _ _ s) as [s1 x]. cbn [fst snd] in *. subst x. destruct (solve_at sp m) as [[n0 vs]|]; auto.
Qed.
Lemma basis_gives : gives (ask_basis rank vertices lp tol) v_basis.
Proof.
  apply gives_stored.
  - intros s a K. apply (k_vs K).
  - intros s a K E. keep K.
  - apply gives_then; [apply min_gives|]. intros m _ s K. cbn. rewrite (k_space K), (k_optimize K). auto.
Qed.
Lemma min_pos m : v_min = Some m -> 0 < m.
Proof.
  unfold v_min. destruct v_vertices as [v|]; [|discriminate]. cbn [option_bind]. unfold integerize_multiple. destruct (integerize_vector max_den num_tol (concat v)) as [[ints k]|] eqn:E; [|discriminate]. cbn [option_bind option_map snd]. intros H. injection H as <-. apply (C78_vector (maxd := max_den) ltac:(unfold max_den; lia) E).
Qed.
(** Enumerating, and storing what was enumerated. *)
Lemma enumerate_gives size step : 0 < size -> 0 < step -> Z.gcd size step = 1 ->
  gives (enumerate_here rank vertices lp tol size step) (let? vs := v_basis in option_map fst (enumerate_grid lp tol sp vs size step [])).
Proof.
  intros S T G s K. set (f := fun n0 vs => option_map (filter (fun x => leq_ok sp size (lattice_point n0 vs x))) (natural lp tol step n0 vs)).
  replace (option_bind v_basis (fun vs => option_map fst (enumerate_grid lp tol sp vs size step []))) with (let? n0 := base_solution sp size in let? vs := v_basis in f n0 vs).
  - revert s K. unfold enumerate_here. apply gives_then with (v := base_solution sp size) (g := fun n0 => let? vs := v_basis in f n0 vs); [apply (base_gives (Some size))|].
    intros n0 E0. apply gives_then; [apply basis_gives|]. intros vs EV s K. unfold f. rewrite (k_space K). destruct (natural lp tol step n0 vs) as [grid|] eqn:EN; [|auto]. cbn [option_map fst snd]. split; auto.
    destruct K. constructor; cbn [put_grids ss_space ss_neutral ss_optimize ss_ergodic ss_vertices ss_min ss_n0 ss_vs ss_table ss_grids]; auto. rewrite EV in *. unfold store_ok in *. apply Forall_app. split; auto. constructor; [|constructor]. unfold key_ok. cbn [fst snd]. repeat split; auto.
    unfold enumerate_grid. rewrite E0. cbn [option_bind]. rewrite EN. auto.
  - unfold enumerate_grid, f. destruct v_basis as [vs|]; cbn [option_bind]; [|destruct (base_solution sp size); auto]. destruct (base_solution sp size) as [n0|]; auto. cbn [option_bind]. destruct (natural lp tol step n0 vs); auto.
Qed.
Lemma v_grid_plain size step : 0 < size -> 0 < step -> v_grid size step = let? vs := v_basis in plain lp tol sp vs size step.
Proof. intros S T. unfold v_grid. destruct v_basis as [vs|]; auto. cbn [option_bind]. apply grid_plain; auto. constructor. Qed.
Lemma grid_or_gives size step c : 0 < size -> 0 < step -> gives c (v_grid size step) -> gives (grid_or size step c) (v_grid size step).
Proof.
  intros S T C s K. unfold grid_or. destruct (find_grid size step (ss_grids s)) as [[k g]|] eqn:F; [|apply C; auto]. cbn [fst snd]. split; auto. rewrite v_grid_plain by auto. pose proof (k_grids K) as G.
  destruct v_basis as [vs|]; [|rewrite G in F; discriminate F]. cbn [option_bind]. destruct (find_grid_ok G S T F) as (-> & E). unfold plain. destruct (enumerate_grid lp tol sp vs _ _ []) as [[g' c']|]; [|discriminate]. cbn [option_map fst] in *. congruence.
Qed.
Lemma coprime_grid size step : 0 < size -> 0 < step -> Z.gcd size step = 1 -> v_grid size step = let? vs := v_basis in option_map fst (enumerate_grid lp tol sp vs size step []).
Proof.
  intros S T G. rewrite v_grid_plain by auto. destruct v_basis as [vs|]; auto. cbn [option_bind]. unfold plain. rewrite G, !Z.div_1_r. destruct (enumerate_grid lp tol sp vs size step []); auto. cbn [option_map]. rewrite scale_one. auto.
Qed.
Lemma grid_gives size step : 0 < size -> 0 < step -> gives (ask_grid rank vertices lp tol size step) (v_grid size step).
Proof.
  intros S T. destruct (gcd_parts S T) as (G0 & GS & GT & G1). unfold ask_grid. apply grid_or_gives; auto. cbv zeta. destruct (Z.ltb_spec 1 (Z.gcd size step)) as [L|L].
  - replace (v_grid size step) with (let? g := v_grid (size / Z.gcd size step) (step / Z.gcd size step) in Some (scale_grid (Z.gcd size step) g)).
    + apply gives_then; [|intros g _; apply gives_done]. apply grid_or_gives; auto. rewrite coprime_grid by auto. apply enumerate_gives; auto.
    + rewrite coprime_grid by auto. rewrite v_grid_plain by auto. destruct v_basis as [vs|]; auto. cbn [option_bind]. unfold plain. destruct (enumerate_grid lp tol sp vs _ _ []); auto.
  - assert (G : Z.gcd size step = 1) by lia. rewrite coprime_grid by auto. apply enumerate_gives; auto.
Qed.
Lemma min_grid_gives : gives (ask_min_grid rank vertices lp tol) (let? m := v_min in v_grid m 1).
Proof. apply gives_then; [apply min_gives|]. intros m E. apply grid_gives; [apply (min_pos E)|lia]. Qed.
Lemma table_gives : gives (ask_table rank vertices knn lp tol) v_table.
Proof.
  apply gives_stored.
  - intros s a K. apply (k_table K).
  - intros s a K E. destruct K. constructor; cbn; auto. congruence.
  - intros s K. rewrite (k_ergodic K). unfold v_table, flip_table. destruct ergodic; cbn [negb].
    + replace (let? vs := v_basis in let? m := v_min in let? n0 := base_solution sp m in let? (grid, _) := get_composition_grid lp tol sp vs m 1 [] in get_ergodic_vectors knn n0 vs grid 3)
        with (let? m := v_min in let? n0 := (let? m' := v_size (Some m) in base_solution sp m') in let? vs := v_basis in let? grid := (let? m' := v_min in v_grid m' 1) in get_ergodic_vectors knn n0 vs grid 3).
      * revert s K. apply gives_then; [apply min_gives|]. intros m _. apply gives_then; [apply (base_gives (Some m))|]. intros n0 _. apply gives_then; [apply basis_gives|]. intros vs _. apply gives_then; [apply min_grid_gives|]. intros grid _. apply gives_done.
      * unfold v_grid, v_size. destruct v_basis as [vs|]; cbn [option_bind]; destruct v_min as [m|]; cbn [option_bind]; auto; destruct (base_solution sp m) as [n0|]; cbn [option_bind]; auto. destruct (get_composition_grid lp tol sp vs m 1 []) as [[g c]|]; auto.
    + destruct (@basis_gives s K) as (K1 & E1). split; auto. rewrite E1. unfold v_basis. destruct v_min as [m|]; auto. cbn [option_bind]. destruct (space_basis rank lp tol sp m optimize); auto.
Qed.
Lemma answer_gives {A} (f : A -> answer) (c : call A) v : gives c v -> gives (as_answer f c) (option_map f v).
Proof. intros C. unfold as_answer. replace (option_map f v) with (let? a := v in Some (f a)) by (destruct v; auto). apply gives_then; auto. intros a _. apply gives_done. Qed.

Hypothesis Hmade : exists bits sizes other, make_space oxi rank bits sizes neutral other = Some sp.
Lemma ask_gives r : request_ok r -> gives (ask oxi rank vertices knn lp tol r) (value r).
Proof.
  intros OK. destruct r; cbn [ask value request_ok] in *.
  - apply answer_gives, vertices_gives.
  - apply answer_gives, min_gives.
  - apply answer_gives, base_gives.
  - apply answer_gives, basis_gives.
  - apply answer_gives, table_gives.
  - apply answer_gives, grid_gives; apply OK.
  - apply answer_gives, min_grid_gives.
  - intros s K. destruct Hmade as (bits & sizes & other & M). rewrite (loaded M (k_space K) (k_neutral K)). auto.
Qed.
Lemma all_kept rs : Forall request_ok rs -> forall s, kept s -> kept (ask_all oxi rank vertices knn lp tol rs s).
Proof. induction 1 as [|r rs OK _ IH]; intros s K; auto. cbn [ask_all]. apply IH. apply (ask_gives OK); auto. Qed.
End Values.

(** ** C123 *)
(** Whatever was asked before, the dictionary of a space makes the same space, with everything that it remembers. *)
Theorem C123_round_trip oxi rank vertices knn lp tol bits sizes neutral other optimize ergodic s0 before :
  new_state oxi rank bits sizes neutral other optimize ergodic = Some s0 -> Forall request_ok before ->
  let s := ask_all oxi rank vertices knn lp tol before s0 in from_dict oxi rank (as_dict s) = Some s.
Proof.
  intros H F s. unfold new_state in H. destruct (make_space oxi rank bits sizes neutral other) as [sp|] eqn:M; [|discriminate]. injection H as <-.
  assert (K : kept rank vertices knn lp tol sp neutral optimize ergodic s).
  { apply (all_kept (oxi := oxi)); eauto. constructor; cbn; auto; try discriminate. destruct (v_basis _ _ _ _ _ _); auto. constructor. }
  apply (loaded M (k_space K) (k_neutral K)).
Qed.
(** Whatever was asked before, with any number of saves and loads between, every answer is that of a space that remembers nothing. *)
Theorem C123_answers oxi rank vertices knn lp tol bits sizes neutral other optimize ergodic sp before r :
  make_space oxi rank bits sizes neutral other = Some sp -> Forall request_ok before -> request_ok r ->
  exists s0, new_state oxi rank bits sizes neutral other optimize ergodic = Some s0 /\
  snd (ask oxi rank vertices knn lp tol r (ask_all oxi rank vertices knn lp tol before s0)) = value rank vertices knn lp tol sp optimize ergodic r.
Proof.
  intros M F OK. unfold new_state. rewrite M. cbn [option_bind]. eexists. split; [reflexivity|].
  apply (ask_gives (oxi := oxi) (neutral := neutral)); auto; [eauto|]. apply (all_kept (oxi := oxi)); eauto. constructor; cbn; auto; try discriminate. destruct (v_basis _ _ _ _ _ _); auto. constructor.
Qed.
Print Assumptions C123_round_trip.
Print Assumptions C123_answers.

(** A sublattice of two sites with three species, at least half a site of the first one, and an equation with fractions. *)
Definition case_bits : list (list species) := [[Sp 0; Sp 1; Sp 2]].
Definition case_other : list entry := [Tuple [Qc_frac 1 2; Qc_frac (-1) 3; 0%Qc] 0%Qc (Some REq); Tuple [1; 0; 0]%Qc (Qc_frac 1 2) (Some RGe)].
Definition case_vertices : list (list Z) -> list Qc -> option (list (list Qc)) := fun _ _ => Some [[Qc_frac 4 5; Qc_frac 6 5; 0%Qc]; [0; 0; Qc_of_Z 2]%Qc].
Definition case_lp : list Z -> list (list Z) -> option (Q * Q) := fun _ _ => Some (0%Q, (5#1)%Q).
Definition case_new := new_state (fun _ => 0) (fun _ => 2%nat) case_bits (Some [2]) false (Some case_other) false true.
Definition case_asked (before : list request) (r : request) : option answer :=
  let? s := case_new in snd (ask (fun _ => 0) (fun _ => 2%nat) case_vertices (fun _ _ _ => []) case_lp (1 # 1000000) r (ask_all (fun _ => 0) (fun _ => 2%nat) case_vertices (fun _ _ _ => []) case_lp (1 # 1000000) before s)).
Example C123_case :
  case_asked [] MinSize = Some (Number 5) /\ case_asked [MinSize; Save] (Base None) = Some (Vector [-20; -30; 60]) /\
  case_asked [Grid 5 1; Save; Table] (Grid 10 2) = Some (Matrix [[-24]]) /\ case_asked [Grid 5 1; Save; Table] (Grid 10 1) = Some (Matrix [[-24]; [-23]]) /\
  option_map (fun s => map (fun e => match e with Tuple v b r => Some (map this v, this b, r) | _ => None end) (sd_other (as_dict s))) case_new =
    Some [Some ([3; -2; 0]%Q, 0%Q, Some REq); Some ([-1; 0; 0]%Q, (-1 # 2)%Q, Some RLe)] /\
  Forall request_ok [Grid 5 1; Save; Table].
Proof. repeat split; try (vm_compute; reflexivity). repeat constructor; cbn; lia. Qed.
