(** C120 to C122: scores of special structures. *)
From Verif Require GroundTermsProps.
From Verif Require Import LibProofs SublatticeProofs MatchingProps DistanceProps.
From Verif Require Export SqsScore.
From Coq Require Import Permutation Lia Sorting.Sorted.
Set Implicit Arguments.
Unset Strict Implicit.
Open Scope nat_scope.

(** ** Specification *)
(** The matrices that the generator uses: those given, or all inequivalent ones. *)
Definition used (S : sqs_space) (size : nat) (matrices : option (list scm)) (m : scm) : Prop :=
  match matrices with Some ms => In m ms | None => In m (ss_enum S size) end.
(** All of them have the size of the generator as determinant (checked by the constructor when they are given, C39 otherwise). *)
Definition enum_ok (S : sqs_space) : Prop := forall size m, In m (ss_enum S size) -> det3 m = Z.of_nat size.
Definition distinct_rows (ps : list gproc) : Prop := forall i j p q, nth_error ps i = Some p -> nth_error ps j = Some q -> Permutation (gp_scm p) (gp_scm q) -> i = j.
(** The same lattice: every row is an integer combination of the rows of the other. *)
Definition comb3 (m : scm) (u : list Z) : list Z :=
  match m, u with
  | [[a; b; c]; [d; e; f]; [g; h; i]], [x; y; z] => [x * a + y * d + z * g; x * b + y * e + z * h; x * c + y * f + z * i]%Z
  | _, _ => []
  end.
Definition same_lattice (m m' : scm) : Prop := (forall r, In r m' -> exists u, r = comb3 m u) /\ (forall r, In r m -> exists u, r = comb3 m' u).

(** ** Proofs *)
Lemma row_total a b : row_leb a b = true \/ row_leb b a = true.
Proof.
  revert b. induction a as [|x a IH]; intros [|y b]; cbn [row_leb]; auto. destruct (Z.ltb_spec x y); auto. destruct (Z.ltb_spec y x); auto. assert (x = y) as -> by lia. rewrite Z.eqb_refl. cbn. apply IH.
Qed.
Lemma row_anti a b : row_leb a b = true -> row_leb b a = true -> a = b.
Proof.
  revert b. induction a as [|x a IH]; intros [|y b]; cbn [row_leb]; auto; try discriminate. destruct (Z.ltb_spec x y), (Z.ltb_spec y x), (Z.eqb_spec x y), (Z.eqb_spec y x); cbn; try lia; try discriminate. subst. intros. f_equal. auto.
Qed.
Lemma row_trans a b c : row_leb a b = true -> row_leb b c = true -> row_leb a c = true.
Proof.
  revert b c. induction a as [|x a IH]; intros [|y b] [|z c]; cbn [row_leb]; auto; try discriminate.
  destruct (Z.ltb_spec x y), (Z.ltb_spec y z), (Z.ltb_spec x z), (Z.eqb_spec x y), (Z.eqb_spec y z), (Z.eqb_spec x z); cbn; auto; try lia; try discriminate. apply IH.
Qed.
Lemma sorted_perm_eq (a b : scm) : StronglySorted (fun x y => row_leb x y = true) a -> StronglySorted (fun x y => row_leb x y = true) b -> Permutation a b -> a = b.
Proof.
  revert b. induction a as [|x a IH]; intros b Sa Sb P; [apply Permutation_nil in P; auto|]. destruct b as [|y b]; [symmetry in P; apply Permutation_nil in P; discriminate|].
  inversion Sa as [|? ? A1 A2]; subst. inversion Sb as [|? ? B1 B2]; subst. assert (x = y) as ->.
  { rewrite Forall_forall in A2, B2. assert (Hx : In x (y :: b)) by (apply (Permutation_in _ P); cbn; auto). assert (Hy : In y (x :: a)) by (apply (Permutation_in _ (Permutation_sym P)); cbn; auto).
    destruct Hx as [->|Hx]; auto. destruct Hy as [->|Hy]; auto. apply row_anti; auto. }
  f_equal. apply IH; auto. apply (Permutation_cons_inv P).
Qed.
Lemma rows_key_iff m m' : rows_key m = rows_key m' <-> Permutation m m'.
Proof.
  unfold rows_key. split.
  - intros E. rewrite (sort_by_perm row_leb m), E. symmetry. apply sort_by_perm.
  - intros P. apply sorted_perm_eq; try (apply GroundTermsProps.sort_by_sorted; [apply row_total|apply row_trans]). rewrite <- !sort_by_perm. auto.
Qed.
(** The dictionary of processors. *)
Lemma put_get d k p k' : get_proc (put_proc d k p) k' = if scm_eq_dec k k' then Some p else get_proc d k'.
Proof.
  induction d as [|[k0 p0] d IH]; cbn [put_proc get_proc]; [destruct (scm_eq_dec k k'); auto|]. destruct (scm_eq_dec k0 k) as [->|N]; cbn [get_proc].
  - destruct (scm_eq_dec k k'); auto.
  - destruct (scm_eq_dec k0 k') as [->|N']; auto. destruct (scm_eq_dec k k'); congruence.
Qed.
Lemma put_keys d k p : NoDup (map fst d) -> NoDup (map fst (put_proc d k p)) /\ forall k', In k' (map fst (put_proc d k p)) <-> k' = k \/ In k' (map fst d).
Proof.
  induction d as [|[k0 p0] d IH]; cbn [put_proc map fst]; intros N; [split; [repeat constructor; auto|cbn; intuition]|]. inversion N as [|? ? N1 N2]; subst. destruct (IH N2) as (I1 & I2).
  destruct (scm_eq_dec k0 k) as [->|Ne]; cbn [map fst In]; [split; [auto|intuition]|]. split.
  - constructor; auto. rewrite I2. intuition.
  - intros k'. rewrite I2. intuition.
Qed.
Definition dict_ok (ps : list gproc) (d : list (scm * gproc)) : Prop :=
  NoDup (map fst d) /\ (forall k p, In (k, p) d -> k = rows_key (gp_scm p) /\ In p ps) /\ (forall p, In p ps -> In (rows_key (gp_scm p)) (map fst d)).
Lemma put_in d k p k' p' : In (k', p') (put_proc d k p) -> (k' = k /\ p' = p) \/ In (k', p') d.
Proof.
  induction d as [|[k0 p0] d IH]; cbn [put_proc In]; [intros [[= <- <-]|[]]; auto|]. destruct (scm_eq_dec k0 k) as [->|Ne]; cbn [In]; intros [[= <- <-]|H]; auto. destruct (IH H); auto.
Qed.
Lemma put_ok ps d p : dict_ok ps d -> dict_ok (ps ++ [p]) (put_proc d (rows_key (gp_scm p)) p).
Proof.
  intros (H1 & H2 & H3). destruct (put_keys (rows_key (gp_scm p)) p H1) as (P1 & P2). split; auto. split.
  - intros k q Hq. apply put_in in Hq as [(-> & ->)|Hq]; [split; auto; apply in_or_app; cbn; auto|]. destruct (H2 k q Hq). split; auto. apply in_or_app. auto.
  - intros q Hq. apply P2. apply in_app_or in Hq as [Hq|[<-|[]]]; auto.
Qed.
Lemma by_scm_ok ps : dict_ok ps (by_scm ps).
Proof.
  unfold by_scm. assert (G : forall qs d, dict_ok qs d -> dict_ok (qs ++ ps) (fold_left (fun d p => put_proc d (rows_key (gp_scm p)) p) ps d)).
  { induction ps as [|p ps IH]; intros qs d H; cbn [fold_left]; [rewrite app_nil_r; auto|]. replace (qs ++ p :: ps) with ((qs ++ [p]) ++ ps) by (rewrite <- app_assoc; auto). apply IH. apply put_ok. auto. }
  apply (G [] []). split; [constructor|]. split; [intros k p []|intros p []].
Qed.
Lemma get_in d k p : get_proc d k = Some p -> In (k, p) d.
Proof. induction d as [|[k0 p0] d IH]; cbn [get_proc In]; [discriminate|]. destruct (scm_eq_dec k0 k) as [->|]; [intros [= ->]; auto|auto]. Qed.
Lemma get_of d k p : NoDup (map fst d) -> In (k, p) d -> get_proc d k = Some p.
Proof.
  induction d as [|[k0 p0] d IH]; cbn [get_proc In map fst]; [intros _ []|]. intros N. inversion N as [|? ? N1 N2]; subst. intros [[= -> ->]|H]; [destruct (scm_eq_dec k k); congruence|].
  destruct (scm_eq_dec k0 k) as [->|]; auto. exfalso. apply N1. apply in_map_iff. exists (k, p). auto.
Qed.
Lemma get_key d k : In k (map fst d) -> exists p, get_proc d k = Some p.
Proof. induction d as [|[k0 p0] d IH]; cbn [get_proc In map fst]; [intros []|]. destruct (scm_eq_dec k0 k) as [->|N]; [eauto|]. intros [->|H]; [congruence|auto]. Qed.

(** The constructor. *)
Section Gen.
Variables (S : sqs_space) (size : nat) (ft : feature) (target weights : option (list Qc)) (mw tol : Qc) (matrices : option (list scm)) (same : bool) (g : sqs_gen).
Hypothesis HE : enum_ok S.
Hypothesis HG : new_sqs S size ft target weights mw tol matrices None same = Some g.
Lemma new_facts : exists n w t ps, num_features S ft = Some n /\ given_or (n - 1) 1%Qc weights = Some w /\ given_or n 0%Qc target = Some t /\ sg_size g = size /\ dict_ok ps (sg_procs g) /\
  (forall m, used S size matrices m -> det3 m = Z.of_nat size) /\
  (forall m, used S size matrices m -> exists p, In p ps /\ gp_scm p = m) /\
  (forall p, In p ps -> used S size matrices (gp_scm p) /\ gp_allowed p = ss_allowed S (gp_scm p) /\
     new_dproc (feature_inter ft) (ss_proc S (feature_inter ft) (gp_scm p)) t mw w tol (ss_diams S) = Some (gp_dist p)).
Proof.
  unfold new_sqs in HG. cbn [option_bind] in HG. destruct (num_features S ft) as [n|] eqn:En; [|discriminate]. cbn [option_bind] in HG. destruct (given_or (n - 1) 1%Qc weights) as [w|] eqn:Ew; [|discriminate]. cbn [option_bind] in HG.
  destruct (given_or n 0%Qc target) as [t|] eqn:Et; [|discriminate]. cbn [option_bind] in HG.
  assert (X : exists ms, (forall m, In m ms <-> used S size matrices m) /\ (forall m, used S size matrices m -> det3 m = Z.of_nat size) /\
    (let? ps := opt_map (fun m => let? D := new_dproc (feature_inter ft) (ss_proc S (feature_inter ft) m) t mw w tol (ss_diams S) in Some (mkGP m (ss_allowed S m) D)) ms in Some (mkGen size (by_scm ps))) = Some g).
  { unfold used. destruct matrices as [ms|].
    - destruct (forallb (fun m => shape33 m && (det3 m =? Z.of_nat size)%Z) ms) eqn:Ef; [|discriminate]. cbn [option_bind] in HG. exists ms. split; [intuition|]. split; auto.
      intros m Hm. rewrite forallb_forall in Ef. apply Ef in Hm. apply andb_true_iff in Hm as (_ & Hm). apply Z.eqb_eq. auto.
    - cbn [option_bind] in HG. exists (rev (ss_enum S size)). split; [intros m; symmetry; apply in_rev|]. split; auto. }
  clear HG. destruct X as (ms & M1 & M2 & HG). destruct (opt_map _ ms) as [ps|] eqn:Eps in HG; [|discriminate]. injection HG as <-. cbn [sg_size sg_procs].
  assert (Y : (forall m, In m ms -> exists p, In p ps /\ gp_scm p = m) /\ (forall p, In p ps -> In (gp_scm p) ms /\ gp_allowed p = ss_allowed S (gp_scm p) /\
     new_dproc (feature_inter ft) (ss_proc S (feature_inter ft) (gp_scm p)) t mw w tol (ss_diams S) = Some (gp_dist p))).
  { clear - Eps. revert ps Eps. induction ms as [|m ms IH]; intros ps; cbn [opt_map]; [intros [= <-]; split; [intros ? []|intros ? []]|].
    destruct (new_dproc (feature_inter ft) (ss_proc S (feature_inter ft) m) t mw w tol (ss_diams S)) as [D|] eqn:ED; [|discriminate]. cbn [option_bind]. destruct (opt_map _ ms) as [ps'|] eqn:E; [|discriminate]. intros [= <-].
    destruct (IH ps' eq_refl) as (I1 & I2). split.
    - intros m' [<-|H]; [eexists; split; [left; reflexivity|]; auto|]. destruct (I1 m' H) as (p & P1 & P2). exists p. split; [right|]; auto.
    - intros p [<-|H]; cbn [gp_scm gp_allowed gp_dist In]; auto. destruct (I2 p H) as (P1 & P2 & P3). auto. }
  destruct Y as (Y1 & Y2). exists n, w, t, ps. split; [auto|]. split; [exact Ew|]. split; [exact Et|]. split; [auto|]. split; [apply by_scm_ok|]. split; auto. split.
  - intros m Hm. apply Y1. apply M1. auto.
  - intros p Hp. destruct (Y2 p Hp) as (P1 & P2). split; auto. apply M1. auto.
Qed.
(** Lookup by rows in any order. *)
Lemma lookup p m : In p (sg_list g) -> Permutation m (gp_scm p) -> det3 m = Z.of_nat size -> structure_processor g m = Some p.
Proof.
  intros Hp P Hd. destruct new_facts as (n & w & t & ps & _ & _ & _ & Hs & (K1 & K2 & K3) & _). unfold structure_processor. rewrite Hs, Hd, Z.eqb_refl. unfold sg_list in Hp. apply in_map_iff in Hp as ([k q] & E & Hin). cbn [snd] in E. subst q.
  apply get_of; auto. destruct (K2 k p Hin) as (-> & _). replace (rows_key m) with (rows_key (gp_scm p)); auto. apply rows_key_iff. symmetry. auto.
Qed.
End Gen.

(** ** C120: scores *)
(** A generator has, for each matrix it uses, a processor with the same rows made for the given target, weights and tolerance, and no two processors with the same rows. *)
Theorem C120_processors S size ft target weights mw tol matrices same g : enum_ok S -> new_sqs S size ft target weights mw tol matrices None same = Some g ->
  distinct_rows (sg_list g) /\ (forall p, In p (sg_list g) -> used S size matrices (gp_scm p)) /\
  forall m, used S size matrices m -> exists p, structure_processor g m = Some p /\ In p (sg_list g) /\ Permutation (gp_scm p) m.
Proof.
  intros HE HG. destruct (new_facts HE HG) as (n & w & t & ps & _ & _ & _ & Hs & (K1 & K2 & K3) & D & U & F). split; [|split].
  - intros i j p q Hi Hj P. unfold sg_list in Hi, Hj. rewrite nth_error_map in Hi, Hj. destruct (nth_error (sg_procs g) i) as [[k p']|] eqn:Ei; [|discriminate]. destruct (nth_error (sg_procs g) j) as [[k' q']|] eqn:Ej; [|discriminate].
    cbn in Hi, Hj. injection Hi as ->. injection Hj as ->. destruct (K2 k p) as (E & _); [eapply nth_error_In; eauto|]. destruct (K2 k' q) as (E' & _); [eapply nth_error_In; eauto|].
    apply (proj1 (NoDup_nth_error _) K1); [rewrite map_length; apply nth_error_Some; congruence|]. rewrite !nth_error_map, Ei, Ej. cbn. f_equal. rewrite E, E'. apply rows_key_iff. auto.
  - intros p Hp. apply in_map_iff in Hp as ([k q] & E & Hin). cbn [snd] in E. subst q. destruct (K2 k p Hin) as (_ & Hp). apply F. auto.
  - intros m Hm. destruct (U m Hm) as (p & P1 & P2). destruct (get_key (K3 p P1)) as (q & Q). exists q. pose proof (get_in Q) as Qi. destruct (K2 _ _ Qi) as (Ek & _). rewrite P2 in *.
    split; [unfold structure_processor; rewrite Hs, (D m Hm), Z.eqb_refl; auto|]. split; [apply in_map_iff; exists (rows_key m, q); auto|]. apply rows_key_iff. auto.
Qed.
(** Matrices of another shape or size are refused, as are weights and targets of wrong lengths. *)
Theorem C120_refused S size ft target weights mw tol ms same m : In m ms -> shape33 m = false \/ det3 m <> Z.of_nat size -> new_sqs S size ft target weights mw tol (Some ms) None same = None.
Proof.
  intros Hm H. unfold new_sqs. cbn [option_bind]. destruct (num_features S ft) as [n|]; auto. cbn [option_bind]. destruct (given_or (n - 1) 1%Qc weights); auto. cbn [option_bind]. destruct (given_or n 0%Qc target); auto. cbn [option_bind].
  replace (forallb (fun m => shape33 m && (det3 m =? Z.of_nat size)%Z) ms) with false; auto. symmetry. apply not_true_iff_false. intros E. rewrite forallb_forall in E. specialize (E m Hm). apply andb_true_iff in E as (E1 & E2). apply Z.eqb_eq in E2. destruct H; congruence.
Qed.
Theorem C120_lengths S size ft target weights mw tol matrices procs same n : num_features S ft = Some n ->
  (exists t, target = Some t /\ length t <> n) \/ (exists w, weights = Some w /\ length w + 1 <> n /\ 0 < n) -> new_sqs S size ft target weights mw tol matrices procs same = None.
Proof.
  intros Hn H. unfold new_sqs. destruct (match procs with Some _ => _ | None => _ end); auto. cbn [option_bind]. rewrite Hn. cbn [option_bind]. destruct H as [(t & -> & H)|(w & -> & H & H0)].
  - destruct (given_or (n - 1) 1%Qc weights); auto. cbn [option_bind given_or]. destruct (Nat.eqb_spec (length t) n); [congruence|]. auto.
  - cbn [given_or]. destruct (Nat.eqb_spec (length w) (n - 1)); [lia|]. auto.
Qed.
(** The score of the structure of an occupancy is the property of the occupancy, for any order of its sites and of the rows of the matrix. *)
Theorem C120_score S size ft target weights mw tol matrices same g p codes : enum_ok S -> new_sqs S size ft target weights mw tol matrices None same = Some g ->
  In p (sg_list g) -> distinct_species (gp_allowed p) -> MatchingProps.codes_ok (gp_allowed p) codes ->
  exists s, structure_from_occupancy (gp_allowed p) codes = Some s /\
    forall s' m, Permutation s s' -> Permutation m (gp_scm p) -> det3 m = Z.of_nat size ->
      compute_score g m (map snd s') (map fst s') = dist_property (gp_dist p) codes /\ compute_feature_distance g m (map snd s') (map fst s') = dist_features (gp_dist p) codes.
Proof.
  intros HE HG Hp HD HC. destruct (C108_round_trip HD HC) as (s & E & _ & R). exists s. split; auto. intros s' m Ps Pm Hd. unfold compute_score, compute_feature_distance. rewrite (lookup HE HG Hp Pm Hd). cbn [option_bind]. rewrite (R s' Ps). auto.
Qed.
(** The special structures made from recorded traces have the scores and features that are reported with them. *)
Theorem C120_best S size ft target weights mw tol matrices same g t p s x f m : enum_ok S -> new_sqs S size ft target weights mw tol matrices None same = Some g ->
  nth_error (sg_list g) (t_kernel t) = Some p -> distinct_species (gp_allowed p) -> MatchingProps.codes_ok (gp_allowed p) (t_occu t) ->
  dist_property (gp_dist p) (t_occu t) = Some (t_score t) -> dist_features (gp_dist p) (t_occu t) = Some (t_feat t) ->
  sqs_of g t = Some (s, x, f, m) ->
  used S size matrices m /\ compute_score g m (map snd s) (map fst s) = Some x /\ compute_feature_distance g m (map snd s) (map fst s) = Some f.
Proof.
  intros HE HG Hp HD HC Hx Hf E. pose proof (nth_error_In _ _ Hp) as Hin. destruct (C120_processors HE HG) as (_ & U & _). pose proof (U p Hin) as Um.
  destruct (C120_score HE HG Hin HD HC) as (s0 & E0 & R). unfold sqs_of in E. rewrite Hp in E. cbn [option_bind] in E. rewrite E0 in E. cbn [option_bind] in E. injection E as <- <- <- <-. split; auto.
  destruct (new_facts HE HG) as (_ & _ & _ & _ & _ & _ & _ & _ & _ & D & _). destruct (R s0 (gp_scm p) (Permutation_refl _) (Permutation_refl _) (D _ Um)) as (R1 & R2). rewrite R1, R2. auto.
Qed.

(** ** C121: the target *)
(** Processors made by the generator have the target, the weights and the tolerance given to it. *)
Theorem C121_target_partial S size ft t w mw tol matrices same g p : enum_ok S -> new_sqs S size ft (Some t) (Some w) mw tol matrices None same = Some g -> In p (sg_list g) ->
  d_target (gp_dist p) = t /\ d_coefs (gp_dist p) = (- mw)%Qc :: w /\ d_tol (gp_dist p) = tol.
Proof.
  intros HE HG Hp. destruct (new_facts HE HG) as (n & w' & t' & ps & _ & Hw & Ht & _ & (_ & K2 & _) & _ & _ & F). cbn [given_or] in Hw, Ht.
  destruct (length w =? n - 1); [|discriminate]. injection Hw as <-. destruct (length t =? n); [|discriminate]. injection Ht as <-.
  apply in_map_iff in Hp as ([k q] & E & Hin). cbn [snd] in E. subst q. destruct (K2 k p Hin) as (_ & Hp). destruct (F p Hp) as (_ & _ & H). unfold new_dproc in H. destruct (Qcltb mw 0); [discriminate|]. destruct (negb _); [discriminate|]. injection H as <-. auto.
Qed.
(** Two cells with one site each of three species; the example of C55. *)
Definition sx_target : list Qc := [Qc_of_Z 1; Qc_of_Z 0; Qc_of_Z 1; Qc_of_Z 2; Qc_of_Z 0; Qc_of_Z 5].
Definition sx_proc : proc := d_proc (ex_d (repeat 1%Qc 5) default_tol).
Definition sx_allowed : list (list specie) := [[Atom 1; Atom 2; Vacancy 0]; [Atom 1; Atom 2; Vacancy 0]].
Definition sx_m : scm := [[1; 0; 0]; [0; 1; 0]; [0; 0; 2]]%Z.
Definition sx_space : sqs_space := mkSpace (fun _ => sx_allowed) (fun _ _ => sx_proc) 6 3 [Qc_of_Z 0; Q2Qc (5 # 2)] (fun n => [[[1; 0; 0]; [0; 1; 0]; [0; 0; Z.of_nat n]]%Z]).
Lemma sx_enum : enum_ok sx_space.
Proof. intros size m [<-|[]]. unfold det3. lia. Qed.
(** Processors given to the generator keep their own target: scores are not the distances to the target that is given with them. *)
Theorem C121_processors_refuted : exists S ps t g p codes s x D y,
  sqs_from_processors S ps (Some t) None 1%Qc default_tol = Some g /\ In p ps /\ distinct_species (gp_allowed p) /\ MatchingProps.codes_ok (gp_allowed p) codes /\
  structure_from_occupancy (gp_allowed p) codes = Some s /\ compute_score g (gp_scm p) (map snd s) (map fst s) = Some x /\
  new_dproc (d_inter (gp_dist p)) (d_proc (gp_dist p)) t 1%Qc (repeat 1%Qc 5) default_tol (d_diams (gp_dist p)) = Some D /\ dist_property D codes = Some y /\ x <> y.
Proof.
  set (D0 := mkD false sx_proc sx_target default_tol ((- (1))%Qc :: repeat 1%Qc 5) [Qc_of_Z 0; Q2Qc (5 # 2)]).
  exists sx_space, [mkGP sx_m sx_allowed D0], (repeat 0%Qc 6), (mkGen 2 [(rows_key sx_m, mkGP sx_m sx_allowed D0)]), (mkGP sx_m sx_allowed D0), [0; 1]. do 4 eexists.
  split; [vm_compute; reflexivity|]. split; [cbn; auto|]. split; [repeat constructor; cbn; intuition discriminate|]. split; [repeat constructor|]. split; [vm_compute; reflexivity|]. split; [vm_compute; reflexivity|].
  split; [vm_compute; reflexivity|]. split; [vm_compute; reflexivity|]. intros E. apply (f_equal this) in E. vm_compute in E. discriminate.
Qed.

(** ** C122: other descriptions of a supercell *)
(** The rows of the matrix may be given in any order that keeps the determinant. *)
Theorem C122_rows_partial S size ft target weights mw tol matrices same g m m' : enum_ok S -> new_sqs S size ft target weights mw tol matrices None same = Some g ->
  used S size matrices m -> Permutation m' m -> det3 m' = Z.of_nat size -> exists p, structure_processor g m' = Some p /\ structure_processor g m = Some p.
Proof.
  intros HE HG Hm P Hd. destruct (C120_processors HE HG) as (_ & _ & H). destruct (H m Hm) as (p & E & Hin & Pp). exists p. split; auto. apply (lookup HE HG); auto. rewrite P. symmetry. auto.
Qed.
(** Other lattice vectors of the same supercell are not found. *)
Theorem C122_lattice_refuted : exists S size ft mw tol m m' g, enum_ok S /\ new_sqs S size ft None None mw tol (Some [m]) None true = Some g /\
  same_lattice m m' /\ det3 m' = Z.of_nat size /\ forall str mapping, compute_score g m' str mapping = None.
Proof.
  exists sx_space, 2, Correlation, 1%Qc, default_tol, sx_m, [[1; 0; 0]; [1; 1; 0]; [0; 0; 2]]%Z. eexists. split; [exact sx_enum|]. split; [vm_compute; reflexivity|]. split; [|split; [reflexivity|]].
  - split.
    + intros r [<-|[<-|[<-|[]]]]; [exists [1; 0; 0]%Z|exists [1; 1; 0]%Z|exists [0; 0; 1]%Z]; reflexivity.
    + intros r [<-|[<-|[<-|[]]]]; [exists [1; 0; 0]%Z|exists [-1; 1; 0]%Z|exists [0; 0; 1]%Z]; reflexivity.
  - intros str mapping. reflexivity.
Qed.

(** ** Cases *)
Example C120_case : enum_ok sx_space /\ exists g p s x, new_sqs sx_space 2 Correlation (Some sx_target) None 1%Qc default_tol (Some [sx_m; [[0; 0; 2]; [1; 0; 0]; [0; 1; 0]]%Z]) None true = Some g /\
  sg_list g = [p] /\ distinct_species (gp_allowed p) /\ MatchingProps.codes_ok (gp_allowed p) [0; 1] /\ structure_from_occupancy (gp_allowed p) [0; 1] = Some s /\
  compute_score g sx_m (map snd s) (map fst s) = Some x /\ this x = 12%Q.
Proof.
  split; [exact sx_enum|]. do 4 eexists. split; [vm_compute; reflexivity|]. split; [vm_compute; reflexivity|]. split; [repeat constructor; cbn; intuition discriminate|]. split; [repeat constructor|].
  split; [vm_compute; reflexivity|]. split; vm_compute; reflexivity.
Qed.
Example C121_case : exists g, new_sqs sx_space 2 Correlation (Some sx_target) (Some (repeat (Q2Qc 2) 5)) 1%Qc default_tol None None true = Some g /\ map gp_scm (sg_list g) = [sx_m].
Proof. eexists. split; vm_compute; reflexivity. Qed.
Example C122_case : exists g, new_sqs sx_space 2 Correlation None None 1%Qc default_tol (Some [sx_m]) None true = Some g /\ used sx_space 2 (Some [sx_m]) sx_m /\
  Permutation [[0; 0; 2]; [1; 0; 0]; [0; 1; 0]]%Z sx_m /\ det3 [[0; 0; 2]; [1; 0; 0]; [0; 1; 0]]%Z = 2%Z.
Proof.
  eexists. split; [vm_compute; reflexivity|]. split; [cbn; auto|]. split; [|reflexivity]. apply (rows_key_iff [[0; 0; 2]; [1; 0; 0]; [0; 1; 0]]%Z sx_m). reflexivity.
Qed.
Print Assumptions C120_processors.
Print Assumptions C120_refused.
Print Assumptions C120_lengths.
Print Assumptions C120_score.
Print Assumptions C120_best.
Print Assumptions C121_target_partial.
Print Assumptions C121_processors_refuted.
Print Assumptions C122_rows_partial.
Print Assumptions C122_lattice_refuted.
