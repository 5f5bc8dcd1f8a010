(** Proofs about the generation of orbits. *)
From Verif Require Import LibProofs SublatticeProofs OrbitProps.
From Verif Require Export OrbitPartsProofs.
From Coq Require Import Lia Permutation.
Set Implicit Arguments.
Unset Strict Implicit.
Local Open Scope Qc_scope.

Lemma of_Z_opp z : Qc_of_Z (- z) = - Qc_of_Z z.
Proof. assert (E := Qc_of_Z_add z (- z)). rewrite Z.add_opp_diag_r in E. change (Qc_of_Z 0) with 0 in E. qclra. Qed.

(** ** Diameters *)
Lemma qmax_le x y z : qmax x y <= z <-> x <= z /\ y <= z.
Proof. unfold qmax. destruct (Qcleb_spec x y) as [H|H]; [|apply Qcnot_le_lt in H]; split; [intros; split; qclra|tauto|intros; split; qclra|tauto]. Qed.
Lemma fold_qmax_le l z : fold_right qmax 0 l <= z <-> 0 <= z /\ forall x, In x l -> x <= z.
Proof.
  induction l as [|a l IH]; simpl; [split; [intros; split; [auto|tauto]|tauto]|]. rewrite qmax_le, IH. split.
  - intros (H1 & H2 & H3). split; auto. intros x [<- |H]; auto.
  - intros (H1 & H2). split; [auto|split; auto].
Qed.
Lemma diam2_le G A z : diam2 G A <= z <-> 0 <= z /\ forall x y, In x A -> In y A -> dist2 G x y <= z.
Proof.
  unfold diam2. rewrite fold_qmax_le. split; intros [H1 H2]; split; auto.
  - intros x y Hx Hy. apply H2. apply in_flat_map. exists x. split; auto. apply in_map. auto.
  - intros d Hd. apply in_flat_map in Hd as (x & Hx & Hd). apply in_map_iff in Hd as (y & <- & Hy). auto.
Qed.
Lemma exceeds_false d2 d : exceeds d2 d = false <-> 0 <= d /\ d2 <= d * d.
Proof.
  unfold exceeds. rewrite orb_false_iff. destruct (Qcltb_spec d 0) as [H|H], (Qcltb_spec (d * d) d2) as [K|K]; split; intros [X Y]; try discriminate; try (exfalso; qclra).
  - apply Qcnot_lt_le in H. apply Qcnot_lt_le in K. auto.
  - auto.
Qed.
Lemma exceeds_iff G A d : exceeds (diam2 G A) d = false <-> 0 <= d /\ diam_le G A d.
Proof.
  rewrite exceeds_false, diam2_le. split; [intros (H1 & H2 & H3); split; auto|intros [H1 H2]; split; auto; split; auto; qcnra].
Qed.
Lemma diam_perm G A B d : Permutation A B -> diam_le G A d -> diam_le G B d.
Proof. intros P H x y Hx Hy. apply H; eapply Permutation_in; try apply Permutation_sym; eauto. Qed.
Lemma diam_mono G A d e : 0 <= d -> d <= e -> diam_le G A d -> diam_le G A e.
Proof. intros H1 H2 H x y Hx Hy. specialize (H x y Hx Hy). assert (d * d <= e * e) by qcnra. qclra. Qed.

Section Crystal.
Variables (dim : nat) (tol : Qc) (G : list (list Qc)) (sites : list (list Qc)) (ops : list symop).
Hypothesis CR : crystal dim tol G sites ops.
Notation site := (site dim sites).
Notation is_site := (is_site dim sites).
Notation site_cluster := (site_cluster dim sites).
Notation related := (related dim ops).
Notation moved := (moved dim).
Notation same_op := (same_op dim sites).
Notation proper := (proper dim sites).
Variable nbits : list nat.

Lemma dist2_shift x y t : length x = dim -> length y = dim -> length t = dim -> dist2 G (shift x t) (shift y t) = dist2 G x y.
Proof.
  intros Lx Ly Lt. unfold dist2. replace (qvsub (shift x t) (shift y t)) with (qvsub x y); auto. symmetry.
  apply vec_ext; [unfold qvsub; rewrite !length_qmap2; rewrite ?length_shift; congruence|]. intros j _. rewrite !nth_qvsub by (rewrite ?length_shift; congruence).
  rewrite !comp_shift by congruence. ring.
Qed.
Lemma diam_translate A t d : length t = dim -> (forall x, In x A -> site x) -> (diam_le G (translate t A) d <-> diam_le G A d).
Proof.
  intros Lt H. split; intros D x y Hx Hy.
  - rewrite <- (@dist2_shift x y t); auto; try (apply (site_len CR); auto). apply D; apply (in_map (fun z => shift z t)); auto.
  - apply in_map_iff in Hx as (x' & <- & Hx). apply in_map_iff in Hy as (y' & <- & Hy). change (dist2 G (shift x' t) (shift y' t) <= d * d).
    rewrite dist2_shift; auto; apply (site_len CR); auto.
Qed.
Lemma diam_moved A B d : (forall x, In x B -> site x) -> moved A B -> diam_le G B d -> diam_le G A d.
Proof.
  intros H (t & Lt & P) D. eapply diam_perm; [apply Permutation_sym, P|]. apply diam_translate; auto.
Qed.
Lemma diam_image A g d : In g ops -> (forall x, In x A -> site x) -> diam_le G A d -> diam_le G (map (operate g) A) d.
Proof.
  intros Hg H D x y Hx Hy. apply in_map_iff in Hx as (x' & <- & Hx). apply in_map_iff in Hy as (y' & <- & Hy). rewrite (cr_iso CR); auto.
Qed.
Lemma diam_related A B d : (forall x, In x B -> site x) -> related A B -> diam_le G B d -> diam_le G A d.
Proof.
  intros H R D. apply related_moved in R as (g & Hg & M). eapply diam_moved; [|exact M|apply diam_image; auto]. apply (image_sites CR Hg H).
Qed.

(** ** Orbits *)
Notation coords o := (c_coords (g_base o)).
Record orb_ok (o : gorbit) : Prop := { oo_proper : proper (g_base o); oo_kinds : Forall2 is_site (g_kinds o) (coords o) }.
Lemma oo_cluster o : orb_ok o -> site_cluster (coords o).
Proof. intros H. apply (proper_coords CR). apply (oo_proper H). Qed.
Lemma oo_sites o x : orb_ok o -> In x (coords o) -> site x.
Proof. intros H. apply (oo_cluster H). Qed.
Lemma kinds_translate ks A t : length t = dim -> Forall2 is_site ks A -> Forall2 is_site ks (translate t A).
Proof. intros Lt. induction 1 as [|k x ks A H F IH]; constructor; auto. apply (is_site_shift CR H Lt). Qed.
Lemma mk_orbit_ok ks A : site_cluster A -> Forall2 is_site ks A -> exists o t, mk_orbit dim ks A = Some o /\ orb_ok o /\ length t = dim /\ coords o = translate t A /\ g_kinds o = ks.
Proof.
  intros S F. unfold mk_orbit. rewrite (Forall2_length F), Nat.eqb_refl. destruct (C57_normal (sc_points CR S)) as (c & t & E & Lt & Ec & _). rewrite E. cbn [option_bind].
  exists (mkG c ks), t. split; auto. split; [constructor; simpl|auto].
  - exists A. auto.
  - rewrite Ec. apply kinds_translate; auto.
Qed.
Lemma orbit_in_ok o l : orb_ok o -> (forall e, In e l -> orb_ok e) -> exists r, orbit_in dim tol ops o l = Some r /\ (r = true <-> exists e, In e l /\ related (coords e) (coords o)).
Proof.
  intros H HL. destruct l as [|e l].
  { exists false. split; auto. split; [discriminate|intros (e & [] & _)]. }
  set (L := e :: l) in *. unfold orbit_in. destruct (parts_ok CR (oo_proper H)) as (P & E & C1 & C2 & C3 & C4 & _).
  rewrite E. cbn [option_bind]. assert (EQ : forall r, (match L with [] => Some false | _ => Some r end) = Some r) by reflexivity. exists (existsb (fun e => mem_cluster tol (g_base e) (o_clusters P)) L).
  split; [reflexivity|]. rewrite existsb_exists. split; intros (x & Hx & M); exists x; split; auto; assert (Sx := fun y => @oo_sites x y (HL x Hx)).
  - apply (mem_moved CR) in M as (c & Hc & M); auto; [|apply (oo_proper (HL x Hx))]. destruct (C3 c Hc) as (g & Hg & Mg). apply related_moved. exists g. split; auto.
    apply (moved_trans CR (image_sites CR Hg (fun y => @oo_sites o y H))) with (2 := Mg). apply (moved_sym CR Sx M).
  - apply related_moved in M as (g & Hg & M). apply (mem_moved CR); auto; [apply (oo_proper (HL x Hx))|]. destruct (C4 g Hg) as (c & Hc & Mc). exists c. split; auto.
    apply (moved_trans CR Sx Mc). apply (moved_sym CR) with (2 := M). apply (image_sites CR Hg (fun y => @oo_sites o y H)).
Qed.
Lemma orbit_len_ok o : orb_ok o -> exists n, orbit_len dim tol ops nbits o = Some n.
Proof.
  intros H. destruct (parts_ok CR (oo_proper H)) as (P & E & _ & _ & _ & _ & _ & _ & _ & PG). unfold orbit_len. rewrite E. cbn [option_bind].
  destruct (@combos_ok (length (coords o)) (g_bits nbits o) (o_perms P)) as (cs & Ec & _).
  - exact PG.
  - unfold g_bits. rewrite map_length. apply (Forall2_length (oo_kinds H)).
  - rewrite Ec. cbn [option_bind]. eauto.
Qed.
Lemma sort_orbits_ok l : (forall o, In o l -> orb_ok o) -> exists s, sort_orbits dim tol ops nbits G l = Some s /\ Permutation l s.
Proof.
  intros H. unfold sort_orbits. destruct (@opt_map_all _ _ (fun o => let? k := sort_key dim tol ops nbits G o in Some (k, o)) l) as (ks & E).
  { intros o Ho. unfold sort_key. destruct (parts_ok CR (oo_proper (H o Ho))) as (P & E & _). rewrite E. cbn [option_bind]. destruct (orbit_len_ok (H o Ho)) as (n & ->). cbn [option_bind]. congruence. }
  rewrite E. cbn [option_bind]. eexists. split; [reflexivity|]. apply (perm_trans (l' := map snd ks)).
  - apply perm_eq. revert ks E. clear H. induction l as [|o l IH]; simpl; intros ks E; [injection E as <-; auto|].
    destruct (sort_key dim tol ops nbits G o) as [k|]; [|discriminate]. cbn [option_bind] in E. destruct (opt_map _ l) as [ks'|]; [|discriminate]. injection E as <-. simpl. f_equal. auto.
  - apply Permutation_map. apply sort_by_perm.
Qed.

Lemma rel_sym x y : orb_ok x -> orb_ok y -> related (coords x) (coords y) -> related (coords y) (coords x).
Proof. intros Hx Hy. apply (related_sym CR); intros z Hz; [apply (oo_sites Hx Hz)|apply (oo_sites Hy Hz)]. Qed.

(** *** Lists of orbits no two of which are equivalent *)
Definition unrelated (l : list gorbit) : Prop := forall i j x y, nth_error l i = Some x -> nth_error l j = Some y -> related (coords x) (coords y) -> i = j.
Lemma unrelated_perm l l' : (forall o, In o l -> orb_ok o) -> Permutation l l' -> unrelated l -> unrelated l'.
Proof.
  intros H P U. revert H U. assert (EQ : forall m : list gorbit, (forall o, In o m -> orb_ok o) -> (unrelated m <-> ForallOrdPairs (fun x y => ~ related (coords x) (coords y)) m)).
  { intros m H. split.
    - intros U. induction m as [|a m IH]; constructor.
      + apply Forall_forall. intros y Hy R. apply In_nth_error in Hy as (j & Ej). assert (0 = S j)%nat; [|discriminate]. apply (U 0 (S j) a y)%nat; auto.
      + apply IH; [intros; apply H; right; auto|]. intros i j x y Hi Hj R. assert (S i = S j); [|congruence]. apply (U (S i) (S j) x y); auto.
    - induction 1 as [|a m F FO IH]; intros i j x y Hi Hj R; [destruct i; discriminate|]. rewrite Forall_forall in F.
      destruct i as [|i], j as [|j]; simpl in *; auto.
      + injection Hi as <-. destruct (F y); auto. eapply nth_error_In; eauto.
      + injection Hj as <-. destruct (F x); [eapply nth_error_In; eauto|]. apply (@rel_sym x a); [apply H; right; eapply nth_error_In; eauto|apply H; left; auto|auto].
      + f_equal. apply (IH (fun o Ho => H o (or_intror Ho)) i j x y); auto. }
  intros H U. apply EQ; [intros o Ho; apply H; eapply Permutation_in; [apply Permutation_sym|]; eauto|]. apply EQ in U; auto.
  revert H U. induction P as [|a l l' P IH|a b l|l l' l'' P1 IH1 P2 IH2]; intros H U.
  - auto.
  - inversion U as [|? ? F FO]; subst. constructor; [|apply IH; auto; intros; apply H; right; auto]. rewrite Forall_forall in *. intros x Hx. apply F. eapply Permutation_in; [apply Permutation_sym|]; eauto.
  - inversion U as [|? ? F FO]; subst. inversion FO as [|? ? F' FO']; subst. inversion F as [|? ? N F'']; subst. constructor; [|constructor; auto]. constructor; auto.
    intros R. apply N. apply rel_sym; auto; apply H; simpl; auto.
  - apply IH2; [intros o Ho; apply H; eapply Permutation_in; [apply Permutation_sym|]; eauto|]. apply IH1; auto.
Qed.
Lemma add_orbit_ok o acc : orb_ok o -> (forall e, In e acc -> orb_ok e) -> unrelated acc ->
  exists acc', add_orbit dim tol ops o acc = Some acc' /\ (forall e, In e acc' -> In e acc \/ e = o) /\ incl acc acc' /\ unrelated acc' /\ exists e, In e acc' /\ related (coords e) (coords o).
Proof.
  intros H HA U. unfold add_orbit. destruct (orbit_in_ok H HA) as (r & -> & R). cbn [option_bind]. destruct r.
  - exists acc. split; auto. split; auto. split; [apply incl_refl|]. split; auto. apply R. auto.
  - exists (acc ++ [o]). split; auto. split; [intros e He; apply in_app_iff in He as [?|[<- |[]]]; auto|]. split; [apply incl_appl, incl_refl|].
    split; [|exists o; split; [apply in_app_iff; right; left; auto|apply (related_refl CR (oo_cluster H))]].
    assert (N : forall e, In e acc -> related (coords e) (coords o) -> False) by (intros e He X; assert (false = true) by (apply R; eauto); discriminate).
    intros i j x y Hi Hj Rxy.
    assert (D : forall k z, nth_error (acc ++ [o]) k = Some z -> nth_error acc k = Some z \/ (k = length acc /\ z = o)).
    { intros k z Hk. destruct (Nat.lt_ge_cases k (length acc)) as [L|L]; [rewrite nth_error_app1 in Hk; auto|]. rewrite nth_error_app2 in Hk by auto.
      destruct (k - length acc)%nat as [|m] eqn:Em; [|destruct m; discriminate]. right. split; [lia|]. injection Hk as <-. auto. }
    destruct (D _ _ Hi) as [Hi'|[-> ->]]; destruct (D _ _ Hj) as [Hj'|[-> ->]]; auto.
    + apply (U i j x y); auto.
    + destruct (N x); auto. eapply nth_error_In; eauto.
    + destruct (N y); [eapply nth_error_In; eauto|]. apply (@rel_sym o y); auto. apply HA. eapply nth_error_In; eauto.
Qed.

(** ** Points *)
Definition sized (k : nat) (o : gorbit) : Prop := orb_ok o /\ length (coords o) = k.
Lemma reduce_shift x : length x = dim -> map (fun c => c - Qc_of_Z (qfloor c)) x = shift x (map (fun c => (- qfloor c)%Z) x).
Proof.
  intros L. apply vec_ext; [rewrite map_length, length_shift; rewrite ?map_length; auto|]. intros j Hj. rewrite map_length in Hj. rewrite comp_shift by (rewrite map_length; auto).
  transitivity (comp x j - Qc_of_Z (qfloor (comp x j))).
  - rewrite nth_indep with (d' := 0 - Qc_of_Z (qfloor 0)) by (rewrite map_length; auto). apply (map_nth (fun c => c - Qc_of_Z (qfloor c)) x 0 j).
  - rewrite nth_indep with (d' := (- qfloor 0)%Z) by (rewrite map_length; auto). rewrite (map_nth (fun c => (- qfloor c)%Z) x 0 j). rewrite of_Z_opp. ring.
Qed.
Lemma sc_single x : site x -> site_cluster [x].
Proof. intros H. split; [discriminate|]. split; [constructor; [intros []|constructor]|]. intros y [<- |[]]. auto. Qed.
Lemma site_self i s : nth_error sites i = Some s -> is_site i s.
Proof. intros E. exists s, (repeat 0%Z dim). split; auto. split; [apply repeat_length|]. symmetry. apply shift_0. apply (cr_dim CR). eapply nth_error_In; eauto. Qed.
Lemma moved_related A B : (forall x, In x B -> site x) -> moved A B -> related A B.
Proof.
  intros H M. destruct (cr_id CR) as (g & Hg & E). apply related_moved. exists g. split; auto. apply (moved_trans CR (image_sites CR Hg H) M).
  apply (moved_sym CR H). assert (N := moved_same E H). rewrite map_id in N. exact N.
Qed.
Lemma add_points_ok ss : forall n acc, (forall i s, nth_error ss i = Some s -> nth_error sites (n + i) = Some s) -> (forall o, In o acc -> sized 1 o) -> unrelated acc ->
  exists l, add_points dim tol ops n ss acc = Some l /\ incl acc l /\ (forall o, In o l -> sized 1 o) /\ unrelated l /\ forall s, In s ss -> exists o, In o l /\ related (coords o) [s].
Proof.
  induction ss as [|s ss IH]; intros n acc HS HA U; simpl.
  - exists acc. split; auto. split; [apply incl_refl|]. split; auto. split; auto. intros s [].
  - assert (Es : nth_error sites n = Some s) by (rewrite <- (Nat.add_0_r n); apply HS; auto). assert (Is := site_self Es). assert (Ls := site_len CR (ex_intro _ n Is)).
    rewrite (reduce_shift Ls). set (t := map (fun c => (- qfloor c)%Z) s). assert (Lt : length t = dim) by (unfold t; rewrite map_length; auto).
    assert (It := is_site_shift CR Is Lt). destruct (@mk_orbit_ok [n] [shift s t]) as (o & u & -> & Ho & Lu & Ec & Ek); [apply sc_single; eexists; eauto|repeat constructor; auto|]. cbn [option_bind].
    assert (So : sized 1 o) by (split; auto; rewrite Ec; auto).
    destruct (@add_orbit_ok o acc Ho) as (acc' & -> & A1 & A2 & A3 & e & He & Re); auto; [intros e He; apply (HA e He)|]. cbn [option_bind].
    destruct (IH (S n) acc') as (l & E & L1 & L2 & L3 & L4); auto.
    { intros i x Hx. rewrite <- (HS (S i) x Hx). f_equal. lia. }
    { intros x Hx. destruct (A1 x Hx) as [?| ->]; auto. }
    exists l. split; auto. split; [intros x Hx; auto|]. split; auto. split; auto. intros x [<- |Hx]; auto. exists e. split; auto.
    apply (related_trans CR) with (2 := Re); [intros x [<- |[]]; exists n; auto|]. apply moved_related; [intros x [<- |[]]; exists n; auto|]. rewrite Ec. exists (zadd t u). split; [rewrite length_zadd; congruence|].
    apply perm_eq. change (map (fun x => shift x u) [shift s t] = map (fun x => shift x (zadd t u)) [s]). simpl. rewrite shift_shift; congruence.
Qed.
Lemma gen_points_ok : exists l, gen_points dim tol ops nbits G sites = Some l /\ (forall o, In o l -> sized 1 o) /\ unrelated l /\ forall x, site x -> exists o, In o l /\ related (coords o) [x].
Proof.
  destruct (@add_points_ok sites 0 []) as (l & E & _ & L2 & L3 & L4); [auto|intros o []|intros i j x y Hi; destruct i; discriminate|]. unfold gen_points. rewrite E. cbn [option_bind].
  destruct (@sort_orbits_ok l) as (s & Es & P); [intros o Ho; apply (L2 o Ho)|]. exists s. split; auto. split; [intros o Ho; apply L2; eapply Permutation_in; [apply Permutation_sym|]; eauto|].
  split; [apply (@unrelated_perm l s); auto; intros o Ho; apply (L2 o Ho)|]. intros x (i & s0 & t & Ei & Lt & ->). destruct (L4 s0) as (o & Ho & R); [eapply nth_error_In; eauto|].
  exists o. split; [eapply Permutation_in; eauto|]. apply (related_trans CR) with (2 := R).
  - intros y [<- |[]]. exists i. apply (is_site_shift CR); auto. apply site_self; auto.
  - apply moved_related; [intros y [<- |[]]; exists i; apply (is_site_shift CR); auto; apply site_self; auto|]. apply (moved_sym CR).
    + intros y [<- |[]]. exists i. apply site_self; auto.
    + exists t. split; auto.
Qed.

(** ** Larger clusters *)
Definition found (k : nat) (d : Qc) (l : list gorbit) : Prop := (forall o, In o l -> sized k o /\ diam_le G (coords o) d) /\ unrelated l.
Lemma found_ok k d l o : found k d l -> In o l -> orb_ok o.
Proof. intros [H _] Ho. apply (H o Ho). Qed.
Lemma in_coords x o : site x -> orb_ok o -> (coord_subset tol [x] (coords o) = true <-> In x (coords o)).
Proof.
  intros Hx Ho. unfold coord_subset. simpl. rewrite andb_true_r, existsb_exists. split.
  - intros (y & Hy & C). apply (closeb_eq CR Hx (oo_sites Ho Hy)) in C. subst. auto.
  - intros H. exists x. split; auto. apply (closeb_eq CR Hx Hx). auto.
Qed.
Lemma sc_add A x : site_cluster A -> site x -> ~ In x A -> site_cluster (A ++ [x]).
Proof.
  intros (N & D & H) Hx I. split; [destruct A; discriminate|]. split.
  - apply NoDup_app_intro; auto; [constructor; [intros []|constructor]|]. intros y Hy [<- |[]]. auto.
  - intros y Hy. apply in_app_iff in Hy as [?|[<- |[]]]; auto.
Qed.
Lemma try_ok d o i x acc k : sized k o -> is_site i x -> found (S k) (d + diam_eps) acc ->
  exists acc', try_neighbor dim tol ops G d o acc (i, x) = Some acc' /\ incl acc acc' /\ found (S k) (d + diam_eps) acc' /\
    (~ In x (coords o) -> 0 <= d + diam_eps -> diam_le G (coords o ++ [x]) (d + diam_eps) -> exists e, In e acc' /\ related (coords e) (coords o ++ [x])).
Proof.
  intros [Ho Lo] Hi HF. assert (Hx : site x) by (exists i; auto). unfold try_neighbor. cbn [fst snd]. destruct (coord_subset tol [x] (coords o)) eqn:Ex.
  - apply in_coords in Ex; auto. exists acc. split; auto. split; [apply incl_refl|]. split; auto. contradiction.
  - assert (Nx : ~ In x (coords o)) by (intros I; apply in_coords in I; auto; congruence). assert (SC := sc_add (oo_cluster Ho) Hx Nx).
    destruct (@mk_orbit_ok (g_kinds o ++ [i]) (coords o ++ [x])) as (n & t & -> & Hn & Lt & Ec & Ek); auto; [apply Forall2_app; [apply (oo_kinds Ho)|repeat constructor; auto]|]. cbn [option_bind].
    assert (DI : forall D, diam_le G (coords n) D <-> diam_le G (coords o ++ [x]) D) by (intros D; rewrite Ec; apply diam_translate; auto; apply SC).
    destruct (exceeds (diam2 G (coords n)) (d + diam_eps)) eqn:Ed.
    + exists acc. split; auto. split; [apply incl_refl|]. split; auto. intros _ P0 D. apply DI in D. assert (exceeds (diam2 G (coords n)) (d + diam_eps) = false) by (apply exceeds_iff; auto). congruence.
    + apply exceeds_iff in Ed as [P0 Dn]. destruct (@add_orbit_ok n acc Hn) as (acc' & -> & A1 & A2 & A3 & e & He & Re); [intros e He; apply (found_ok HF He)|apply HF|].
      exists acc'. split; auto. split; auto. split.
      * split; auto. intros e' He'. destruct (A1 e' He') as [?| ->]; [apply HF; auto|]. split; auto. split; auto. rewrite Ec. unfold translate. rewrite map_length, app_length. simpl. lia.
      * intros _ _ _. exists e. split; auto. apply (related_trans CR) with (2 := Re); [apply SC|]. apply moved_related; [apply SC|]. rewrite Ec. exists t. split; auto.
Qed.
Lemma neighbors_ok d o k nbs : sized k o -> (forall i x, In (i, x) nbs -> is_site i x) -> forall acc, found (S k) (d + diam_eps) acc ->
  exists acc', fold_opt (try_neighbor dim tol ops G d o) nbs acc = Some acc' /\ incl acc acc' /\ found (S k) (d + diam_eps) acc' /\
    forall i x, In (i, x) nbs -> ~ In x (coords o) -> 0 <= d + diam_eps -> diam_le G (coords o ++ [x]) (d + diam_eps) -> exists e, In e acc' /\ related (coords e) (coords o ++ [x]).
Proof.
  intros So. induction nbs as [|[i x] nbs IH]; intros HN acc HF; simpl.
  - exists acc. split; auto. split; [apply incl_refl|]. split; auto. intros i x [].
  - destruct (@try_ok d o i x acc k) as (acc1 & -> & I1 & F1 & C1); auto; [apply HN; left; auto|]. cbn [option_bind].
    destruct (IH (fun j y Hy => HN j y (or_intror Hy)) acc1 F1) as (acc2 & E & I2 & F2 & C2). exists acc2. split; auto. split; [intros e He; auto|]. split; auto.
    intros j y [[= <- <-]|H] N P D; [destruct (C1 N P D) as (e & He & Re); eauto|eauto].
Qed.
Lemma extend_ok d o k nbs acc : sized k o -> (forall i x, In (i, x) nbs -> is_site i x) -> found (S k) (d + diam_eps) acc ->
  exists acc', extend_orbit dim tol ops G d nbs acc o = Some acc' /\ incl acc acc' /\ found (S k) (d + diam_eps) acc' /\
    (0 <= d -> diam_le G (coords o) d -> forall i x, In (i, x) nbs -> ~ In x (coords o) -> diam_le G (coords o ++ [x]) (d + diam_eps) -> exists e, In e acc' /\ related (coords e) (coords o ++ [x])).
Proof.
  intros So HN HF. unfold extend_orbit. destruct (exceeds (diam2 G (coords o)) d) eqn:Ed.
  - exists acc. split; auto. split; [apply incl_refl|]. split; auto. intros P D. assert (exceeds (diam2 G (coords o)) d = false) by (apply exceeds_iff; auto). congruence.
  - destruct (neighbors_ok So HN HF) as (acc' & E & I & F & C). exists acc'. split; auto. split; auto. split; auto. intros P D i x Hi N Dx. apply (C i x); auto.
    assert (0 <= diam_eps) by (unfold diam_eps, Qc_frac; qclra). qclra.
Qed.
Lemma extend_all_ok d k nbs os : (forall o, In o os -> sized k o) -> (forall i x, In (i, x) nbs -> is_site i x) -> forall acc, found (S k) (d + diam_eps) acc ->
  exists acc', fold_opt (extend_orbit dim tol ops G d nbs) os acc = Some acc' /\ incl acc acc' /\ found (S k) (d + diam_eps) acc' /\
    (0 <= d -> forall o i x, In o os -> diam_le G (coords o) d -> In (i, x) nbs -> ~ In x (coords o) -> diam_le G (coords o ++ [x]) (d + diam_eps) -> exists e, In e acc' /\ related (coords e) (coords o ++ [x])).
Proof.
  intros HO HN. induction os as [|o os IH]; intros acc HF; simpl.
  - exists acc. split; auto. split; [apply incl_refl|]. split; auto. intros _ o i x [].
  - destruct (@extend_ok d o k nbs acc) as (acc1 & -> & I1 & F1 & C1); auto; [apply HO; left; auto|]. cbn [option_bind].
    destruct (IH (fun y Hy => HO y (or_intror Hy)) acc1 F1) as (acc2 & E & I2 & F2 & C2). exists acc2. split; auto. split; [intros e He; auto|]. split; auto.
    intros P o' i x [<- |Ho] D Hi N Dx; [destruct (C1 P D i x Hi N Dx) as (e & He & Re); eauto|eauto].
Qed.
(** All clusters of [k] sites within [d] are represented. *)
Definition complete (k : nat) (d : Qc) (l : list gorbit) : Prop :=
  forall X, site_cluster X -> length X = k -> diam_le G X d -> exists o, In o l /\ related (coords o) X.
(** Every site that could extend an orbit base cluster of [k] sites is among the neighbors. *)
Definition reaches (nbs : list (nat * list Qc)) (k : nat) (d : Qc) : Prop :=
  forall c x, proper c -> length (c_coords c) = k -> site x -> (forall y, In y (c_coords c) -> dist2 G x y <= d * d) -> exists i, In (i, x) nbs.
Lemma extend_complete d k nbs os : (1 <= k)%nat -> (forall o, In o os -> sized k o) -> (forall i x, In (i, x) nbs -> is_site i x) ->
  exists new, fold_opt (extend_orbit dim tol ops G d nbs) os [] = Some new /\ found (S k) (d + diam_eps) new /\
    (0 <= d -> reaches nbs k d -> complete k d os -> complete (S k) d new).
Proof.
  intros Hk HO HN. destruct (@extend_all_ok d k nbs os HO HN []) as (new & E & _ & F & C); [split; [intros o []|intros i j x y Hi; destruct i; discriminate]|].
  exists new. split; auto. split; auto. intros P R CP X SX LX DX.
  destruct X as [|y X']; [discriminate|]. simpl in LX. injection LX as LX'. destruct SX as (N & D & S). inversion D as [|? ? Hy D']; subst.
  assert (SX' : site_cluster X') by (split; [intros ->; simpl in *; lia|]; split; auto; intros x Hx; apply S; right; auto).
  destruct (CP X' SX' eq_refl) as (o & Ho & Ro); [intros a b Ha Hb; apply DX; right; auto|].
  assert (So := HO o Ho). destruct So as [Oo Lo]. assert (Do : diam_le G (coords o) d).
  { apply (diam_related (proj2 (proj2 SX')) Ro). intros a b Ha Hb; apply DX; right; auto. }
  destruct Ro as (g & t & Hg & Lt & Pt). set (x := shift (operate g y) t).
  assert (Sy : site y) by (apply S; left; auto). assert (Sx : site x) by (apply (site_shift CR); auto; apply (cr_op CR); auto).
  assert (DD : forall u v, site u -> site v -> dist2 G (shift (operate g u) t) (shift (operate g v) t) = dist2 G u v).
  { intros u v Hu Hv. rewrite dist2_shift; auto; try (apply (site_len CR); apply (cr_op CR); auto). apply (cr_iso CR); auto. }
  assert (Nx : ~ In x (coords o)).
  { intros I. apply (Permutation_in _ Pt) in I. apply in_map_iff in I as (z & Ez & Hz). apply Hy. replace y with z; auto.
    apply (op_inj CR Hg); [apply S; right; auto|auto|]. apply (@shift_inj _ _ t); auto; rewrite Lt; apply (site_len CR); apply (cr_op CR); auto; apply S; right; auto. }
  assert (Rx : related (coords o ++ [x]) (y :: X')).
  { exists g, t. split; auto. split; auto. simpl. apply Permutation_sym. apply Permutation_cons_app. rewrite app_nil_r. apply Permutation_sym. exact Pt. }
  destruct (R (g_base o) x) as (i & Hi); auto; [apply (oo_proper Oo)| |].
  { intros z Hz. apply (Permutation_in _ Pt) in Hz. apply in_map_iff in Hz as (w & <- & Hw). unfold x. rewrite DD; auto; [|apply S; right; auto]. apply DX; [left; auto|right; auto]. }
  destruct (C P o i x) as (e & He & Re); auto.
  { apply (@diam_mono G _ d); auto.
    - assert (0 <= diam_eps) by (unfold diam_eps, Qc_frac; qclra). qclra.
    - apply (diam_related S Rx). auto. }
  exists e. split; auto. apply (related_trans CR S Re Rx).
Qed.

(** ** All sizes *)
Variable nbrs : Qc -> list (nat * list Qc).
Hypothesis NBS : forall d i x, In (i, x) (nbrs d) -> is_site i x.
Definition getd (k : nat) (D : orbit_dict) : list gorbit := match get_size k D with Some os => os | None => [] end.
(** Conditions on the cutoffs: up to size [K], every size has the preceding one, with a cutoff that is not smaller. *)
Record cut_ok (K : nat) (cuts : list (nat * Qc)) : Prop := {
  cu_pos : forall k d, (k <= K)%nat -> In (k, d) cuts -> 0 <= d;
  cu_dec : forall k d, (2 <= k)%nat -> (S k <= K)%nat -> In (S k, d) cuts -> exists e, In (k, e) cuts /\ d <= e;
  cu_reach : forall k d, (S k <= K)%nat -> In (S k, d) cuts -> reaches (nbrs d) k d
}.
Definition inhabited (cuts : list (nat * Qc)) : Prop :=
  forall k d e, (2 <= k)%nat -> In (k, d) cuts -> In (S k, e) cuts -> exists X, site_cluster X /\ length X = k /\ diam_le G X d.
Section Multi.
Variables (cuts : list (nat * Qc)) (points : list gorbit).
Hypothesis PS : forall o, In o points -> sized 1 o.
Hypothesis PC : forall x, site x -> exists o, In o points /\ related (coords o) [x].
Record minv (P : list (nat * Qc)) (D : orbit_dict) : Prop := {
  mi_one : get_size 1 D = Some points;
  mi_sound : forall k os, get_size k D = Some os -> (k = 1%nat /\ os = points) \/ ((2 <= k)%nat /\ exists d, In (k, d) P /\ found k (d + diam_eps) os);
  mi_complete : forall K, cut_ok K cuts -> forall k d, (k <= K)%nat -> In (k, d) P -> complete k d (getd k D)
}.
Lemma complete_one d : complete 1 d points.
Proof using PC.
  intros X (N & _ & H) L _. destruct X as [|x [|y X]]; try discriminate. apply PC. apply H. left; auto.
Qed.
Lemma complete_mono k d e l : 0 <= d -> d <= e -> complete k e l -> complete k d l.
Proof. intros H1 H2 C X SX LX DX. apply C; auto. apply (@diam_mono G X d e); auto. Qed.
Lemma get_app k D s m : get_size k (D ++ [(m, s)]) = match get_size k D with Some os => Some os | None => if (m =? k)%nat then Some s else None end.
Proof.
  unfold get_size. induction D as [|[j os] D IH]; simpl; [destruct (m =? k)%nat; auto|]. destruct (j =? k)%nat; auto.
Qed.
Lemma multi_run L : forall P D, minv P D -> (forall p, In p (P ++ L) -> In p cuts) -> (forall p, In p cuts -> In p (P ++ L)) -> (forall p, In p cuts -> (2 <= fst p)%nat) ->
  StronglySorted lt (map fst L) -> (forall p q, In p P -> In q L -> (fst p < fst q)%nat) ->
  (forall D', fold_opt (multi_step dim tol ops nbits G nbrs) L D = Some D' -> minv (P ++ L) D') /\
  ((forall K, cut_ok K cuts) -> inhabited cuts -> exists D', fold_opt (multi_step dim tol ops nbits G nbrs) L D = Some D').
Proof using CR NBS PS PC.
  induction L as [|[sz d] L IH]; intros P D M H1 H2 H3 SS HPL.
  - rewrite app_nil_r. split; [intros D' [= <-]; auto|intros _ _; exists D; auto].
  - assert (Hsz : In (sz, d) cuts) by (apply H1, in_app_iff; right; left; auto). assert (G2 := H3 _ Hsz). cbn [fst] in G2. destruct sz as [|k]; [lia|].
    inversion SS as [|? ? SS' FA]; subst. rewrite Forall_forall in FA.
    assert (PRE : forall j e, In (j, e) cuts -> (j < S k)%nat -> In (j, e) P).
    { intros j e Hj Lj. apply H2 in Hj. apply in_app_iff in Hj as [Hj|[[= <- <-]|Hj]]; auto; [lia|]. specialize (FA j (in_map fst _ _ Hj)). lia. }
    assert (NK : get_size (S k) D = None).
    { destruct (get_size (S k) D) as [os|] eqn:E; auto. exfalso. apply (mi_sound M) in E as [[E _]|(_ & e & He & _)]; [lia|]. specialize (HPL _ (S k, d) He (or_introl eq_refl)). simpl in HPL. lia. }
    cbn [fold_opt]. unfold multi_step at 1 3. cbn [fst snd].
    destruct (get_size k D) as [prev|] eqn:Ep; cbn [option_bind].
    + assert (SZ : forall o, In o prev -> sized k o).
      { intros o Ho. apply (mi_sound M) in Ep as [[-> ->]|(_ & e & _ & F & _)]; auto. apply (F o Ho). }
      destruct (@extend_complete d k (nbrs d) prev (proj2 (Nat.succ_le_mono 1 k) G2) SZ (@NBS d)) as (new & En & Fn & Cn). rewrite En. cbn [option_bind].
      assert (CN : forall K, cut_ok K cuts -> (S k <= K)%nat -> complete (S k) d new).
      { intros K CU HK. apply Cn; [apply (cu_pos CU HK Hsz)|apply (cu_reach CU HK Hsz)|]. destruct (Nat.eq_dec k 1) as [-> |N1].
        - rewrite (mi_one M) in Ep. injection Ep as <-. apply complete_one.
        - destruct (@cu_dec _ _ CU k d) as (e & He & Le); auto; [lia|]. assert (HK' : (k <= K)%nat) by lia. assert (C := mi_complete M CU HK' (PRE k e He (Nat.lt_succ_diag_r k))). unfold getd in C. rewrite Ep in C.
          apply (complete_mono (cu_pos CU HK Hsz) Le C). }
      assert (EQ : P ++ (S k, d) :: L = (P ++ [(S k, d)]) ++ L) by (rewrite <- app_assoc; auto). rewrite EQ in *.
      assert (HPL' : forall p q, In p (P ++ [(S k, d)]) -> In q L -> (fst p < fst q)%nat).
      { intros p q Hp Hq. apply in_app_iff in Hp as [Hp|[<- |[]]]; [apply HPL; auto; right; auto|]. apply FA. apply in_map. auto. }
      destruct new as [|n0 new0].
      * cbn [option_bind]. apply IH; auto. constructor; [apply (mi_one M)| |].
        -- intros j os Hj. apply (mi_sound M) in Hj as [?|(Gk & e & He & F)]; auto. right. split; auto. exists e. split; auto. apply in_app_iff; auto.
        -- intros K CU j e HK Hj. apply in_app_iff in Hj as [Hj|[[= <- <-]|[]]]; [apply (mi_complete M CU HK Hj)|]. unfold getd. rewrite NK. apply (CN K); auto.
      * set (new := n0 :: new0) in *. destruct (@sort_orbits_ok new) as (s & Es & Ps); [intros o Ho; apply (found_ok Fn Ho)|]. rewrite Es. cbn [option_bind]. apply IH; auto. constructor.
        -- rewrite get_app, (mi_one M). auto.
        -- intros j os Hj. rewrite get_app in Hj. destruct (get_size j D) as [os'|] eqn:Ej.
           ++ injection Hj as <-. apply (mi_sound M) in Ej as [?|(Gk & e & He & F)]; auto. right. split; auto. exists e. split; auto. apply in_app_iff; auto.
           ++ destruct (Nat.eqb_spec (S k) j) as [<- |]; [|discriminate]. injection Hj as <-. right. split; auto. exists d. split; [apply in_app_iff; right; left; auto|].
              destruct Fn as [F1 F2]. split; [intros o Ho; apply F1; eapply Permutation_in; [apply Permutation_sym|]; eauto|]. apply (@unrelated_perm new s); auto. intros o Ho. apply (F1 o Ho).
        -- intros K CU j e HK Hj X SX LX DX. apply in_app_iff in Hj as [Hj|[[= <- <-]|[]]].
           ++ destruct (mi_complete M CU HK Hj SX LX DX) as (o & Ho & R). exists o. split; auto. unfold getd in *. rewrite get_app. destruct (get_size j D); auto. destruct Ho.
           ++ destruct (CN K CU HK X SX LX DX) as (o & Ho & R). exists o. split; auto. unfold getd. rewrite get_app, NK, Nat.eqb_refl. eapply Permutation_in; eauto.
    + split; [discriminate|]. intros CU IN. exfalso. destruct (Nat.eq_dec k 1) as [-> |N1]; [rewrite (mi_one M) in Ep; discriminate|].
      destruct (@cu_dec _ _ (CU (S k)) k d) as (e & He & Le); auto; [lia|]. destruct (IN k e d) as (X & SX & LX & DX); auto; [lia|].
      destruct (mi_complete M (CU k) (le_n k) (PRE k e He (Nat.lt_succ_diag_r k)) SX LX DX) as (o & Ho & _). unfold getd in Ho. rewrite Ep in Ho. destruct Ho.
Qed.
End Multi.
End Crystal.
