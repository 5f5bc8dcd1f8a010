(** C94: the flips that are added to make a flip table ergodic. *)
From Verif Require Import LibProofs QcLib SublatticeProofs GroundTermsProps CompSpaceProofs CompSpaceProps NatSolProps.
From Verif Require Export ErgodicProps.
From Coq Require Import Sorting.Sorted.
Set Implicit Arguments.
Unset Strict Implicit.
Open Scope Z_scope.

(** ** Grid points *)
Lemma length_point d n0 vs x : length n0 = d -> rows d vs -> length (lattice_point n0 vs x) = d.
Proof.
  intros L R. unfold lattice_point. assert (F : forall l, (forall p, In p l -> length (snd p) = d) -> length (fold_right (fun p acc => vadd (vscale (fst p) (snd p)) acc) n0 l) = d).
  { induction l as [|[c v] l IH]; intros H; auto. cbn [fold_right fst snd]. specialize (H (c, v) (or_introl eq_refl)) as Hv. simpl in Hv. assert (IL := IH (fun p P => H p (or_intror P))). assert (LS : length (vscale c v) = d) by (unfold vscale; rewrite map_length; auto). rewrite length_vadd_; [auto|]. rewrite LS. symmetry. exact IL. }
  apply F. intros [c v] P. apply in_combine_r in P. auto.
Qed.
Lemma nth_point d n0 vs x i : length n0 = d -> rows d vs -> nth i (lattice_point n0 vs x) 0 = nth i n0 0 + lc (combine x vs) i.
Proof.
  intros L. revert x. induction vs as [|v vs IH]; intros x R.
  - destruct x; unfold lattice_point, lc; simpl; lia.
  - destruct x as [|c x]; [unfold lattice_point, lc; simpl; lia|]. cbn [combine]. rewrite lc_cons. unfold lattice_point. cbn [combine fold_right fst snd]. fold (lattice_point n0 vs x).
    assert (R' : rows d vs) by (intros w W; apply R; right; auto). assert (LS : length (vscale c v) = d) by (unfold vscale; rewrite map_length; apply R; left; auto). rewrite nth_vadd_ by (rewrite LS, (length_point x L R'); auto). rewrite IH by auto.
    unfold vscale. assert (N : nth i (map (Z.mul c) v) 0 = c * nth i v 0) by (transitivity (nth i (map (Z.mul c) v) (c * 0)); [rewrite Z.mul_0_r; auto|apply map_nth]). lia.
Qed.
Lemma zsum_vscale c v : zsum (vscale c v) = c * zsum v.
Proof. induction v as [|x v IH]; simpl; [lia|]. fold (vscale c v). lia. Qed.
Lemma zsum_point d n0 vs x : length n0 = d -> rows d vs -> (forall v, In v vs -> zsum v = 0) -> zsum (lattice_point n0 vs x) = zsum n0.
Proof.
  intros L. revert x. induction vs as [|v vs IH]; intros x R Z; [destruct x; auto|]. destruct x as [|c x]; [auto|]. unfold lattice_point. cbn [combine fold_right fst snd]. fold (lattice_point n0 vs x).
  assert (R' : rows d vs) by (intros w W; apply R; right; auto). assert (LS : length (vscale c v) = d) by (unfold vscale; rewrite map_length; apply R; left; auto). rewrite zsum_vadd by (rewrite LS, (length_point x L R'); auto).
  rewrite zsum_vscale, (Z v (or_introl eq_refl)), IH; auto; [lia|]. intros; apply Z; right; auto.
Qed.
Lemma combine_snd A B (a : list A) : forall b : list B, length a = length b -> map snd (combine a b) = b.
Proof. induction a as [|x a IH]; intros [|y b] L; try discriminate; auto. simpl. rewrite IH; auto. Qed.
Lemma point_inj d n0 vs x y : length n0 = d -> rows d vs -> independent vs -> length x = length vs -> length y = length vs -> lattice_point n0 vs x = lattice_point n0 vs y -> x = y.
Proof.
  intros L R I LX LY E. set (l := combine (map (fun p => fst p - snd p) (combine x y)) vs).
  assert (LD : length (map (fun p : Z * Z => fst p - snd p) (combine x y)) = length vs) by (rewrite map_length, combine_length; lia).
  assert (K : forall p, In p l -> fst p = 0).
  { apply I; [apply combine_snd; auto|]. intro i. apply (f_equal (fun p => nth i p 0)) in E. rewrite !(nth_point _ _ L R) in E. assert (S : lc (combine x vs) i = lc l i + lc (combine y vs) i); [|lia].
    unfold l. clear -LX LY. revert y vs LX LY. induction x as [|a x IH]; intros [|b y] [|v vs] LX LY; try discriminate; auto. cbn [combine map fst snd]. rewrite !lc_cons, (IH y vs) by (simpl in *; lia). lia. }
  assert (K2 : forall c, In c (map (fun p => fst p - snd p) (combine x y)) -> c = 0).
  { intros c C. apply In_nth with (d := 0) in C as (j & J & <-). assert (JV : (j < length vs)%nat) by lia. specialize (K (nth j l (0, []))). unfold l in K. rewrite combine_nth in K by auto. apply K. rewrite <- combine_nth by auto. apply nth_In. rewrite combine_length. lia. }
  clear -K2 LX LY. assert (LL : length x = length y) by lia. clear LX LY. revert y K2 LL. induction x as [|a x IH]; intros [|b y] K LL; try discriminate; auto. f_equal; [specialize (K (a - b) (or_introl eq_refl)); lia|]. apply IH; [|simpl in LL; lia]. intros c C. apply K. right. auto.
Qed.
Lemma grid_nodup d n0 vs xs : length n0 = d -> rows d vs -> independent vs -> NoDup xs -> (forall x, In x xs -> length x = length vs) -> NoDup (map (lattice_point n0 vs) xs).
Proof.
  intros L R I ND LX. induction ND as [|x xs NI ND IH]; simpl; constructor; auto.
  - intros H. apply in_map_iff in H as (y & E & Y). apply NI. replace x with y; auto. apply (point_inj L R I); auto; apply LX; [right|left]; auto.
  - apply IH. intros y Y. apply LX. right. auto.
Qed.

(** ** Neighbours *)
Lemma connected_spec d n vs ns : length n = d -> rows d vs -> (is_connected n vs ns = true <-> exists q, In q ns /\ differ_by vs n q).
Proof.
  intros L R. unfold is_connected. rewrite existsb_exists. split.
  - intros (w & W & M). apply row_mem_in in M. exists (vadd w n). split; auto.
    apply in_app_or in W as [W|W].
    + pose proof (R w W) as Lw. split; [rewrite length_vadd_ by congruence; congruence|]. exists w. split; auto. split; [congruence|]. left. intro i. rewrite nth_vadd_ by congruence. lia.
    + apply in_map_iff in W as (v & <- & V). pose proof (R v V) as Lv. split; [rewrite length_vadd_ by (rewrite length_vopp; congruence); rewrite length_vopp; congruence|]. exists v. split; auto. split; [congruence|]. right. intro i. rewrite nth_vadd_, nth_vopp by (rewrite length_vopp; congruence). lia.
  - intros (q & Q & LQ & v & V & Lv & E). destruct E as [E|E].
    + exists v. split; [apply in_or_app; auto|]. apply row_mem_in. replace (vadd v n) with q; auto. apply nth_ext with 0 0; [rewrite length_vadd_; congruence|]. intros i _. rewrite nth_vadd_, E by congruence. lia.
    + exists (vopp v). split; [apply in_or_app; right; apply in_map; auto|]. apply row_mem_in. replace (vadd (vopp v) n) with q; auto. apply nth_ext with 0 0; [rewrite length_vadd_; rewrite length_vopp; congruence|]. intros i _. rewrite nth_vadd_, nth_vopp, E by (rewrite length_vopp; congruence). lia.
Qed.
Lemma differ_incl a b p q : incl a b -> differ_by a p q -> differ_by b p q.
Proof. intros I (L & v & V & H). split; auto. exists v. split; auto. Qed.

(** ** Candidates *)
Lemma opt_map_in A B (f : A -> option B) l ys y : opt_map f l = Some ys -> In y ys -> exists x, In x l /\ f x = Some y.
Proof.
  revert ys. induction l as [|x l IH]; intros ys H I; cbn [opt_map] in H; [injection H as <-; destruct I|]. destruct (f x) as [z|] eqn:EF; [|discriminate]. destruct (opt_map f l) as [zs|] eqn:EZ; [|discriminate]. injection H as <-.
  destruct I as [<-|I]; [exists x; split; auto; left; auto|]. destruct (IH zs eq_refl I) as (x' & X & E). exists x'. split; auto. right. auto.
Qed.
Section Candidates.
Variables (knn : knn_oracle) (ns : list (list Z)) (k d : nat).
Hypotheses (KE : nearest_exact knn) (ND : NoDup ns) (RN : rows d ns).
Let is_diff (u : list Z) : Prop := exists p q, In p ns /\ In q ns /\ p <> q /\ u = vadd q (vopp p).

Lemma sqdist_nonneg : forall p q, 0 <= sqdist p q.
Proof. unfold sqdist. induction p as [|a p IH]; intros [|b q]; cbn [combine map zsum fst snd]; try lia. specialize (IH q). pose proof (Z.square_nonneg (a - b)). lia. Qed.
Lemma sqdist_zero : forall p q : list Z, length p = length q -> (sqdist p q = 0 <-> p = q).
Proof.
  induction p as [|a p IH]; intros [|b q] L; try discriminate; [tauto|]. unfold sqdist. cbn [combine map zsum fst snd]. fold (sqdist p q). pose proof (@sqdist_nonneg p q) as NN. pose proof (Z.square_nonneg (a - b)). specialize (IH q ltac:(simpl in L; lia)). split.
  - intros E. assert (a = b) by nia. assert (sqdist p q = 0) by nia. f_equal; auto. apply IH; auto.
  - intros E. assert (a = b) by congruence. subst b. assert (sqdist p q = 0) by (apply IH; congruence). nia.
Qed.
(** The points near a grid point are other grid points. *)
Lemma near_other n pts : In n ns -> near_points knn ns k n = Some pts -> forall q, In q pts -> In q ns /\ q <> n.
Proof.
  intros N H q Q. unfold near_points in H. destruct (KE ns n k) as (ids & E & NI & LI & B & S & F). rewrite E in H. clear E.
  apply In_nth with (d := []) in N as (j0 & J0 & NJ).
  assert (D0 : forall j, (j < length ns)%nat -> (sqdist (nth j ns []) n = 0 <-> j = j0)).
  { intros j J. rewrite sqdist_zero; [|rewrite (RN (v := nth j ns [])) by (apply nth_In; auto); rewrite <- NJ; symmetry; apply RN, nth_In; auto]. rewrite <- NJ. split; [|intros ->; auto]. intros X. apply (NoDup_nth ns []) in X; auto. }
  assert (GT : forall l, (forall j, In j l -> (j < length ns)%nat /\ j <> j0) -> forall r m, opt_map (fun p : option Z * nat => nth_error ns (snd p)) (map (fun j => (Some (sqdist (nth j ns []) n), j)) l ++ repeat (None, length ns) m) = Some r -> forall q, In q r -> In q ns /\ q <> n).
  { intros l Hl r m Hr q' Q'. apply (opt_map_in Hr) in Q' as (p & P & NE). apply in_app_or in P as [P|P].
    - apply in_map_iff in P as (j & <- & J). simpl in NE. split; [apply nth_error_In in NE; auto|]. intros ->. destruct (Hl j J) as (J1 & J2). apply J2. apply (NoDup_nth ns []); auto. rewrite NJ. apply nth_error_nth. auto.
    - apply repeat_spec in P. subst p. simpl in NE. apply nth_error_In in NE as NI'. assert (length ns < length ns)%nat by (apply nth_error_Some; congruence). lia. }
  destruct ids as [|j ids].
  - (* no points found: the tree is empty or k is zero *)
    simpl in H. apply (GT [] ltac:(intros j []) pts (k - 0)%nat); auto. simpl. destruct (k - 0)%nat; simpl in *; auto.
  - cbn [map app] in H. assert (JN : (j < length ns)%nat) by (apply B; left; auto).
    assert (J0IN : j = j0).
    { destruct (Nat.eq_dec j j0) as [|NE]; auto. exfalso. pose proof (proj2 (D0 j0 J0) eq_refl) as Z0. assert (PJ : sqdist (nth j ns []) n <> 0) by (rewrite (D0 j JN); auto).
      pose proof (@sqdist_nonneg (nth j ns []) n) as NNj.
      destruct (in_dec Nat.eq_dec j0 (j :: ids)) as [I|NI2].
      - apply In_nth with (d := 0%nat) in I as (b & Bb & EB). destruct b as [|b]; [simpl in EB; congruence|]. specialize (S 0%nat (Datatypes.S b) ltac:(lia)). rewrite EB in S. simpl in S. lia.
      - specialize (F j j0 (or_introl eq_refl) J0 NI2). lia. }
    subst j. rewrite (proj2 (D0 j0 J0) eq_refl) in H. apply (GT ids) with (r := pts) (m := (k - length (j0 :: ids))%nat); auto. intros j J. split; [apply B; right; auto|]. inversion NI; subst. congruence.
Qed.
(** With at least [k] points a query finds [k - 1] other points. *)
Lemma near_total n : (k <= length ns)%nat -> In n ns -> exists pts, near_points knn ns k n = Some pts /\ (k <= S (length pts))%nat.
Proof.
  intros K N. unfold near_points. destruct (KE ns n k) as (ids & E & NI & LI & B & _). rewrite E. rewrite Nat.min_l in LI by auto. replace (k - length ids)%nat with 0%nat by lia. cbn [repeat]. rewrite app_nil_r.
  assert (OK : forall l, (forall j, In j l -> (j < length ns)%nat) -> exists r, opt_map (fun p : option Z * nat => nth_error ns (snd p)) (map (fun j => (Some (sqdist (nth j ns []) n), j)) l) = Some r /\ length r = length l).
  { induction l as [|j l IH]; intros H; [exists []; auto|]. destruct IH as (r & ER & LR); [intros; apply H; right; auto|]. cbn [map opt_map snd]. destruct (nth_error ns j) as [q|] eqn:EQ; [|apply nth_error_None in EQ; specialize (H j (or_introl eq_refl)); lia]. rewrite ER. exists (q :: r). simpl. auto. }
  destruct ids as [|j ids]; [destruct (OK [] ltac:(intros j [])) as (r & ER & LR); exists r; split; auto; simpl in *; lia|]. cbn [map].
  destruct (sqdist (nth j ns []) n) as [|p|p] eqn:EP.
  - destruct (OK ids ltac:(intros; apply B; right; auto)) as (r & ER & LR). exists r. split; auto. simpl in LI. lia.
  - destruct (OK (j :: ids) B) as (r & ER & LR). exists r. cbn [map] in ER. rewrite EP in ER. split; auto. simpl in *. lia.
  - destruct (OK (j :: ids) B) as (r & ER & LR). exists r. cbn [map] in ER. rewrite EP in ER. split; auto. simpl in *. lia.
Qed.

Definition covers (cands : list (list Z)) (p q : list Z) : Prop := In (vadd q (vopp p)) cands \/ In (vopp (vadd q (vopp p))) cands.
Lemma fold_add n : In n ns -> forall pts cands, (forall q, In q pts -> In q ns /\ q <> n) -> (forall u, In u cands -> is_diff u) ->
  let r := fold_left (add_candidate n) pts cands in incl cands r /\ (forall u, In u r -> is_diff u) /\ forall q, In q pts -> covers r n q.
Proof.
  intros N. induction pts as [|q pts IH]; intros cands HP HC; cbn [fold_left].
  - split; [intros u U; auto|]. split; auto. intros q [].
  - destruct (HP q (or_introl eq_refl)) as (Q & NE).
    assert (A : incl cands (add_candidate n cands q) /\ (forall u, In u (add_candidate n cands q) -> is_diff u) /\ covers (add_candidate n cands q) n q).
    { unfold add_candidate, covers. destruct (row_mem _ cands) eqn:M1; cbn [orb]; [|destruct (row_mem (vopp _) cands) eqn:M2].
      - apply row_mem_in in M1. split; [intros u U; auto|]. auto.
      - apply row_mem_in in M2. split; [intros u U; auto|]. auto.
      - split; [intros u U; apply in_or_app; auto|]. split; [|left; apply in_or_app; right; left; auto]. intros u U. apply in_app_or in U as [U|[<-|[]]]; auto. exists n, q. auto. }
    destruct A as (A1 & A2 & A3). destruct (IH _ (fun p P => HP p (or_intror P)) A2) as (B1 & B2 & B3). split; [intros u U; apply B1, A1; auto|]. split; auto.
    intros p [<-|P]; auto. destruct A3 as [A3|A3]; [left|right]; apply B1; auto.
Qed.
Lemma candidates_diff todo : (forall n, In n todo -> In n ns) -> forall cands r, (forall u, In u cands -> is_diff u) -> candidates knn ns k todo cands = Some r ->
  incl cands r /\ forall u, In u r -> is_diff u.
Proof.
  induction todo as [|n todo IH]; intros T cands r HC H; cbn [candidates] in H; [injection H as <-; split; auto; intros u U; auto|].
  destruct (near_points knn ns k n) as [pts|] eqn:EP; [|discriminate]. cbn [option_bind] in H. assert (N : In n ns) by (apply T; left; auto).
  destruct (fold_add N (near_other N EP) HC) as (A1 & A2 & _). destruct (IH (fun m M => T m (or_intror M)) _ r A2 H) as (B1 & B2). split; auto. intros u U. apply B1, A1. auto.
Qed.
Lemma candidates_total todo : (2 <= k <= length ns)%nat -> (forall n, In n todo -> In n ns) -> forall cands, (forall u, In u cands -> is_diff u) ->
  exists r, candidates knn ns k todo cands = Some r /\ incl cands r /\ (forall n, In n todo -> exists q, In q ns /\ q <> n /\ covers r n q).
Proof.
  intros K. induction todo as [|n todo IH]; intros T cands HC; cbn [candidates]; [exists cands; split; auto; split; [intros u U; auto|intros n []]|].
  assert (N : In n ns) by (apply T; left; auto). destruct (@near_total n ltac:(lia) N) as (pts & EP & LP). rewrite EP. cbn [option_bind]. destruct (fold_add N (near_other N EP) HC) as (A1 & A2 & A3).
  destruct (IH (fun m M => T m (or_intror M)) _ A2) as (r & ER & B1 & B2). exists r. split; auto. split; [intros u U; apply B1, A1; auto|].
  intros m [<-|M]; auto. destruct pts as [|q pts]; [simpl in LP; lia|]. exists q. destruct (near_other N EP (or_introl eq_refl)) as (Q & NE). split; auto. split; auto.
  destruct (A3 q (or_introl eq_refl)) as [C|C]; [left|right]; apply B1; auto.
Qed.
End Candidates.

Lemma sorted_candidates_spec cands : (forall u, In u cands -> zsum u = 0) -> exists r, sorted_candidates cands = Some r /\ Permutation cands r.
Proof.
  intros H. unfold sorted_candidates. destruct (@opt_map_snd_total _ _ flip_size cands) as (r & E); [intros u U; apply flip_size_some; auto|]. rewrite E. cbn [option_bind]. eexists. split; [reflexivity|].
  destruct (opt_map_snd E) as (M & _). rewrite <- M at 1. apply Permutation_map, sort_by_perm.
Qed.
Lemma extend_spec ns : forall cands selected rem, exists ext, extend_table ns cands selected rem = selected ++ ext /\ incl ext cands /\
  (ext = cands \/ forall n, In n rem -> exists a b, ext = a ++ b /\ is_connected n (selected ++ a) ns = true).
Proof.
  induction cands as [|u cands IH]; intros selected rem; cbn [extend_table]; [exists []; rewrite app_nil_r; split; auto; split; [intros x []|auto]|].
  destruct (filter _ rem) as [|m ms] eqn:EF.
  - exists [u]. split; auto. split; [intros x [<-|[]]; left; auto|]. right. intros n N. exists [u], []. split; auto. destruct (is_connected n (selected ++ [u]) ns) eqn:C; auto. exfalso.
    assert (F : In n (filter (fun n => negb (is_connected n (selected ++ [u]) ns)) rem)) by (apply filter_In; rewrite C; auto). rewrite EF in F. destruct F.
  - destruct (IH (selected ++ [u]) (m :: ms)) as (ext & E & IX & D). exists (u :: ext). split; [rewrite E, <- app_assoc; auto|]. split; [intros x [<-|X]; [left|right]; auto|].
    destruct D as [->|D]; [left; auto|right]. intros n N. destruct (is_connected n (selected ++ [u]) ns) eqn:C.
    + exists [u], ext. auto.
    + destruct (D n) as (a & b & E1 & E2); [rewrite <- EF; apply filter_In; rewrite C; auto|]. exists (u :: a), b. split; [simpl; congruence|]. rewrite <- app_assoc in E2. auto.
Qed.

(** The basis stays in the table; every flip that is added leads from one composition of the grid to another. *)
Theorem C94_added knn n0 vs xs k r :
  let d := length n0 in let ns := map (lattice_point n0 vs) xs in
  nearest_exact knn -> Forall (fun v => length v = d) vs -> independent vs -> NoDup xs -> Forall (fun x => length x = length vs) xs ->
  get_ergodic_vectors knn n0 vs xs k = Some r ->
  exists added, r = vs ++ added /\ forall u, In u added -> exists p q, In p ns /\ In q ns /\ p <> q /\ differ_by [u] p q.
Proof.
  intros d ns KE R I ND LX H. rewrite Forall_forall in R, LX. assert (R' : rows d vs) by (intros v V; auto). pose proof (grid_nodup eq_refl R' I ND LX) as NN. fold ns in NN.
  assert (RN : rows d ns) by (intros p P; apply in_map_iff in P as (x & <- & _); apply length_point; auto).
  unfold get_ergodic_vectors in H. fold ns in H. destruct (filter _ ns) as [|m ms] eqn:EF; [injection H as <-; exists []; rewrite app_nil_r; split; auto; intros u []|].
  destruct (k <=? 1)%nat; [discriminate|]. destruct (candidates _ _ _ _ _) as [cands|] eqn:EC; [|discriminate]. cbn [option_bind] in H. destruct (sorted_candidates cands) as [sc|] eqn:ES; [|discriminate]. cbn [option_bind] in H. injection H as <-.
  destruct (extend_spec ns sc vs (m :: ms)) as (ext & E & IX & _). exists ext. split; auto. intros u U.
  assert (UC : In u cands).
  { apply IX in U. unfold sorted_candidates in ES. destruct (opt_map _ cands) as [keyed|] eqn:EK; [|discriminate]. cbn [option_bind] in ES. injection ES as <-. destruct (opt_map_snd EK) as (M & _). rewrite <- M. eapply Permutation_in; [|exact U]. apply Permutation_sym, Permutation_map, sort_by_perm. }
  assert (TN : forall n, In n (m :: ms) -> In n ns) by (intros n N; rewrite <- EF in N; apply filter_In in N; tauto).
  destruct (candidates_diff KE NN RN TN (cands := []) (r := cands) ltac:(intros x []) EC) as (_ & HD). destruct (HD u UC) as (p & q & P & Q & NE & ->). exists p, q. split; auto. split; auto. split; auto.
  pose proof (RN p P) as Lp. pose proof (RN q Q) as Lq. split; [congruence|]. exists (vadd q (vopp p)). split; [left; auto|]. split; [rewrite length_vadd_; [congruence|rewrite length_vopp; congruence]|]. left. intro i. rewrite nth_vadd_, nth_vopp by (rewrite length_vopp; congruence). lia.
Qed.

(** With at least [k > 1] compositions a table is found in which every composition has a neighbour. *)
Theorem C94_neighbours_partial knn n0 vs xs k :
  let d := length n0 in let ns := map (lattice_point n0 vs) xs in
  nearest_exact knn -> Forall (fun v => length v = d /\ zsum v = 0) vs -> independent vs -> NoDup xs -> Forall (fun x => length x = length vs) xs ->
  (2 <= k <= length xs)%nat ->
  exists r, get_ergodic_vectors knn n0 vs xs k = Some r /\ forall p, In p ns -> exists q, In q ns /\ q <> p /\ differ_by r p q.
Proof.
  intros d ns KE F I ND LX K. rewrite Forall_forall in F, LX. assert (R : rows d vs) by (intros v V; apply F; auto). assert (Z0 : forall v, In v vs -> zsum v = 0) by (intros v V; apply F; auto).
  pose proof (grid_nodup eq_refl R I ND LX) as NN. fold ns in NN. assert (RN : rows d ns) by (intros p P; apply in_map_iff in P as (x & <- & _); apply length_point; auto). assert (LN : length ns = length xs) by apply map_length.
  assert (NZ : forall v, In v vs -> exists i, nth i v 0 <> 0).
  { intros v V. apply in_split in V as (a & b & ->). destruct (in_dec Z.eq_dec 0 v) as [_|]. 2:{ destruct v as [|x v]. - exfalso. specialize (I (map (fun w => (0, w)) a ++ (1, []) :: map (fun w => (0, w)) b)). assert (1 = 0); [|discriminate]. apply (I ltac:(rewrite map_app; cbn [map snd]; rewrite !map_map; cbn [snd]; rewrite !map_id; auto) ltac:(intro i; rewrite lc_app, lc_cons, !lc_zero_coef by (intros p P; apply in_map_iff in P as (w & <- & _); auto); destruct i; simpl; lia) (1, [])). apply in_or_app. right. left. auto.
      - exists 0%nat. simpl. intros ->. apply n. left. auto. }
    assert (DE : (forall i, nth i v 0 = 0) \/ exists i, nth i v 0 <> 0).
    { clear. induction v as [|x v IH]; [left; destruct i; auto|]. destruct (Z.eq_dec x 0) as [->|N]; [|right; exists 0%nat; auto]. destruct IH as [IH|(i & N)]; [left; intros [|i]; simpl; auto|right; exists (S i); auto]. }
    destruct DE as [DE|]; auto. exfalso. specialize (I (map (fun w => (0, w)) a ++ (1, v) :: map (fun w => (0, w)) b)). assert (1 = 0); [|discriminate].
    apply (I ltac:(rewrite map_app; cbn [map snd]; rewrite !map_map; cbn [snd]; rewrite !map_id; auto) ltac:(intro i; rewrite lc_app, lc_cons, !lc_zero_coef by (intros p P; apply in_map_iff in P as (w & <- & _); auto); rewrite DE; lia) (1, v)). apply in_or_app. right. left. auto. }
  assert (DN : forall table p q, (forall v, In v table -> exists i, nth i v 0 <> 0) -> differ_by table p q -> q <> p).
  { intros table p q HT (_ & v & V & _ & E) ->. destruct (HT v V) as (i & N). destruct E as [E|E]; specialize (E i); lia. }
  unfold get_ergodic_vectors. fold ns. destruct (filter _ ns) as [|m ms] eqn:EF.
  - exists vs. split; auto. intros p P. assert (C : is_connected p vs ns = true).
    { destruct (is_connected p vs ns) eqn:C; auto. exfalso. assert (X : In p (filter (fun n => negb (is_connected n vs ns)) ns)) by (apply filter_In; rewrite C; auto). rewrite EF in X. destruct X. }
    apply (connected_spec ns (RN p P) R) in C as (q & Q & D). exists q. split; auto. split; eauto.
  - destruct (Nat.leb_spec k 1); [lia|]. assert (TN : forall n, In n (m :: ms) -> In n ns) by (intros n N; rewrite <- EF in N; apply filter_In in N; tauto).
    destruct (candidates_total (k := k) KE NN RN ltac:(lia) TN (cands := []) ltac:(intros x [])) as (cands & EC & _ & CV). rewrite EC. cbn [option_bind].
    destruct (candidates_diff KE NN RN TN (cands := []) (r := cands) ltac:(intros x []) EC) as (_ & HD).
    destruct (@sorted_candidates_spec cands) as (sc & ES & PS).
    { intros u U. destruct (HD u U) as (p & q & P & Q & _ & ->). rewrite zsum_vadd by (rewrite length_vopp, (RN p P), (RN q Q); auto). rewrite zsum_vopp. apply in_map_iff in P as (x & <- & _). apply in_map_iff in Q as (y & <- & _). rewrite !(zsum_point _ eq_refl R Z0). lia. }
    rewrite ES. cbn [option_bind]. destruct (extend_spec ns sc vs (m :: ms)) as (ext & E & IX & D). rewrite E. eexists. split; [reflexivity|].
    assert (RX : rows d ext). { intros u U. apply IX, (Permutation_in _ (Permutation_sym PS)) in U. destruct (HD u U) as (p & q & P & Q & _ & ->). rewrite length_vadd_; rewrite ?length_vopp, ?(RN p P), ?(RN q Q); auto. }
    assert (NX : forall v, In v (vs ++ ext) -> exists i, nth i v 0 <> 0).
    { intros v V. apply in_app_or in V as [V|V]; auto. apply IX, (Permutation_in _ (Permutation_sym PS)) in V. destruct (HD v V) as (p & q & P & Q & NE & ->).
      assert (DE : (forall i, nth i q 0 = nth i p 0) \/ exists i, nth i q 0 <> nth i p 0).
      { assert (LL : length q = length p) by (rewrite (RN p P), (RN q Q); auto). clear -LL. revert p LL. induction q as [|x q IH]; intros [|y p] LL; try discriminate; [left; auto|]. destruct (Z.eq_dec x y) as [->|N]; [|right; exists 0%nat; auto]. destruct (IH p ltac:(simpl in LL; lia)) as [IH'|(i & N)]; [left; intros [|i]; simpl; auto|right; exists (S i); auto]. }
      destruct DE as [DE|(i & N)]; [exfalso; apply NE; symmetry; apply nth_ext with 0 0; [rewrite (RN p P), (RN q Q); auto|intros; apply DE]|]. exists i. rewrite nth_vadd_, nth_vopp by (rewrite length_vopp, (RN p P), (RN q Q); auto). lia. }
    intros p P. cut (exists q, In q ns /\ differ_by (vs ++ ext) p q); [intros (q & Q & DQ); exists q; split; auto; split; eauto|].
    destruct (is_connected p vs ns) eqn:C.
    + apply (connected_spec ns (RN p P) R) in C as (q & Q & DQ). exists q. split; auto. apply (differ_incl (a := vs)); auto. intros x X. apply in_or_app. auto.
    + assert (PM : In p (m :: ms)) by (rewrite <- EF; apply filter_In; rewrite C; auto). destruct D as [->|D].
      * destruct (CV p PM) as (q & Q & NE & CQ). exists q. split; auto. pose proof (RN p P) as Lp. pose proof (RN q Q) as Lq. split; [congruence|].
        destruct CQ as [CQ|CQ]; eexists; (split; [apply in_or_app; right; apply (Permutation_in _ PS); exact CQ|]).
        -- split; [rewrite length_vadd_; rewrite ?length_vopp; congruence|]. left. intro i. rewrite nth_vadd_, nth_vopp by (rewrite length_vopp; congruence). lia.
        -- split; [rewrite length_vopp, length_vadd_; rewrite ?length_vopp; congruence|]. right. intro i. rewrite nth_vopp, nth_vadd_, nth_vopp by (rewrite length_vopp; congruence). lia.
      * destruct (D p PM) as (a & b & -> & C2). assert (RA : rows d (vs ++ a)) by (intros v V; apply in_app_or in V as [V|V]; auto; apply RX, in_or_app; auto).
        apply (connected_spec ns (RN p P) RA) in C2 as (q & Q & DQ). exists q. split; auto. apply (differ_incl (a := vs ++ a)); auto. intros x X. rewrite app_assoc. apply in_or_app. auto.
Qed.

(** ** One dimension *)
Lemma line_point n0 v a : lattice_point n0 [v] [a] = vadd (vscale a v) n0.
Proof. reflexivity. Qed.
Lemma line_step n0 v a b : length v = length n0 -> b = a + 1 \/ b = a - 1 -> differ_by [v] (lattice_point n0 [v] [a]) (lattice_point n0 [v] [b]).
Proof.
  intros L H. assert (R : rows (length n0) [v]) by (intros w [<-|[]]; auto). split; [rewrite !(length_point _ eq_refl R); auto|]. exists v. split; [left; auto|]. split; [rewrite (length_point _ eq_refl R); auto|].
  destruct H as [->| ->]; [left|right]; intro i; rewrite !(nth_point _ _ eq_refl R); unfold lc; cbn [combine map zsum fst snd]; lia.
Qed.
(** A space of one dimension with two compositions or more: when no composition between two others is missing, the basis
    is the table, and every composition can be reached from every other. *)
Theorem C94_line_partial knn n0 v xs k :
  let ns := map (lattice_point n0 [v]) xs in
  length v = length n0 -> Forall (fun x => length x = 1%nat) xs -> (exists a b, In [a] xs /\ In [b] xs /\ a <> b) ->
  (forall a b c, In [a] xs -> In [c] xs -> a <= b <= c -> In [b] xs) ->
  get_ergodic_vectors knn n0 [v] xs k = Some [v] /\ ergodic [v] ns.
Proof.
  intros ns L F (a0 & b0 & A0 & B0 & AB) CV. rewrite Forall_forall in F. assert (R : rows (length n0) [v]) by (intros w [<-|[]]; auto).
  assert (ONE : forall p, In p ns -> exists a, In [a] xs /\ p = lattice_point n0 [v] [a]).
  { intros p P. apply in_map_iff in P as (x & <- & X). pose proof (F x X) as LX. destruct x as [|a [|? ?]]; try discriminate. exists a. auto. }
  split.
  - unfold get_ergodic_vectors. fold ns. replace (filter (fun n => negb (is_connected n [v] ns)) ns) with (@nil (list Z)); auto. symmetry.
    assert (E : forall l, (forall p, In p l -> is_connected p [v] ns = true) -> filter (fun n => negb (is_connected n [v] ns)) l = []).
    { induction l as [|p l IH]; intros H; auto. cbn [filter]. rewrite (H p (or_introl eq_refl)). cbn [negb]. apply IH. intros q Q. apply H. right. auto. }
    apply E. intros p P. apply (connected_spec (d := length n0) ns); auto.
    + apply ONE in P as (a & _ & ->). apply length_point; auto.
    + destruct (ONE p P) as (a & A & ->). assert (NB : exists b, In [b] xs /\ (b = a + 1 \/ b = a - 1)).
      { destruct (Z.lt_trichotomy a a0) as [H|[H|H]]; [exists (a + 1); split; [apply (CV a _ a0); auto; lia|auto]|subst a0|exists (a - 1); split; [apply (CV a0 _ a); auto; lia|auto]].
        destruct (Z.lt_trichotomy a b0) as [H|[H|H]]; [exists (a + 1); split; [apply (CV a _ b0); auto; lia|auto]|congruence|exists (a - 1); split; [apply (CV b0 _ a); auto; lia|auto]]. }
      destruct NB as (b & B & S). exists (lattice_point n0 [v] [b]). split; [apply in_map; auto|apply line_step; auto].
  - intros p q P Q. destruct (ONE p P) as (a & A & ->). destruct (ONE q Q) as (b & B & ->).
    assert (G : forall m : nat, forall c, In [c] xs -> Z.abs (c - a) <= Z.of_nat m -> reachable [v] ns (lattice_point n0 [v] [a]) (lattice_point n0 [v] [c])).
    { induction m as [|m IH]; intros c C D; [replace c with a by lia; apply reach_refl, in_map; auto|].
      destruct (Z.lt_trichotomy c a) as [H|[->|H]]; [|apply reach_refl, in_map; auto|].
      - apply (@reach_step _ _ _ (lattice_point n0 [v] [c + 1])); [apply IH; [apply (CV c _ a); auto; lia|lia]|apply in_map; auto|apply line_step; auto; lia].
      - apply (@reach_step _ _ _ (lattice_point n0 [v] [c - 1])); [apply IH; [apply (CV a _ c); auto; lia|lia]|apply in_map; auto|apply line_step; auto; lia]. }
    apply (G (Z.to_nat (Z.abs (b - a)))); auto. lia.
Qed.

(** ** A query by sorting *)
Definition sorted_knn : knn_oracle := fun ns n k =>
  let ids := firstn k (sort_by (fun a b => sqdist (nth a ns []) n <=? sqdist (nth b ns []) n) (seq 0 (length ns))) in
  map (fun j => (Some (sqdist (nth j ns []) n), j)) ids ++ repeat (None, length ns) (k - length ids).
Lemma sorted_knn_ok : nearest_exact sorted_knn.
Proof.
  intros ns n k. set (le := fun a b => sqdist (nth a ns []) n <=? sqdist (nth b ns []) n). set (all := sort_by le (seq 0 (length ns))). exists (firstn k all).
  assert (PA : Permutation (seq 0 (length ns)) all) by apply sort_by_perm. assert (NA : NoDup all) by (apply (Permutation_NoDup PA), seq_NoDup).
  assert (LA : length all = length ns) by (rewrite <- (Permutation_length PA), seq_length; auto).
  assert (SA : StronglySorted (fun a b => sqdist (nth a ns []) n <= sqdist (nth b ns []) n) all).
  { assert (SS : StronglySorted (fun a b => le a b = true) all) by (apply sort_by_sorted; unfold le; [intros a b; rewrite !Z.leb_le; lia|intros a b c; rewrite !Z.leb_le; lia]). revert SS. clear. generalize all. induction all0 as [|x l IH]; intros H; [constructor|]. inversion H as [|? ? H1 H2]; subst. constructor; auto. eapply Forall_impl; [|exact H2]. intros y Y. apply Z.leb_le. exact Y. }
  assert (SPLIT : all = firstn k all ++ skipn k all) by (symmetry; apply firstn_skipn).
  split; [reflexivity|]. split; [rewrite SPLIT in NA; apply NoDup_app_remove_r in NA; auto|]. split; [rewrite firstn_length, LA; auto|]. split.
  { intros j J. assert (In j all) by (rewrite SPLIT; apply in_or_app; auto). apply (Permutation_in _ (Permutation_sym PA)), in_seq in H. lia. }
  split.
  - assert (G : forall l, StronglySorted (fun a b => sqdist (nth a ns []) n <= sqdist (nth b ns []) n) l -> forall a b, (a < b < length l)%nat -> sqdist (nth (nth a l 0%nat) ns []) n <= sqdist (nth (nth b l 0%nat) ns []) n).
    { induction 1 as [|x l SL IH FL]; intros a b AB; [simpl in AB; lia|]. destruct b as [|b]; [lia|]. simpl in AB. destruct a as [|a]; simpl; [rewrite Forall_forall in FL; apply FL, nth_In; lia|apply IH; lia]. }
    intros a b AB. apply G; auto. rewrite SPLIT in SA. revert SA. clear. generalize (firstn k all) (skipn k all). induction l as [|x l IH]; intros l' H; [constructor|]. inversion H as [|? ? H1 H2]; subst. constructor; [apply (IH l'); auto|]. rewrite Forall_app in H2. tauto.
  - intros j i J I NI. assert (IA : In i all) by (apply (Permutation_in _ PA), in_seq; lia). rewrite SPLIT in IA. apply in_app_or in IA as [IA|IA]; [contradiction|].
    rewrite SPLIT in SA. revert SA J IA. clear. generalize (firstn k all) (skipn k all). induction l as [|x l IH]; intros l' H J IA; [destruct J|]. inversion H as [|? ? H1 H2]; subst. rewrite Forall_forall in H2. destruct J as [<-|J]; [apply H2, in_or_app; auto|apply (IH l'); auto].
Qed.

(** ** Two spaces for which the table is not ergodic *)
(** A and B on one site, with at most half of A: a single composition. *)
Definition single_other : option (list entry) := Some [Tuple [1; 0]%Qc (Qc_frac 1 2) (Some RLe)].
Definition single_sp : cspace := space_of (make_space (fun _ => 0) (fun _ => 1%nat) [[Sp 0; Sp 1]] (Some [1]) false single_other).
(** A single composition is connected trivially, but the table is not found. *)
Theorem C94_single_refuted knn lp :
  nearest_exact knn -> built (fun _ => 0) (fun _ => 1%nat) [[Sp 0; Sp 1]] [1] false single_other single_sp [] /\
  basis single_sp 1 = Some [[-1; 1]] /\ base_solution single_sp 1 = Some [1; 0] /\
  get_composition_grid lp (1 # 1000000) single_sp [[-1; 1]] 1 1 [] = Some ([[1]], [((1, 1), [[1]])]) /\
  ergodic [[-1; 1]] [[0; 1]] /\ lattice_point [1; 0] [[-1; 1]] [1] = [0; 1] /\
  flip_table knn lp (1 # 1000000) single_sp [[-1; 1]] 1 true [] = None.
Proof.
  intros KE. split; [apply built_by; vm_compute; reflexivity|]. assert (G : get_composition_grid lp (1 # 1000000) single_sp [[-1; 1]] 1 1 [] = Some ([[1]], [((1, 1), [[1]])])) by (vm_compute; reflexivity).
  assert (B : base_solution single_sp 1 = Some [1; 0]) by (vm_compute; reflexivity). split; [vm_compute; reflexivity|]. split; [exact B|]. split; [exact G|]. split; [intros p q [<-|[]] [<-|[]]; apply reach_refl; left; auto|]. split; [reflexivity|].
  unfold flip_table. cbn [negb]. rewrite B. cbn [option_bind]. rewrite G. cbn [option_bind]. unfold get_ergodic_vectors. change (map (lattice_point [1; 0] [[-1; 1]]) [[1]]) with [[0; 1]].
  replace (filter (fun n => negb (is_connected n [[-1; 1]] [[0; 1]])) [[0; 1]]) with [[0; 1]] by (vm_compute; reflexivity). cbn [Nat.leb candidates]. unfold near_points.
  destruct (KE [[0; 1]] [0; 1] 3%nat) as (ids & E & ND & LI & BI & _). rewrite E. destruct ids as [|j [|? ?]]; try discriminate. destruct j as [|j]; [|specialize (BI (S j) (or_introl eq_refl)); simpl in BI; lia]. reflexivity.
Qed.

(** A and B on three sites, C and D on one, with [0 <= A - 2 C <= 1]: the compositions come in two pairs. *)
Definition split_other : option (list entry) :=
  Some [Tuple [1; 0; Qc_of_Z (-2); 0]%Qc 0%Qc (Some RGe); Tuple [1; 0; Qc_of_Z (-2); 0]%Qc 1%Qc (Some RLe)].
Definition split_bits : list (list species) := [[Sp 0; Sp 1]; [Sp 2; Sp 3]].
Definition split_sp : cspace := space_of (make_space (fun _ => 0) (fun _ => 2%nat) split_bits (Some [3; 1]) false split_other).
Definition split_vs : list (list Z) := [[-1; 1; 0; 0]; [0; 0; -1; 1]].
Definition split_ns : list (list Z) := [[3; 0; 1; 0]; [2; 1; 1; 0]; [1; 2; 0; 1]; [0; 3; 0; 1]].
Definition split_lp (n0 : list Z) (vs : list (list Z)) : option (Q * Q) :=
  if list_eq_dec Z.eq_dec n0 [3; 0; 1; 0] then if list_eq_dec (list_eq_dec Z.eq_dec) vs split_vs then Some ((0 # 1)%Q, (3 # 1)%Q) else None else None.
Lemma split_lp_ok : lp_ok split_lp (1 # 1000000).
Proof.
  intros n0 vs lo hi H a x (L & F). unfold split_lp in H. destruct (list_eq_dec Z.eq_dec n0 _) as [->|]; [|discriminate]. destruct (list_eq_dec _ vs split_vs) as [->|]; [|discriminate]. injection H as <- <-.
  pose proof (F 0%nat ltac:(simpl; lia)) as F0. pose proof (F 1%nat ltac:(simpl; lia)) as F1. destruct x as [|b [|? ?]]; try discriminate. cbn [nth zcomb split_vs] in F0, F1. unfold Qle, Qminus, Qplus, Qopp, inject_Z. cbn [Qnum Qden Pos.mul]. lia.
Qed.
(** Every composition has a neighbour, so nothing is added to the basis; the two pairs stay disconnected. *)
Theorem C94_disconnected_refuted knn :
  built (fun _ => 0) (fun _ => 2%nat) split_bits [3; 1] false split_other split_sp [] /\ lp_ok split_lp (1 # 1000000) /\
  basis split_sp 1 = Some split_vs /\ base_solution split_sp 1 = Some [3; 0; 1; 0] /\
  (exists grid cache, get_composition_grid split_lp (1 # 1000000) split_sp split_vs 1 1 [] = Some (grid, cache) /\ map (lattice_point [3; 0; 1; 0] split_vs) grid = split_ns) /\
  flip_table knn split_lp (1 # 1000000) split_sp split_vs 1 true [] = Some split_vs /\ ~ ergodic split_vs split_ns.
Proof.
  split; [apply built_by; vm_compute; reflexivity|]. split; [apply split_lp_ok|]. split; [vm_compute; reflexivity|]. split; [vm_compute; reflexivity|]. split; [eexists; eexists; split; vm_compute; reflexivity|]. split; [vm_compute; reflexivity|].
  intros E. specialize (E [3; 0; 1; 0] [0; 3; 0; 1] ltac:(left; auto) ltac:(do 3 right; left; auto)).
  assert (G : forall q, reachable split_vs split_ns [3; 0; 1; 0] q -> In q split_ns /\ nth 2 q 0 = 1).
  { induction 1 as [P|q r _ (Q & N) R D]; [split; auto|]. split; auto. destruct D as (_ & v & V & _ & S).
    destruct Q as [<-|[<-|[<-|[<-|[]]]]]; cbn in N; try discriminate; destruct R as [<-|[<-|[<-|[<-|[]]]]]; auto; exfalso; destruct V as [<-|[<-|[]]]; destruct S as [S|S]; pose proof (S 0%nat) as S0; pose proof (S 2%nat) as S2; cbn in S0, S2; lia. }
  apply G in E as (_ & N). discriminate.
Qed.

(** A grid with a composition that the basis does not connect. *)
Example C94_case : nearest_exact sorted_knn /\ independent two /\
  get_ergodic_vectors sorted_knn [0; 3; 1] two [[0; 0]; [1; 0]; [-4; 2]] 3 = Some (two ++ [[-3; 1; 2]]) /\
  Forall (fun v => length v = 3%nat /\ zsum v = 0) two /\ get_ergodic_vectors sorted_knn [0; 2] [[1; -1]] [[0]; [1]; [2]] 3 = Some [[1; -1]].
Proof. split; [apply sorted_knn_ok|]. split; [apply two_independent|]. split; [vm_compute; reflexivity|]. split; [repeat constructor|vm_compute; reflexivity]. Qed.

Print Assumptions C94_added.
Print Assumptions C94_neighbours_partial.
Print Assumptions C94_line_partial.
Print Assumptions C94_single_refuted.
Print Assumptions C94_disconnected_refuted.
