(** C37: aliased orbits are the classes of orbits with identical clusters.
    C38: inverted and completed orbit hierarchies. *)
From Coq Require Import Sorting.Sorted Relations.Relation_Operators Relations.Operators_Properties.
From Verif Require Import LibProofs Hierarchy.
Set Implicit Arguments.
Unset Strict Implicit.
Open Scope nat_scope.

(** ** Specification of aliasing *)
(** Two orbits consist of the same clusters, as unordered collections of sites. *)
Definition same_clusters (A B : list (list nat)) : Prop :=
  forall c, (exists a, In a A /\ Permutation c a) <-> (exists b, In b B /\ Permutation c b).

(** ** Sorting *)
Lemma ninsert_comm x y l : ninsert x (ninsert y l) = ninsert y (ninsert x l).
Proof.
  induction l as [|z l IH]; simpl.
  - destruct (Nat.leb_spec x y), (Nat.leb_spec y x); auto; try lia. assert (x = y) by lia; subst; auto.
  - destruct (Nat.leb_spec y z), (Nat.leb_spec x z); simpl.
    + destruct (Nat.leb_spec x y), (Nat.leb_spec y x); auto; try lia.
      * assert (x = y) by lia; subst; auto.
      * destruct (Nat.leb_spec x z), (Nat.leb_spec y z); try lia; auto.
      * destruct (Nat.leb_spec x z), (Nat.leb_spec y z); try lia; auto.
    + destruct (Nat.leb_spec x y); try lia. destruct (Nat.leb_spec x z), (Nat.leb_spec y z); try lia; auto.
    + destruct (Nat.leb_spec y x); try lia. destruct (Nat.leb_spec x z), (Nat.leb_spec y z); try lia; auto.
    + destruct (Nat.leb_spec x z), (Nat.leb_spec y z); try lia. f_equal. auto.
Qed.
Lemma ninsert_perm x l : Permutation (ninsert x l) (x :: l).
Proof. induction l as [|y l IH]; simpl; auto. destruct (x <=? y); auto. rewrite IH. apply perm_swap. Qed.
Lemma nsorted_perm l : Permutation (nsorted l) l.
Proof. induction l as [|x l IH]; simpl; auto. rewrite ninsert_perm. auto. Qed.
Lemma nsorted_eq u v : Permutation u v <-> nsorted u = nsorted v.
Proof.
  split.
  - intro P. induction P as [|x l l' P IH|x y l|]; simpl; auto; [rewrite IH; auto|apply ninsert_comm|congruence].
  - intro E. rewrite <- (nsorted_perm u), E. apply nsorted_perm.
Qed.
Lemma nsorted_id l : StronglySorted le l -> nsorted l = l.
Proof.
  induction 1 as [|x l H IH F]; simpl; auto. rewrite IH. destruct l as [|y l]; simpl; auto.
  inversion F; subst. rewrite (proj2 (Nat.leb_le _ _)) by assumption. reflexivity.
Qed.
Lemma tuple_eqb_spec u : forall v, tuple_eqb u v = true <-> u = v.
Proof.
  induction u as [|x u IH]; intros [|y v]; simpl; try (split; [discriminate|congruence]); [tauto|].
  rewrite andb_true_iff, Nat.eqb_eq, IH. split; [intros []; congruence|intros E; injection E; auto].
Qed.
Lemma subset_spec A B : subset_eqb (map nsorted A) (map nsorted B) = true <-> forall a, In a A -> exists b, In b B /\ Permutation a b.
Proof.
  unfold subset_eqb. rewrite forallb_forall. split.
  - intros H a Ha. specialize (H (nsorted a) (in_map _ _ _ Ha)). apply existsb_exists in H as (s & Hs & E).
    apply tuple_eqb_spec in E. apply in_map_iff in Hs as (b & Eb & Hb). exists b. split; auto. apply nsorted_eq. congruence.
  - intros H s Hs. apply in_map_iff in Hs as (a & <- & Ha). destruct (H a Ha) as (b & Hb & P). apply existsb_exists.
    exists (nsorted b). split; [apply in_map, Hb|]. apply tuple_eqb_spec, nsorted_eq, P.
Qed.
Lemma same_sets_spec A B : same_sets A B = true <-> same_clusters A B.
Proof.
  unfold same_sets. rewrite andb_true_iff, !subset_spec. unfold same_clusters. split.
  - intros (H1 & H2) c. split; intros (a & Ha & P); [destruct (H1 a Ha) as (b & Hb & Q)|destruct (H2 a Ha) as (b & Hb & Q)];
      exists b; split; auto; rewrite P; exact Q.
  - intros H. split; intros a Ha; [apply (H a)|apply (H a)]; exists a; auto.
Qed.

(** ** The loop in closed form *)
Section Alias.
Variable maps : list (list (list nat)).
Let n := length maps.
Let same (i j : nat) : bool := same_sets (nth i maps []) (nth j maps []).

Lemma same_iff i j : same i j = true <-> same_clusters (nth i maps []) (nth j maps []).
Proof. apply same_sets_spec. Qed.
Lemma same_refl i : same i i = true. Proof. apply same_iff. intro; reflexivity. Qed.
Lemma same_sym i j : same i j = true -> same j i = true.
Proof. rewrite !same_iff. intros H c. symmetry. apply H. Qed.
Lemma same_trans i j k : same i j = true -> same j k = true -> same i k = true.
Proof. rewrite !same_iff. intros H1 H2 c. rewrite (H1 c). apply H2. Qed.

Definition leader (i : nat) : bool := forallb (fun j => negb (same j i)) (seq 0 i).
Definition rest (i : nat) : list nat := filter (same i) (seq (S i) (n - S i)).
Definition al (k : nat) : list (list nat) :=
  map (fun i => map S (i :: rest i)) (filter (fun i => leader i && negb (length (rest i) =? 0)) (seq 0 k)).

Lemma leader_spec i : leader i = true <-> forall j, j < i -> same j i = false.
Proof.
  unfold leader. rewrite forallb_forall. split.
  - intros H j Hj. specialize (H j). rewrite in_seq in H. specialize (H ltac:(lia)). destruct (same j i); [discriminate|reflexivity].
  - intros H j Hj. apply in_seq in Hj. rewrite H by lia. reflexivity.
Qed.
Lemma in_rest i j : In j (rest i) <-> i < j < n /\ same i j = true.
Proof. unfold rest. rewrite filter_In, in_seq. split; intros (H1 & H2); split; auto; lia. Qed.
Lemma in_al g k : In g (al k) <-> exists i, i < k /\ leader i = true /\ rest i <> [] /\ g = map S (i :: rest i).
Proof.
  unfold al. rewrite in_map_iff. split.
  - intros (i & <- & Hi). apply filter_In in Hi as (Hi & Hb). apply in_seq in Hi. apply andb_true_iff in Hb as (H1 & H2).
    exists i. repeat split; auto; [lia|]. intros E. rewrite E in H2. discriminate.
  - intros (i & Hi & H1 & H2 & ->). exists i. split; auto. apply filter_In. split; [apply in_seq; lia|]. rewrite H1.
    destruct (rest i); [congruence|reflexivity].
Qed.
Lemma in_any_spec x gs : in_any x gs = true <-> exists g, In g gs /\ In x g.
Proof.
  unfold in_any. rewrite existsb_exists. split.
  - intros (y & Hy & E). apply Nat.eqb_eq in E as <-. apply in_concat in Hy. exact Hy.
  - intros H. exists x. split; [apply in_concat, H|apply Nat.eqb_refl].
Qed.
Lemma in_any_al x k : in_any (S x) (al k) = true <-> exists i, i < k /\ leader i = true /\ rest i <> [] /\ (x = i \/ In x (rest i)).
Proof.
  rewrite in_any_spec. split.
  - intros (g & Hg & Hx). apply in_al in Hg as (i & Hi & H1 & H2 & ->). exists i. repeat split; auto.
    apply in_map_iff in Hx as (y & E & [<-|Hy]); injection E as ->; auto.
  - intros (i & Hi & H1 & H2 & Hx). exists (map S (i :: rest i)). split; [apply in_al; eauto 10|].
    apply in_map. destruct Hx as [->|Hx]; [left|right]; auto.
Qed.
(** Members of earlier groups are those that are not leaders. *)
Lemma least i : exists l, l <= i /\ leader l = true /\ same l i = true.
Proof.
  induction i as [i IH] using lt_wf_ind. destruct (leader i) eqn:E; [exists i; auto using same_refl|].
  assert (exists j, j < i /\ same j i = true) as (j & Hj & Hs).
  { unfold leader in E. assert (~ forall j, In j (seq 0 i) -> negb (same j i) = true) as Hn by (rewrite <- forallb_forall; congruence).
    destruct (existsb (fun j => same j i) (seq 0 i)) eqn:Ee.
    - apply existsb_exists in Ee as (j & Hj & Hs). apply in_seq in Hj. exists j. split; [lia|exact Hs].
    - exfalso. apply Hn. intros j Hj. destruct (same j i) eqn:Hs; auto.
      assert (existsb (fun j => same j i) (seq 0 i) = true) by (apply existsb_exists; eauto). congruence. }
  destruct (IH j Hj) as (l & Hl & H1 & H2). exists l. repeat split; auto; [lia|]. eapply same_trans; eauto.
Qed.

Lemma sorted_seq a m : StronglySorted lt (seq a m).
Proof.
  revert a. induction m as [|m IH]; intro a; simpl; constructor; auto. apply Forall_forall. intros x Hx. apply in_seq in Hx. lia.
Qed.
Lemma sorted_filter {A} (R : A -> A -> Prop) f l : StronglySorted R l -> StronglySorted R (filter f l).
Proof.
  induction 1 as [|x l H IH F]; simpl; [constructor|]. destruct (f x); auto. constructor; auto.
  rewrite Forall_forall in *. intros y Hy. apply filter_In in Hy. apply F, Hy.
Qed.
Lemma sorted_map_S l : StronglySorted lt l -> StronglySorted lt (map S l).
Proof.
  induction 1 as [|x l H IH F]; simpl; constructor; auto. rewrite Forall_forall in *. intros y Hy. apply in_map_iff in Hy as (z & <- & Hz).
  specialize (F z Hz). lia.
Qed.
Lemma sorted_group i : StronglySorted lt (map S (i :: rest i)).
Proof.
  apply sorted_map_S. constructor; [apply sorted_filter, sorted_seq|]. apply Forall_forall. intros j Hj. apply in_rest in Hj. lia.
Qed.
Lemma sorted_weaken l : StronglySorted lt l -> StronglySorted le l.
Proof. induction 1 as [|x l H IH F]; constructor; auto. rewrite Forall_forall in *. intros y Hy. specialize (F y Hy). lia. Qed.
Lemma sorted_NoDup l : StronglySorted lt l -> NoDup l.
Proof. induction 1 as [|x l H IH F]; constructor; auto. intro Hx. rewrite Forall_forall in F. specialize (F x Hx). lia. Qed.

Lemma step_ok k : k < n -> alias_step maps (al k) k = al (S k).
Proof.
  intros Hk. unfold alias_step. fold n.
  assert (al (S k) = al k ++ (if leader k && negb (length (rest k) =? 0) then [map S (k :: rest k)] else [])) as ->.
  { unfold al. rewrite seq_S, filter_app, map_app. cbn [filter Nat.add]. destruct (leader k && _); reflexivity. }
  destruct (in_any (S k) (al k)) eqn:Ea.
  - apply in_any_al in Ea as (i & Hi & H1 & H2 & [->|Hx]); [lia|]. apply in_rest in Hx as (_ & Hs).
    assert (leader k = false) as ->; [|rewrite app_nil_r; reflexivity].
    destruct (leader k) eqn:El; auto. apply leader_spec with (j := i) in El; [congruence|lia].
  - assert (leader k = true) as Hl.
    { destruct (least k) as (l & Hl & H1 & H2). destruct (Nat.eq_dec l k) as [->|Hne]; auto.
      assert (in_any (S k) (al k) = true); [|congruence]. apply in_any_al. exists l.
      assert (In k (rest l)) as Hin by (apply in_rest; split; auto; lia). repeat split; auto; [lia|]. intro E. rewrite E in Hin. contradiction. }
    rewrite Hl. cbn [andb].
    assert (filter (fun j => negb ((j <=? k) || in_any (S j) (al k)) && same_sets (nth k maps []) (nth j maps [])) (seq 0 n) = rest k) as ->.
    { unfold rest. replace n with (S k + (n - S k)) at 1 by lia. rewrite seq_app, filter_app.
      assert (forall f (l : list nat), (forall x, In x l -> f x = false) -> filter f l = []) as Hf.
      { intros f l. induction l as [|x l IH]; simpl; auto. intros H. rewrite (H x) by auto. auto. }
      rewrite Hf.
      - cbn [app Nat.add]. apply filter_ext_in. intros j Hj. apply in_seq in Hj. rewrite (proj2 (Nat.leb_gt _ _)) by lia. cbn [orb].
        fold (same k j). destruct (same k j) eqn:Hs; [|apply andb_false_r]. rewrite andb_true_r.
        destruct (in_any (S j) (al k)) eqn:Hj'; auto. exfalso. apply in_any_al in Hj' as (i & Hi & H1 & H2 & Hx).
        assert (same i j = true) as Hij by (destruct Hx as [->|Hx]; [apply same_refl|apply in_rest in Hx; apply Hx]).
        assert (same i k = true) by (eapply same_trans; [exact Hij|apply same_sym, Hs]).
        apply leader_spec with (j := i) in Hl; [congruence|lia].
      - intros j Hj. apply in_seq in Hj. rewrite (proj2 (Nat.leb_le _ _)) by lia. reflexivity. }
    pose proof (sorted_group k) as Hg. destruct (rest k) as [|j js] eqn:Er; [rewrite app_nil_r; reflexivity|].
    cbn [length Nat.eqb negb]. f_equal. f_equal. rewrite <- Er in *. apply nsorted_id, sorted_weaken, Hg.
Qed.
Lemma loop_ok k : k <= n -> fold_left (alias_step maps) (seq 0 k) [] = al k.
Proof.
  induction k as [|k IH]; intros Hk; [reflexivity|]. rewrite seq_S, fold_left_app. rewrite IH by lia. cbn [fold_left Nat.add]. apply step_ok. lia.
Qed.
Lemma by_first_id l : StronglySorted (fun a b => hd 0 a < hd 0 b) l -> by_first l = l.
Proof.
  intros H. unfold by_first. rewrite nodup_fixed_point.
  - induction H as [|x l H IH F]; simpl; auto. rewrite IH. destruct l as [|y l]; simpl; auto. inversion F; subst.
    rewrite (proj2 (Nat.leb_le _ _)) by lia. reflexivity.
  - induction H as [|x l H IH F]; constructor; auto. intro Hx. rewrite Forall_forall in F. specialize (F x Hx). cbv beta in F. lia.
Qed.
Lemma al_sorted k : StronglySorted (fun a b => hd 0 a < hd 0 b) (al k).
Proof.
  unfold al. generalize (sorted_filter (fun i => leader i && negb (length (rest i) =? 0)) (sorted_seq 0 k)).
  generalize (filter (fun i => leader i && negb (length (rest i) =? 0)) (seq 0 k)). intros l H. induction H as [|x l H IH F]; cbn [map]; constructor; auto.
  rewrite Forall_forall in *. intros g Hg. apply in_map_iff in Hg as (y & <- & Hy). specialize (F y Hy). simpl. lia.
Qed.
Lemma aliased_eq : get_aliased maps = al n.
Proof. unfold get_aliased. fold n. rewrite loop_ok by lia. apply by_first_id, al_sorted. Qed.

(** Every group is an ascending tuple of at least two orbit ids; the groups are disjoint and
    ordered by their first member. *)
Theorem C37_groups :
  (forall g, In g (get_aliased maps) -> 2 <= length g /\ StronglySorted lt g /\ forall i, In i g -> 1 <= i <= length maps) /\
  NoDup (concat (get_aliased maps)) /\
  StronglySorted (fun a b => hd 0 a < hd 0 b) (get_aliased maps).
Proof.
  rewrite aliased_eq. split; [|split; [|apply al_sorted]].
  - intros g Hg. apply in_al in Hg as (i & Hi & H1 & H2 & ->). split; [|split; [apply sorted_group|]].
    + destruct (rest i); [congruence|simpl; lia].
    + intros x Hx. apply in_map_iff in Hx as (y & <- & [<-|Hy]); [fold n; lia|]. apply in_rest in Hy. fold n. lia.
  - pose proof (al_sorted n) as Hs. assert (forall g, In g (al n) -> In g (al n)) as Hin by auto. revert Hs Hin.
    generalize (al n) at 1 2 4. intros l Hs. induction Hs as [|g l Hs IH F]; intros Hin; cbn [concat]; [constructor|].
    apply NoDup_app_intro.
    + specialize (Hin g (or_introl eq_refl)). apply in_al in Hin as (i & _ & _ & _ & ->). apply sorted_NoDup, sorted_group.
    + apply IH. intros; apply Hin; right; auto.
    + intros x Hx Hx'. apply in_concat in Hx' as (h & Hh & Hx'). pose proof (Hin g (or_introl eq_refl)) as Hg. pose proof (Hin h (or_intror Hh)) as Hh'.
      rewrite Forall_forall in F. specialize (F h Hh). apply in_al in Hg as (i & _ & _ & _ & ->). apply in_al in Hh' as (j & _ & Lj & _ & ->).
      simpl in F. apply in_map_iff in Hx as (y & <- & Hy). apply in_map_iff in Hx' as (z & E & Hz). injection E as ->.
      assert (same i y = true) as S1 by (destruct Hy as [<-|Hy]; [apply same_refl|apply in_rest in Hy; apply Hy]).
      assert (same j y = true) as S2 by (destruct Hz as [<-|Hz]; [apply same_refl|apply in_rest in Hz; apply Hz]).
      apply leader_spec with (j := i) in Lj; [|lia]. rewrite (same_trans S1 (same_sym S2)) in Lj. discriminate.
Qed.

(** Two different orbits are grouped exactly if they have the same clusters. *)
Theorem C37_classes i j : i < length maps -> j < length maps -> i <> j ->
  (exists g, In g (get_aliased maps) /\ In (S i) g /\ In (S j) g) <-> same_clusters (nth i maps []) (nth j maps []).
Proof.
  intros Hi Hj Hij. rewrite aliased_eq, <- same_iff. split.
  - intros (g & Hg & Gi & Gj). apply in_al in Hg as (l & _ & _ & _ & ->).
    assert (forall x, In (S x) (map S (l :: rest l)) -> same l x = true) as Hx.
    { intros x Hx. apply in_map_iff in Hx as (y & E & Hy). injection E as ->. destruct Hy as [<-|Hy]; [apply same_refl|apply in_rest in Hy; apply Hy]. }
    eapply same_trans; [apply same_sym, Hx, Gi|apply Hx, Gj].
  - intros Hs. destruct (least i) as (l & Hl & Ll & Sl).
    assert (l <= j) as Hlj.
    { destruct (Nat.le_gt_cases l j); auto. apply leader_spec with (j := j) in Ll; [|lia].
      rewrite (same_sym (same_trans Sl Hs)) in Ll. discriminate. }
    assert (forall x, x < n -> l <= x -> same l x = true -> In (S x) (map S (l :: rest l))) as Hx.
    { intros x H1 H2 H3. apply in_map. destruct (Nat.eq_dec l x) as [->|]; [left; auto|]. right. apply in_rest. split; auto. lia. }
    exists (map S (l :: rest l)). split; [|split; apply Hx; auto; [exact (same_trans Sl Hs)]].
    apply in_al. exists l. fold n in Hi, Hj. repeat split; auto; [lia|]. intro E.
    pose proof (Hx i Hi Hl Sl) as Xi. pose proof (Hx j Hj Hlj (same_trans Sl Hs)) as Xj. rewrite E in Xi, Xj. simpl in Xi, Xj. lia.
Qed.
End Alias.

Example C37_case :
  get_aliased [[[0; 1]; [2; 3]]; [[4; 5]]; [[3; 2]; [1; 0]; [0; 1]]; [[5; 4]]; [[0; 4]]] = [[1; 3]; [2; 4]].
Proof. reflexivity. Qed.

(** ** Inverted mappings *)
Lemma add_to_ok inv v i : v < length inv -> exists inv', add_to inv v i = Some inv' /\ length inv' = length inv /\
  forall j, nth j inv' [] = if (j =? v) && negb (existsb (Nat.eqb i) (nth v inv [])) then nth v inv [] ++ [i] else nth j inv [].
Proof.
  intros Hv. unfold add_to. rewrite (nth_error_nth' inv [] Hv). cbn [option_bind].
  destruct (existsb (Nat.eqb i) (nth v inv [])) eqn:E.
  - exists inv. repeat split; auto. intros j. cbn [negb]. rewrite andb_false_r. reflexivity.
  - eexists. split; [reflexivity|]. split; [apply length_upd|]. intros j. cbn [negb]. rewrite andb_true_r. destruct (Nat.eqb_spec j v) as [->|Hne].
    + apply nth_error_nth. apply nth_error_upd_eq. exact Hv.
    + destruct (Nat.lt_ge_cases j (length inv)).
      * apply nth_error_nth. rewrite nth_error_upd_neq by auto. apply nth_error_nth'. auto.
      * rewrite !nth_overflow; auto. rewrite length_upd. auto.
Qed.

Definition desc := StronglySorted (fun a b : nat => b < a).
Lemma desc_snoc l i : desc l -> (forall x, In x l -> i < x) -> desc (l ++ [i]).
Proof.
  induction 1 as [|x l H IH F]; intros Hi; simpl; [constructor; constructor|]. constructor.
  - apply IH. intros; apply Hi; right; auto.
  - apply Forall_app. split; auto. constructor; [apply Hi; left; auto|constructor].
Qed.

(** State: rows are descending, entries above [i], or [i] itself if already added. *)
Lemma add_values_ok i : forall vs inv, (forall v, In v vs -> v < length inv) ->
  (forall j, desc (nth j inv []) /\ forall x, In x (nth j inv []) -> i <= x) ->
  exists inv', add_values inv i vs = Some inv' /\ length inv' = length inv /\
    (forall j, desc (nth j inv' []) /\ forall x, In x (nth j inv' []) -> i <= x) /\
    (forall j x, In x (nth j inv' []) <-> In x (nth j inv []) \/ (x = i /\ In j vs)).
Proof.
  induction vs as [|v vs IH]; intros inv Hv Hd.
  - exists inv. cbn. split; auto. split; auto. split; auto. intros; tauto.
  - destruct (@add_to_ok inv v i (Hv v (or_introl eq_refl))) as (inv1 & E1 & L1 & V1). cbn [add_values]. rewrite E1. cbn [option_bind].
    destruct (IH inv1) as (inv2 & E2 & L2 & D2 & V2).
    + intros w Hw. rewrite L1. apply Hv. right; auto.
    + intros j. rewrite V1. destruct (Nat.eqb_spec j v) as [->|]; cbn [andb]; [|apply Hd].
      destruct (existsb (Nat.eqb i) (nth v inv [])) eqn:Ex; cbn [negb]; [apply Hd|]. destruct (Hd v) as (D & B). split.
      * apply desc_snoc; auto. intros x Hx. specialize (B x Hx). assert (x <> i); [|lia]. intros ->.
        assert (existsb (Nat.eqb i) (nth v inv []) = true); [|congruence]. apply existsb_exists. exists i. split; auto. apply Nat.eqb_refl.
      * intros x Hx. apply in_app_iff in Hx as [Hx|[<-|[]]]; auto.
    + exists inv2. split; auto. split; [lia|]. split; auto. intros j x. rewrite V2, V1. destruct (Nat.eqb_spec j v) as [->|Hne]; cbn [andb].
      * destruct (existsb (Nat.eqb i) (nth v inv [])) eqn:Ex; cbn [negb].
        -- apply existsb_exists in Ex as (y & Hy & Ey). apply Nat.eqb_eq in Ey as <-. split; [intros [H|(-> & H)]; auto; right; split; auto; right; auto|].
           intros [H|(-> & [_|H])]; auto.
        -- rewrite in_app_iff. simpl. split; [intros [[H|[->|[]]]|(-> & H)]; auto|intros [H|(-> & [_|H])]; auto].
      * split; [intros [H|(-> & H)]; auto; right; split; auto; right; auto|intros [H|(-> & [H|H])]; auto; congruence].
Qed.

Lemma rev_seq_S k : rev (seq 0 (S k)) = k :: rev (seq 0 k).
Proof. rewrite seq_S, rev_app_distr. reflexivity. Qed.

(** [j] is in row [i] of the inverse iff [i] is in row [j]; rows are strictly descending. *)
Theorem C38_invert mapping : (forall i v, In v (nth i mapping []) -> v < length mapping) ->
  exists inv, invert_mapping mapping = Some inv /\ length inv = length mapping /\
    (forall i j, In i (nth j inv []) <-> In j (nth i mapping [])) /\
    (forall j, desc (nth j inv []) /\ NoDup (nth j inv [])).
Proof.
  intros Hr. unfold invert_mapping. set (n := length mapping) in *.
  assert (forall k inv, k <= n -> length inv = n -> (forall j, desc (nth j inv []) /\ forall x, In x (nth j inv []) -> k <= x) ->
    exists inv', invert_loop mapping inv (rev (seq 0 k)) = Some inv' /\ length inv' = n /\ (forall j, desc (nth j inv' [])) /\
      forall j x, In x (nth j inv' []) <-> In x (nth j inv []) \/ (x < k /\ In j (nth x mapping []))) as Hloop.
  { induction k as [|k IH]; intros inv Hk Hl Hd.
    - exists inv. cbn. split; auto. split; auto. split; [apply Hd|]. intros; split; auto. intros [|[H _]]; auto; lia.
    - rewrite rev_seq_S. cbn [invert_loop].
      destruct (@add_values_ok k (nth k mapping []) inv) as (inv1 & E1 & L1 & D1 & V1).
      { intros v Hv. rewrite Hl. eapply Hr, Hv. }
      { intros j. split; [apply Hd|]. intros x Hx. apply Hd in Hx. lia. }
      rewrite E1. cbn [option_bind]. destruct (IH inv1) as (inv2 & E2 & L2 & D2 & V2); [lia|lia|exact D1|].
      exists inv2. split; auto. split; auto. split; auto. intros j x. rewrite V2, V1. split.
      + intros [[H|(-> & H)]|(H1 & H2)]; auto.
      + intros [H|(H1 & H2)]; auto. destruct (Nat.eq_dec x k) as [->|]; auto. right. split; auto. lia. }
  destruct (Hloop n (repeat [] n)) as (inv & E & L & D & V); [lia|apply repeat_length| |].
  { intros j. assert (nth j (repeat (@nil nat) n) [] = []) as -> by (destruct (nth_in_or_default j (repeat (@nil nat) n) []) as [H|H]; [apply repeat_spec in H; exact H|exact H]).
    split; [constructor|intros x []]. }
  exists inv. split; auto. split; auto. split.
  - intros i j. rewrite V. assert (nth j (repeat (@nil nat) n) [] = []) as -> by (destruct (nth_in_or_default j (repeat (@nil nat) n) []) as [H|H]; [apply repeat_spec in H; exact H|exact H]).
    split; [intros [[]|[]]; auto|]. intro H. right. split; auto. destruct (Nat.lt_ge_cases i n); auto. rewrite nth_overflow in H by auto. contradiction.
  - intros j. split; auto. specialize (D j). induction D as [|x l H IH F]; constructor; auto. intros Hx. rewrite Forall_forall in F. specialize (F x Hx). cbv beta in F. lia.
Qed.
(** Inverting twice gives back the relation. *)
Theorem C38_invert_twice mapping inv : (forall i v, In v (nth i mapping []) -> v < length mapping) -> invert_mapping mapping = Some inv ->
  exists m, invert_mapping inv = Some m /\ forall i j, In j (nth i m []) <-> In j (nth i mapping []).
Proof.
  intros Hr E. destruct (C38_invert Hr) as (inv' & E' & L & V & _). rewrite E in E'. injection E' as <-.
  destruct (@C38_invert inv) as (m & Em & _ & Vm & _).
  - intros i v Hv. apply V in Hv. rewrite L. destruct (Nat.lt_ge_cases v (length mapping)); auto. rewrite nth_overflow in Hv by auto. contradiction.
  - exists m. split; auto. intros i j. rewrite Vm, V. reflexivity.
Qed.

(** ** Completed mappings *)
Lemma existsb_In x l : existsb (Nat.eqb x) l = true <-> In x l.
Proof. rewrite existsb_exists. split; [intros (y & Hy & E); apply Nat.eqb_eq in E as <-; auto|intros H; exists x; split; auto; apply Nat.eqb_refl]. Qed.
Lemma in_append_new l : forall acc x, In x (append_new acc l) <-> In x acc \/ In x l.
Proof.
  induction l as [|y l IH]; intros acc x; simpl; [tauto|]. rewrite IH. destruct (existsb (Nat.eqb y) acc) eqn:E.
  - apply existsb_In in E. split; [intros [|]; auto|intros [|[<-|]]; auto].
  - rewrite in_app_iff. simpl. tauto.
Qed.
Lemma NoDup_append_new l : forall acc, NoDup acc -> NoDup (append_new acc l).
Proof.
  induction l as [|y l IH]; intros acc H; simpl; auto. apply IH. destruct (existsb (Nat.eqb y) acc) eqn:E; auto.
  apply NoDup_app_intro; auto; [repeat constructor; auto|]. intros x Hx [<-|[]]. apply existsb_In in Hx. congruence.
Qed.

Section Complete.
Variable mapping : list (list nat).
(** [i] is mapped to [j]. *)
Definition maps_to (i j : nat) : Prop := In j (nth i mapping []).
Hypothesis range : forall i j, maps_to i j -> j < length mapping.

Lemma next_ok vs : (forall v, In v vs -> v < length mapping) -> forall acc,
  exists l, next_values mapping acc vs = Some l /\ forall x, In x l <-> In x acc \/ exists v, In v vs /\ maps_to v x.
Proof.
  induction vs as [|v vs IH]; intros Hv acc; cbn [next_values].
  - exists acc. split; auto. intros x. split; auto. intros [|(v & [] & _)]; auto.
  - rewrite (nth_error_nth' mapping [] (Hv v (or_introl eq_refl))). cbn [option_bind].
    destruct (IH (fun w Hw => Hv w (or_intror Hw)) (append_new acc (nth v mapping []))) as (l & E & V). exists l. split; auto.
    intros x. rewrite V, in_append_new. split.
    + intros [[H|H]|(w & Hw & Hx)]; auto; right; [exists v; split; [left; auto|exact H]|exists w; split; [right; auto|exact Hx]].
    + intros [H|(w & [<-|Hw] & Hx)]; auto. right. exists w. auto.
Qed.

(** Chains of [k] steps. *)
Fixpoint chain (k : nat) (i j : nat) : Prop :=
  match k with 0 => i = j | S k' => exists m, maps_to i m /\ chain k' m j end.
Lemma chain_snoc k : forall i j m, chain k i j -> maps_to j m -> chain (S k) i m.
Proof.
  induction k as [|k IH]; intros i j m H Hm.
  - simpl in H. subst. exists m. split; auto. reflexivity.
  - destruct H as (a & H1 & H2). exists a. split; auto. eapply IH; eauto.
Qed.
Lemma chain_last k : forall i m, chain (S k) i m -> exists j, chain k i j /\ maps_to j m.
Proof.
  induction k as [|k IH]; intros i m (a & H1 & H2).
  - simpl in H2. subst. exists i. split; [reflexivity|auto].
  - destruct (IH _ _ H2) as (j & Hj & Hm). exists j. split; auto. exists a. auto.
Qed.
Lemma chain_trans i j : clos_trans nat maps_to i j <-> exists k, chain (S k) i j.
Proof.
  split.
  - intros H. apply Operators_Properties.clos_trans_t1n_iff in H. induction H as [i j H|i j m H H' (q & IH)].
    + exists 0. exists j. split; auto. reflexivity.
    + exists (S q). exists j. auto.
  - intros (q & H). revert i H. induction q as [|q IH]; intros i (a & H1 & H2).
    + simpl in H2. subst. apply t_step, H1.
    + eapply t_trans; [apply t_step, H1|apply IH, H2].
Qed.

(** A chain longer than the table visits some orbit twice. *)
Lemma chain_list k : forall i j, chain k i j -> exists l, length l = S k /\ hd 0 l = i /\ (forall x, In x (tl l) -> x < length mapping) /\
  forall a x y, nth_error l a = Some x -> nth_error l (S a) = Some y -> maps_to x y.
Proof.
  induction k as [|k IH]; intros i j H.
  - exists [i]. simpl. repeat split; auto; [intros x []|]. intros [|a] x y; simpl; [discriminate|destruct a; discriminate].
  - destruct H as (m & Hm & H). destruct (IH _ _ H) as (l & Ll & Hh & Hb & Hs). exists (i :: l). destruct l as [|z l]; [discriminate|]. simpl in Hh. subst z.
    repeat split; auto; [simpl; simpl in Ll; lia| |].
    + intros x [<-|Hx]; [apply (range Hm)|apply Hb, Hx].
    + intros [|a] x y H1 H2; [simpl in H1, H2; injection H1 as <-; injection H2 as <-; exact Hm|]. eapply Hs; [exact H1|exact H2].
Qed.
Lemma list_chain l : (forall a x y, nth_error l a = Some x -> nth_error l (S a) = Some y -> maps_to x y) ->
  forall d a x y, nth_error l a = Some x -> nth_error l (a + S d) = Some y -> clos_trans nat maps_to x y.
Proof.
  intros Hs. induction d as [|d IH]; intros a x y Hx Hy.
  - apply t_step. eapply Hs; [exact Hx|]. replace (S a) with (a + 1) by lia. exact Hy.
  - destruct (nth_error l (S a)) as [z|] eqn:Ez.
    + eapply t_trans; [apply t_step; eapply Hs; eauto|]. apply (IH (S a) z y Ez). replace (S a + S d) with (a + S (S d)) by lia. exact Hy.
    + apply nth_error_None in Ez. assert (nth_error l (a + S (S d)) = None) by (apply nth_error_None; lia). congruence.
Qed.
Lemma long_chain i j : chain (S (length mapping)) i j -> exists x, clos_trans nat maps_to x x.
Proof.
  intros H. destruct (chain_list H) as (l & Ll & _ & Hb & Hs).
  assert (~ NoDup (tl l)) as Hnd.
  { intros Hnd. assert (length (tl l) <= length (seq 0 (length mapping))).
    { apply NoDup_incl_length; auto. intros x Hx. apply in_seq. specialize (Hb x Hx). lia. }
    rewrite seq_length in H0. destruct l; simpl in *; lia. }
  assert (exists a b x, a < b /\ nth_error (tl l) a = Some x /\ nth_error (tl l) b = Some x) as (a & b & x & Hab & Ha & Hb').
  { clear - Hnd. induction (tl l) as [|x t IH]; [exfalso; apply Hnd; constructor|].
    destruct (in_dec Nat.eq_dec x t) as [Hin|Hn].
    - apply In_nth_error in Hin as (b & Hb). exists 0, (S b), x. split; [lia|]. auto.
    - destruct IH as (a & b & y & H1 & H2 & H3); [intros Hd; apply Hnd; constructor; auto|]. exists (S a), (S b), y. split; [lia|]. auto. }
  exists x. apply (@list_chain (tl l)) with (d := b - a - 1) (a := a).
  - intros c u v Hu Hv. destruct l as [|z l]; [destruct c; discriminate|]. apply (Hs (S c)); auto.
  - exact Ha.
  - replace (a + S (b - a - 1)) with b by lia. exact Hb'.
Qed.

Lemma chain_empty k i : (forall x, ~ chain (S k) i x) -> forall q x, k <= q -> ~ chain (S q) i x.
Proof.
  intros Hn. induction q as [|q IH]; intros x Hq Hx.
  - assert (k = 0) by lia. subst. exact (Hn x Hx).
  - destruct (Nat.eq_dec k (S q)) as [->|]; [exact (Hn x Hx)|]. apply chain_last in Hx as (w & Hw & _). apply (IH w); auto. lia.
Qed.

(** The while loop after [k] rounds. *)
Lemma complete_loop_ok i : forall fuel k acc next,
  (forall x, In x next <-> chain (S k) i x) ->
  (forall x, In x acc -> exists q, chain (S q) i x) ->
  (forall q x, q < k -> chain (S q) i x -> In x acc) ->
  match complete_loop fuel mapping acc next with
  | None => exists x, chain (S (k + fuel)) i x
  | Some None => False
  | Some (Some r) => (forall x, In x r <-> exists q, chain (S q) i x) /\ (NoDup acc -> NoDup r) /\ forall x, ~ chain (S (k + fuel)) i x
  end.
Proof.
  assert (forall k acc fuel, (forall x, In x [] <-> chain (S k) i x) -> (forall x, In x acc -> exists q, chain (S q) i x) ->
    (forall q x, q < k -> chain (S q) i x -> In x acc) ->
    (forall x, In x acc <-> exists q, chain (S q) i x) /\ (NoDup acc -> NoDup acc) /\ forall x, ~ chain (S (k + fuel)) i x) as Hdone.
  { intros k acc fuel Hn Ha1 Ha2. assert (forall x, ~ chain (S k) i x) as Hno by (intros x Hx; apply Hn in Hx; exact Hx).
    split; [|split; auto; intros x; apply (chain_empty Hno); lia]. intros x. split; [apply Ha1|]. intros (q & Hq).
    destruct (Nat.lt_ge_cases q k); [eapply Ha2; eauto|]. exfalso. exact (chain_empty Hno H Hq). }
  induction fuel as [|fuel IH]; intros k acc next Hn Ha1 Ha2.
  - destruct next as [|y next]; cbn [complete_loop]; [apply Hdone; auto|].
    exists y. replace (k + 0) with k by lia. apply Hn. left; auto.
  - destruct (list_eq_dec Nat.eq_dec next []) as [->|Hne]; [cbn [complete_loop]; apply Hdone; auto|].
    assert (complete_loop (S fuel) mapping acc next = match next_values mapping [] next with None => Some None | Some next' => complete_loop fuel mapping (append_new acc next) next' end) as ->
      by (destruct next; [congruence|reflexivity]).
    destruct (@next_ok next) with (acc := @nil nat) as (next' & En & Vn).
    { intros v Hv. apply Hn in Hv. apply chain_last in Hv as (w & _ & Hw). apply (range Hw). }
    rewrite En. replace (k + S fuel) with (S k + fuel) by lia.
    specialize (IH (S k) (append_new acc next) next').
    assert (NoDup acc -> NoDup (append_new acc next)) as Hnd by apply NoDup_append_new.
    destruct (complete_loop fuel mapping (append_new acc next) next') as [[r|]|].
    1: destruct IH as (I1 & I2 & I3); [| | |split; [exact I1|split; [intros Hd; apply I2, Hnd, Hd|exact I3]]].
    4: apply IH. 7: apply IH.
    all: try (intros x; rewrite Vn; split; [intros [[]|(v & Hv & Hx)]; apply Hn in Hv; eapply chain_snoc; eauto|
      intros Hx; right; apply chain_last in Hx as (v & Hv & Hx); exists v; split; [apply Hn, Hv|exact Hx]]).
    all: try (intros x Hx; apply in_append_new in Hx as [Hx|Hx]; [apply Ha1, Hx|exists k; apply Hn, Hx]).
    all: intros q x Hq Hx; apply in_append_new; destruct (Nat.eq_dec q k) as [->|]; [right; apply Hn, Hx|left; apply (Ha2 q); auto; lia].
Qed.

Lemma loop_start i fuel : i < length mapping ->
  match complete_loop fuel mapping (nth i mapping []) (nth i mapping []) with
  | None => exists x, chain (S fuel) i x
  | Some None => False
  | Some (Some r) => (forall x, In x r <-> exists q, chain (S q) i x) /\ (NoDup (nth i mapping []) -> NoDup r) /\ forall x, ~ chain (S fuel) i x
  end.
Proof.
  intros Hi. apply (@complete_loop_ok i fuel 0).
  - intros x. split; [intros H; exists x; split; auto; reflexivity|]. intros (m & Hm & E). simpl in E. subst. exact Hm.
  - intros x Hx. exists 0. exists x. split; auto. reflexivity.
  - intros; lia.
Qed.

(** Acyclic: no orbit reaches itself. *)
Definition acyclic : Prop := forall x, ~ clos_trans nat maps_to x x.

(** For acyclic mappings the loop ends and gives exactly the transitive closure. *)
Theorem C38_complete fuel : acyclic -> length mapping <= fuel ->
  exists full, complete_mapping fuel mapping = Some (Some full) /\ length full = length mapping /\
    (forall i j, i < length mapping -> (In j (nth i full []) <-> clos_trans nat maps_to i j)) /\
    (forall i, NoDup (nth i mapping []) -> NoDup (nth i full [])).
Proof.
  intros Hac Hf. unfold complete_mapping.
  assert (forall l, (forall r, In r l -> exists i, i < length mapping /\ r = nth i mapping []) ->
    exists rows, opt_map (fun l => complete_loop fuel mapping l l) l = Some (map Some rows) /\ length rows = length l /\
      forall a i, a < length l -> i < length mapping -> nth a l [] = nth i mapping [] ->
        (forall j, In j (nth a rows []) <-> clos_trans nat maps_to i j) /\ (NoDup (nth i mapping []) -> NoDup (nth a rows []))) as Hrows.
  { induction l as [|r l IH]; intros Hl; [exists []; repeat split; auto; simpl in *; lia|].
    destruct IH as (rows & E & L & V); [intros; apply Hl; right; auto|].
    destruct (Hl r (or_introl eq_refl)) as (i & Hi & ->). pose proof (@loop_start i fuel Hi) as Hs. cbn [opt_map].
    destruct (complete_loop fuel mapping (nth i mapping []) (nth i mapping [])) as [[r|]|] eqn:Er.
    - rewrite E. exists (r :: rows). split; auto. split; [simpl; lia|]. intros [|a] i' Ha Hi' Hn; [|apply V; auto; simpl in Ha; lia].
      simpl in Hn. assert (forall x, In x r <-> exists q, chain (S q) i' x) as Hr.
      { intros x. rewrite (proj1 Hs). split; intros (q & m & Hm & Hc); exists q, m; split; auto; unfold maps_to in *; congruence. }
      cbn [nth]. split; [intros j; rewrite Hr, chain_trans; reflexivity|]. rewrite <- Hn. apply Hs.
    - contradiction.
    - exfalso. destruct Hs as (x & Hx). assert (exists y, chain (S (length mapping)) i y) as (y & Hy).
      { clear - Hx Hf. assert (forall d k x, chain (k + d) i x -> exists y, chain k i y) as Hd.
        { induction d as [|d IH]; intros k z Hz; [exists z; replace (k + 0) with k in Hz by lia; auto|].
          replace (k + S d) with (S (k + d)) in Hz by lia. apply chain_last in Hz as (w & Hw & _). eapply IH; eauto. }
        apply (Hd (fuel - length mapping) (S (length mapping)) x). replace (S (length mapping) + (fuel - length mapping)) with (S fuel) by lia. exact Hx. }
      apply long_chain in Hy as (z & Hz). exact (Hac z Hz). }
  destruct (Hrows mapping) as (rows & E & L & V).
  { intros r Hr. apply In_nth with (d := []) in Hr as (i & Hi & <-). exists i. auto. }
  rewrite E. cbn [option_bind]. exists rows.
  assert (opt_map (fun r => r) (map Some rows) = Some rows) as -> by (clear; induction rows as [|r rows IH]; simpl; [|rewrite IH]; reflexivity).
  split; auto. split; auto. split; [intros i j Hi; apply (V i i); auto|].
  intros i Hd. destruct (Nat.lt_ge_cases i (length mapping)); [apply (V i i); auto|]. rewrite nth_overflow by lia. constructor.
Qed.

(** An orbit that reaches a cycle keeps the loop running forever. *)
Theorem C38_cyclic_diverges i x : i < length mapping -> maps_to i x -> clos_trans nat maps_to x x -> forall fuel, complete_mapping fuel mapping = None.
Proof.
  intros Hi Hix Hx fuel. unfold complete_mapping.
  assert (forall k, exists y, chain k x y) as Hlong.
  { apply chain_trans in Hx as (q & Hq). assert (forall a b u v w, chain a u v -> chain b v w -> chain (a + b) u w) as Hcat.
    { clear. induction a as [|a IH]; intros b u v w H1 H2; simpl in *; [subst; auto|]. destruct H1 as (m & Hm & H1). exists m. split; eauto. }
    assert (forall n, chain (n * S q) x x) as Hrep by (induction n as [|n IH]; [reflexivity|]; simpl; apply (Hcat (S q) (n * S q) x x x Hq IH)).
    assert (forall d k z, chain (k + d) x z -> exists y, chain k x y) as Hd.
    { induction d as [|d IH]; intros k z Hz; [exists z; replace (k + 0) with k in Hz by lia; auto|].
      replace (k + S d) with (S (k + d)) in Hz by lia. apply chain_last in Hz as (w & Hw & _). eapply IH; eauto. }
    intros k. apply (Hd (k * q) k x). replace (k + k * q) with (k * S q) by lia. apply Hrep. }
  pose proof (@loop_start i fuel Hi) as Hs.
  assert (complete_loop fuel mapping (nth i mapping []) (nth i mapping []) = None) as E.
  { destruct (complete_loop _ _ _ _) as [[r|]|]; [|contradiction|reflexivity]. exfalso. destruct Hs as (_ & _ & Hs).
    destruct (Hlong fuel) as (y & Hy). apply (Hs y). exists x. auto. }
  assert (opt_map (fun l => complete_loop fuel mapping l l) mapping = None) as ->; [|reflexivity].
  destruct (opt_map _ mapping) as [rows|] eqn:Em; auto. exfalso.
  destruct (opt_map_nth _ _ _ Em (nth_error_nth' mapping [] Hi)) as (y & Hy & _). congruence.
Qed.
End Complete.

(** A triplet over pairs over points; a table with a loop. *)
Example C38_case :
  let m := [[]; [0]; [0]; [1; 2]; [3; 1]] in
  (forall i v, In v (nth i m []) -> v < length m) /\ acyclic m /\
  invert_mapping m = Some [[2; 1]; [4; 3]; [3]; [4]; []] /\
  complete_mapping 5 m = Some (Some [[]; [0]; [0]; [1; 2; 0]; [3; 1; 2; 0]]).
Proof.
  cbn zeta. assert (forall i v, In v (nth i [[]; [0]; [0]; [1; 2]; [3; 1]] []) -> v < i) as H.
  { intros i v. destruct i as [|[|[|[|[|[|i]]]]]]; simpl; intuition lia. }
  split; [intros i v Hv; destruct i as [|[|[|[|[|[|i]]]]]]; simpl in *; intuition lia|]. split; [|split; reflexivity].
  assert (forall x y, clos_trans nat (maps_to [[]; [0]; [0]; [1; 2]; [3; 1]]) x y -> y < x) as Hlt.
  { intros x y Hxy. induction Hxy as [x y Hxy|]; [apply H, Hxy|lia]. }
  intros x Hx. apply Hlt in Hx. lia.
Qed.
Example C38_cyclic_case : maps_to [[1]; [0]] 0 1 /\ clos_trans nat (maps_to [[1]; [0]]) 1 1.
Proof. split; [left; reflexivity|]. apply t_trans with 0; apply t_step; left; reflexivity. Qed.

Print Assumptions C37_groups.
Print Assumptions C37_classes.
Print Assumptions C38_invert.
Print Assumptions C38_invert_twice.
Print Assumptions C38_complete.
Print Assumptions C38_cyclic_diverges.
