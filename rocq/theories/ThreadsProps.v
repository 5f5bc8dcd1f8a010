(** C59: attributes set on many objects and numbers of threads. *)
From Verif Require Import LibProofs.
From Verif Require Export Threads.
Set Implicit Arguments.
Unset Strict Implicit.
Open Scope nat_scope.

(** ** Many objects *)
Section Many.
Variables (V W : Type) (accept : W -> option V).
(** The object [x] is in the container. *)
Definition member (h : holder) (x : nat) : Prop :=
  match h with Sequence l => In x l | Mapping d => exists k, In (k, x) d | OtherHolder => False end.
Definition known (heap : list V) (h : holder) : Prop := h <> OtherHolder /\ forall x, member h x -> x < length heap.
Lemma member_objs h objs x : container_objs h = Some objs -> member h x <-> In x objs.
Proof.
  destruct h as [l|d|]; cbn [container_objs member]; intros H; try discriminate; injection H as <-; [tauto|]. rewrite in_map_iff. split; [intros (k & H); exists (k, x); auto|intros ([k y] & <- & H); exists k; auto].
Qed.
Lemma known_objs heap h : known heap h -> exists objs, container_objs h = Some objs /\ (forall x, member h x <-> In x objs) /\ forall x, In x objs -> x < length heap.
Proof.
  intros (N & K). destruct (container_objs h) as [objs|] eqn:E; [|destruct h; try discriminate; congruence]. exists objs. split; auto. assert (M : forall x, member h x <-> In x objs) by (intros x; apply member_objs; auto). split; auto. intros x Hx. apply K, M. auto.
Qed.
Lemma set_objs_spec w v : accept w = Some v -> forall objs heap, (forall x, In x objs -> x < length heap) -> exists heap', set_objs accept heap objs w = (heap', true) /\ length heap' = length heap /\
  (forall x, In x objs -> nth_error heap' x = Some v) /\ forall x, ~ In x objs -> nth_error heap' x = nth_error heap x.
Proof.
  intros A. induction objs as [|y objs IH]; intros heap H; cbn [set_objs]; [exists heap; repeat split; auto; intros x []|]. unfold set_one. rewrite A. cbn [option_bind]. assert (Ly : y < length heap) by (apply H; left; auto). destruct (Nat.ltb_spec y (length heap)); [|lia].
  destruct (IH (upd heap y v)) as (heap' & E & L & I & O); [intros x Hx; rewrite length_upd; apply H; right; auto|]. exists heap'. split; auto. rewrite length_upd in L. split; auto. split.
  - intros x Hx. destruct (in_dec Nat.eq_dec x objs) as [J|J]; [auto|]. destruct Hx as [<- | Hx]; [|contradiction]. rewrite O by auto. apply nth_error_upd_eq. auto.
  - intros x Hx. rewrite O by (intros C; apply Hx; right; auto). apply nth_error_upd_neq. intros ->. apply Hx. left. auto.
Qed.
(** Setting a value that one object accepts sets it on every object of the container and on no other; reading gives it back. *)
Theorem C59_set_all heap h w v : known heap h -> accept w = Some v -> exists heap', set_many accept heap h w = (heap', true) /\ length heap' = length heap /\
  (forall x, member h x -> nth_error heap' x = Some v) /\ (forall x, ~ member h x -> nth_error heap' x = nth_error heap x) /\
  ((exists x, member h x) -> get_many heap' h = Some v).
Proof.
  intros K A. destruct (known_objs K) as (objs & E & M & R). unfold set_many, get_many. rewrite E. destruct (set_objs_spec A R) as (heap' & E1 & L & I & O). exists heap'. split; auto. split; auto. split; [intros x Hx; apply I, M; auto|]. split; [intros x Hx; apply O; rewrite <- M; auto|].
  intros (x & Hx). cbn [option_bind]. destruct objs as [|y objs]; [apply M in Hx; destruct Hx|].
  assert (G : forall l, (forall z, In z l -> nth_error heap' z = Some v) -> opt_map (nth_error heap') l = Some (map (fun _ => v) l)). { induction l as [|z l IH]; intros Hl; auto. cbn [opt_map map]. rewrite (Hl z) by (left; auto). cbn [option_bind]. rewrite IH by (intros; apply Hl; right; auto). auto. }
  rewrite G by auto. auto.
Qed.
(** A value that objects refuse changes nothing, and the assignment raises unless there are no objects. *)
Theorem C59_nothing heap h w : known heap h -> accept w = None -> exists ok, set_many accept heap h w = (heap, ok) /\ (ok = false <-> exists x, member h x).
Proof.
  intros K A. destruct (known_objs K) as (objs & E & M & _). unfold set_many. rewrite E. destruct objs as [|y objs]; cbn [set_objs].
  - exists true. split; auto. split; [discriminate|]. intros (x & Hx). apply M in Hx. destruct Hx.
  - unfold set_one. rewrite A. cbn [option_bind]. exists false. split; auto. split; auto. intros _. exists y. apply M. left. auto.
Qed.
(** Reading gives the value of some object of the container, and raises if there are none. *)
Theorem C59_read heap h : known heap h -> match get_many heap h with Some v => exists x, member h x /\ nth_error heap x = Some v | None => forall x, ~ member h x end.
Proof.
  intros K. destruct (known_objs K) as (objs & E & M & R). unfold get_many. rewrite E. cbn [option_bind].
  assert (G : exists vs, opt_map (nth_error heap) objs = Some vs). { clear -R. induction objs as [|x objs IH]; [exists []; auto|]. destruct (nth_error heap x) as [v|] eqn:Ex; [|apply nth_error_None in Ex; specialize (R x (or_introl eq_refl)); lia]. destruct IH as (vs & IH); [intros y Hy; apply R; right; auto|]. exists (v :: vs). cbn [opt_map]. rewrite Ex. cbn [option_bind]. rewrite IH. auto. }
  destruct G as (vs & G). rewrite G. cbn [option_bind]. pose proof (opt_map_length _ _ G) as L. destruct objs as [|y objs]; [destruct vs; [|discriminate]; intros x Hx; apply M in Hx; destruct Hx|]. destruct (opt_map_nth _ _ 0 G eq_refl) as (v & Ev & Nv). rewrite Nv. exists y. split; auto. apply M. left. auto.
Qed.
End Many.
(** Reading does not tell the values of all objects: two heaps that differ in the value of an object of the container read the same. *)
Theorem C59_read_refuted : exists h (heap1 heap2 : list Z) x, known heap1 h /\ known heap2 h /\ member h x /\ nth_error heap1 x <> nth_error heap2 x /\ get_many heap1 h = get_many heap2 h.
Proof.
  exists (Mapping [(7, 0); (8, 1)]), [4%Z; 4%Z], [4%Z; 1%Z], 1.
  assert (K : forall a b : Z, known [a; b] (Mapping [(7, 0); (8, 1)])) by (intros a b; split; [discriminate|]; intros x (k & [H | [H | []]]); injection H as <- <-; simpl; lia).
  split; [apply K|]. split; [apply K|]. split; [exists 8; right; left; auto|]. split; [discriminate|reflexivity].
Qed.

(** ** Threads *)
(** The number of threads the machine offers. *)
Definition offers (m : machine) (k : Z) : Prop :=
  if m_openmp m then (if m_env m then k = m_omp_max m else k <= m_omp_max m /\ k <= m_cpus m /\ (k = m_omp_max m \/ k = m_cpus m))%Z else k = 1%Z.
Definition sane (m : machine) : Prop := (1 <= m_omp_max m /\ 1 <= m_cpus m)%Z.
(** What a request for [z] threads should give: [z] up to what is offered, counted from above if negative; no request for 0. *)
Definition granted (k z t : Z) : Prop := (z <> 0 /\ (0 < z -> t = Z.min z k) /\ (z < 0 -> t = Z.max 1 (k + 1 + z)))%Z.
Lemma offers_max m : sane m -> exists k, offers m k /\ effective m None = Some k /\ (1 <= k)%Z.
Proof. intros (A & B). unfold offers, effective. destruct (m_openmp m), (m_env m); cbn [negb]; eexists; (split; [|split; [reflexivity|]]); lia. Qed.
Lemma offers_unique m a b : offers m a -> offers m b -> a = b.
Proof. unfold offers. destruct (m_openmp m), (m_env m); lia. Qed.
Theorem C59_threads m k z : sane m -> offers m k ->
  match accept_threads m (PInt z) with Some t => granted k z t /\ (1 <= t <= k)%Z | None => z = 0%Z end.
Proof.
  intros SA OF. destruct (offers_max SA) as (k' & O' & E & L). rewrite (offers_unique OF O'). clear k OF. rename k' into k. unfold accept_threads. cbn [option_bind]. rewrite E. cbn [option_bind]. unfold granted, effective in *. unfold offers in O'.
  destruct (Z.ltb_spec k z) as [H|H].
  - destruct (Z.eqb_spec k 0); [lia|]. destruct (m_openmp m); cbn [negb] in *; [destruct (Z.ltb_spec k 0); [lia|]; lia|]. lia.
  - destruct (Z.eqb_spec z 0); auto. destruct (m_openmp m); cbn [negb] in *.
    + destruct (Z.ltb_spec z 0); [|lia]. injection E as E. rewrite E. lia.
    + lia.
Qed.
(** No number: the default, two threads or, if the environment asks for a number, all that are offered.  Other objects are refused. *)
Theorem C59_default m k : sane m -> offers m k -> accept_threads m POther = None /\
  accept_threads m PNone = Some (if m_openmp m && negb (m_env m) then Z.min 2 k else k).
Proof.
  intros SA OF. split; [reflexivity|]. destruct (offers_max SA) as (k' & O' & E & L). rewrite (offers_unique OF O'). clear k OF. rename k' into k. unfold accept_threads, default_threads. unfold offers in O'. assert (EQ : forall q, (1 <= q <= k)%Z -> effective m (Some q) = Some q). { intros q Hq. unfold effective in *. destruct (Z.eqb_spec q 0); [lia|]. destruct (m_openmp m); cbn [negb] in *; [destruct (Z.ltb_spec q 0); [lia|auto]|f_equal; lia]. }
  destruct (m_env m) eqn:EE.
  - rewrite E. cbn [option_bind]. rewrite Z.ltb_irrefl, EQ by lia. rewrite andb_false_r. auto.
  - rewrite andb_true_r. destruct (m_openmp m) eqn:EO.
    + assert (E2 : effective m (Some 2%Z) = Some 2%Z) by (unfold effective; rewrite EO; auto). rewrite E2. cbn [option_bind]. rewrite E. cbn [option_bind]. destruct (Z.ltb_spec k 2); rewrite EQ by lia; f_equal; lia.
    + assert (E2 : effective m (Some 2%Z) = Some 1%Z) by (unfold effective; rewrite EO; auto). rewrite E2. cbn [option_bind]. rewrite E. cbn [option_bind]. destruct (Z.ltb_spec k 1); [lia|]. rewrite EQ by lia. f_equal. lia.
Qed.
(** The number read from one object can be assigned to another and gives the same. *)
Theorem C59_again m w t : sane m -> accept_threads m w = Some t -> accept_threads m (PInt t) = Some t.
Proof.
  intros SA H. destruct (offers_max SA) as (k & O & E & L). assert (B : (1 <= t <= k)%Z).
  { destruct w as [|z|]; [|pose proof (C59_threads z SA O) as T; rewrite H in T; tauto|discriminate]. destruct (C59_default SA O) as (_ & D). rewrite H in D. injection D as ->. destruct (_ && _); lia. }
  pose proof (C59_threads t SA O) as T. destruct (accept_threads m (PInt t)) as [t'|]; [|lia]. destruct T as ((T1 & T2 & T3) & T4). f_equal. lia.
Qed.
(** A processor: the local evaluators all get the number asked for, the full evaluator the number asked for or that of the subspace. *)
Theorem C59_processor m k subspace sites z zf : sane m -> offers m k -> (1 <= subspace)%Z -> (z <> 0)%Z ->
  exists heap h, make_processor m subspace sites (PInt z) (match zf with Some q => PInt q | None => PNone end) = Some (heap, h) /\ length heap = S sites /\
    (exists t, granted k z t /\ (forall i, i < sites -> nth_error heap (S i) = Some t) /\ (0 < sites -> get_many heap h = Some t)) /\
    exists t, granted k (match zf with Some q => if Z.eqb q 0 then subspace else q | None => subspace end) t /\ nth_error heap 0 = Some t.
Proof.
  intros SA OF HS HZ. set (q := match zf with Some q => if Z.eqb q 0 then subspace else q | None => subspace end). assert (HQ : (q <> 0)%Z) by (unfold q; destruct zf as [p|]; [destruct (Z.eqb_spec p 0)|]; lia).
  unfold make_processor. assert (EW : full_request subspace (match zf with Some q => PInt q | None => PNone end) = PInt q) by (unfold q; destruct zf; auto). rewrite EW. clear EW. cbv zeta.
  pose proof (C59_threads q SA OF) as TQ. destruct (accept_threads m (PInt q)) as [tq|] eqn:EQ; [|contradiction]. pose proof (C59_threads z SA OF) as TZ. destruct (accept_threads m (PInt z)) as [tz|] eqn:EZ; [|contradiction].
  unfold set_one. rewrite EQ. cbn [option_bind]. rewrite repeat_length. destruct (Nat.ltb_spec 0 (S sites)); [|lia]. cbn [option_bind].
  set (heap1 := upd (repeat 1%Z (S sites)) 0 tq). set (h := Mapping (map (fun i => (i, S i)) (seq 0 sites))).
  assert (L1 : length heap1 = S sites) by (unfold heap1; rewrite length_upd, repeat_length; auto).
  assert (MB : forall x, member h x <-> exists i, i < sites /\ x = S i). { intros x. cbn [member h]. split; [intros (j & H1); apply in_map_iff in H1; destruct H1 as (i & E & H1); injection E as <- <-; apply in_seq in H1; exists i; split; auto; lia|intros (i & Hi & ->); exists i; apply in_map_iff; exists i; split; auto; apply in_seq; lia]. }
  assert (KN : known heap1 h) by (split; [discriminate|]; intros x Hx; apply MB in Hx; destruct Hx as (i & Hi & ->); lia).
  destruct (C59_set_all KN EZ) as (heap2 & E2 & L2 & A & B & C). rewrite E2. exists heap2, h. split; auto. split; [congruence|]. split.
  - exists tz. split; [tauto|]. split; [intros i Hi; apply A, MB; exists i; auto|]. intros P. apply C. exists 1. apply MB. exists 0. auto.
  - exists tq. split; [tauto|]. rewrite B; [apply nth_error_upd_eq; rewrite repeat_length; lia|]. rewrite MB. intros (i & _ & H1). discriminate.
Qed.
(** The documentation of the processors says that without a number the local evaluators use the number of the subspace; they use the
    default. *)
Theorem C59_subspace_refuted : exists m s heap h, sane m /\ accept_threads m (PInt s) = Some s /\ make_processor m s 3 PNone PNone = Some (heap, h) /\ get_many heap h <> Some s /\ nth_error heap 0 = Some s.
Proof. exists (mkM true 8 8 false), 6%Z. do 2 eexists. split; [split; discriminate|]. split; [reflexivity|]. split; [vm_compute; reflexivity|]. split; [discriminate|reflexivity]. Qed.
(** A processor without sites in clusters cannot tell its number of threads. *)
Theorem C59_empty_refuted : forall m s w wf heap h, make_processor m s 0 w wf = Some (heap, h) -> get_many heap h = None.
Proof. intros m s w wf heap h H. unfold make_processor in H. cbn [seq map] in H. destruct (set_one _ _ _ _); [|discriminate]. cbn [option_bind] in H. unfold set_many in H. cbn in H. injection H as <- <-. reflexivity. Qed.

(** Eight processors, three sites. *)
Example C59_case : let m := mkM true 8 16 false in sane m /\ offers m 8 /\ accept_threads m (PInt 12) = Some 8%Z /\ accept_threads m (PInt (-2)) = Some 7%Z /\ accept_threads m PNone = Some 2%Z /\
  accept_threads m (PInt 0) = None /\ make_processor m 6 3 (PInt 4) PNone = Some ([6; 4; 4; 4]%Z, Mapping [(0, 1); (1, 2); (2, 3)]) /\
  set_many (accept_threads m) [6; 4; 4; 4]%Z (Mapping [(0, 1); (1, 2); (2, 3)]) (PInt 0) = ([6; 4; 4; 4]%Z, false) /\
  set_many (accept_threads m) [6; 4; 4; 4]%Z (Sequence [3; 1; 3]) (PInt 5) = ([6; 5; 4; 5]%Z, true).
Proof. cbv zeta. split; [split; discriminate|]. split; [cbn; lia|]. repeat split. Qed.
Print Assumptions C59_set_all.
Print Assumptions C59_nothing.
Print Assumptions C59_read.
Print Assumptions C59_threads.
Print Assumptions C59_again.
Print Assumptions C59_processor.
