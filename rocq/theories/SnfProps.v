(** C40, C41, C42: extended Euclid, Smith decomposition, Diophantine equations. *)
From Verif Require Import LibProofs IntMath SnfProofs.
Set Implicit Arguments.
Unset Strict Implicit.
Open Scope Z_scope.

(** ** C40 *)

(** The recursion ends for all integers (within |a| + 1 calls, any larger bound gives
    the same result) and returns Bezout coefficients of a greatest common divisor. *)
Theorem C40_terminates a b fuel : (Z.abs_nat a < fuel)%nat ->
  exists x y g, gcdex_rec fuel a b = Some (x, y, g) /\ gcdex a b = Some (x, y, g).
Proof.
  intro Hf.
  assert (forall f1 f2 a b r, gcdex_rec f1 a b = Some r -> (f1 <= f2)%nat -> gcdex_rec f2 a b = Some r) as Hmono.
  { clear. induction f1 as [|f1 IH]; intros f2 a b r H Hle; [discriminate|].
    destruct f2 as [|f2]; [lia|]. cbn [gcdex_rec] in *. destruct (a =? 0); [exact H|].
    destruct (gcdex_rec f1 (b mod a) a) as [[[x y] g]|] eqn:E; [|discriminate].
    rewrite (IH f2 _ _ _ E) by lia. exact H. }
  destruct (gcdex_total a b) as (x & y & g & E). exists x, y, g. split; [|exact E].
  unfold gcdex in E. eapply Hmono; [exact E|lia].
Qed.
Theorem C40_bezout a b x y g : gcdex a b = Some (x, y, g) ->
  a * x + b * y = g /\ (g | a) /\ (g | b) /\ (forall k, (k | a) -> (k | b) -> (k | g)).
Proof.
  intro H. destruct (gcdex_spec H) as (H1 & H2). destruct (gcdex_div H) as (H3 & H4).
  repeat split; auto. intros k Ha Hb. rewrite <- H1.
  apply Z.divide_add_r; apply Z.divide_mul_l; assumption.
Qed.
Example C40_case : gcdex (-4) 6 = Some (2, 1, -2) /\ gcdex 240 46 = Some (-9, 47, 2) /\ gcdex 0 0 = Some (0, 1, 0).
Proof. repeat split. Qed.

(** ** C41 *)

(** Off-diagonal entries vanish. *)
Definition is_diagonal (n d : nat) (m : mat) :=
  forall r c, (r < n)%nat -> (c < d)%nat -> r <> c -> get m r c = 0.
(** The Smith normal form: every diagonal entry divides the next. *)
Definition smith_form (n d : nat) (m : mat) :=
  is_diagonal n d m /\
  forall r, (S r < Nat.min n d)%nat -> (get m r r | get m (S r) (S r)).

(** For every integer matrix: the computation ends, [m = s A t], both factors have
    integer inverses, [m] is diagonal, zeros come last and every entry divides the
    last one. *)
Theorem C41_decomposition_partial n d A : shape n d A ->
  exists x rk, compute_snf n d A = Some x /\
    (shape n n (st_s x) /\ shape n d (st_m x) /\ shape d d (st_t x)) /\
    meq n d (get (st_m x)) (mm d (mm n (get (st_s x)) (get A)) (get (st_t x))) /\
    invertible n (get (st_s x)) /\ invertible d (get (st_t x)) /\
    is_diagonal n d (st_m x) /\
    (forall r, (r < Nat.min n d)%nat -> (get (st_m x) r r <> 0 <-> (r < rk)%nat)) /\
    (forall r, (r < Nat.min n d)%nat ->
       (get (st_m x) r r | get (st_m x) (Nat.min n d - 1) (Nat.min n d - 1))).
Proof.
  intro HA. destruct (compute_snf_ok HA) as (x & rk & E & (Sh & I1 & I2 & M) & (G1 & G2) & V).
  exists x, rk. repeat split; auto; try apply Sh.
  - apply G2; lia.
  - intro H0. apply G2; lia.
  - intros r Hr. destruct (Nat.eq_dec (S r) (Nat.min n d)) as [Hl|Hl].
    + replace (Nat.min n d - 1)%nat with r by lia. apply Z.divide_refl.
    + apply V. lia.
Qed.

(** With at most two diagonal entries the result is the Smith normal form. *)
Theorem C41_smith_partial n d A : shape n d A -> (Nat.min n d <= 2)%nat ->
  exists x, compute_snf n d A = Some x /\ smith_form n d (st_m x).
Proof.
  intros HA H2. destruct (C41_decomposition_partial HA) as (x & rk & E & _ & _ & _ & _ & G & _ & V).
  exists x. split; [exact E|]. split; [exact G|]. intros r Hr.
  replace (S r) with (Nat.min n d - 1)%nat by lia. apply V. lia.
Qed.

(** In general it is not: the last pass compares every entry only with the entry
    being inserted. *)
Theorem C41_smith_refuted :
  ~ (forall n d A, shape n d A -> exists x, compute_snf n d A = Some x /\ smith_form n d (st_m x)).
Proof.
  intro H. destruct (H 3%nat 3%nat [[2; 0; 0]; [0; 4; 0]; [0; 0; 3]]) as (x & E & _ & V).
  { split; [reflexivity|]. repeat constructor. }
  assert (compute_snf 3 3 [[2; 0; 0]; [0; 4; 0]; [0; 0; 3]] =
    Some (mkSnf [[1; 0; 0]; [2; -1; -1]; [0; 3; 4]] [[2; 0; 0]; [0; 1; 0]; [0; 0; 12]]
                [[1; 0; 0]; [4; -1; -3]; [-4; 1; 4]])) as E' by (vm_compute; reflexivity).
  rewrite E' in E. injection E as <-. specialize (V 0%nat ltac:(simpl; lia)).
  cbn in V. destruct V as (k & Hk). lia.
Qed.
Example C41_case :
  option_map st_m (compute_snf 3 4 [[2; 5; 1; 7]; [3; 4; -6; 2]; [9; 3; 3; 1]])
    = Some [[1; 0; 0; 0]; [0; -1; 0; 0]; [0; 0; 2; 0]]
  /\ option_map st_m (compute_snf 2 3 [[2; 4; 6]; [4; 8; 9]]) = Some [[1; 0; 0]; [0; -6; 0]].
Proof. split; vm_compute; reflexivity. Qed.

(** ** C42 *)

(** [x] solves [A x = b]. *)
Definition solves (n d : nat) (A : mat) (b x : list Z) :=
  length x = d /\
  forall i, (i < n)%nat -> sum d (fun j => get A i j * nth j x 0) = nth i b 0.
(** Base vector plus an integer combination. *)
Definition combine_with (d : nat) (n0 : list Z) (vs : list (list Z)) (co : list Z) : list Z :=
  map (fun r => nth r n0 0 + sum (length vs) (fun q => nth q co 0 * nth r (nth q vs []) 0)) (seq 0 d).
(** No non-trivial integer relation between the rows. *)
Definition independent_rows (n d : nat) (A : mat) :=
  forall a : nat -> Z, (forall j, (j < d)%nat -> sum n (fun i => a i * get A i j) = 0) ->
    forall i, (i < n)%nat -> a i = 0.

Lemma nth_map_seq (f : nat -> Z) k i : (i < k)%nat -> nth i (map f (seq 0 k)) 0 = f i.
Proof.
  intro Hi. rewrite (nth_indep _ 0 (f 0%nat)) by (rewrite map_length, seq_length; exact Hi).
  rewrite map_nth, seq_nth by exact Hi. reflexivity.
Qed.

Section Dio.
Variables (n d : nat) (A : mat) (b : list Z).
Hypothesis HA : shape n d A.
Hypothesis Hb : length b = n.
Variables (x : snf_state) (rk : nat).
Hypothesis Ex : compute_snf n d A = Some x.
Hypothesis Dx : decomp n d A x.
Hypothesis Gx : diagonal n d rk x.

Let S := get (st_s x).
Let T := get (st_t x).
Let B := get (st_m x).
Let mn := Nat.min n d.
Let c := mat_vec n n (st_s x) b.
Let cf := fun i => nth i c 0.
Let colv (v : nat -> Z) : F := fun i _ => v i.
Let bf := fun i => nth i b 0.

Lemma cf_eq i : (i < n)%nat -> cf i = sum n (fun j => S i j * bf j).
Proof using All. intro Hi. unfold cf, c, mat_vec. rewrite nth_map_seq by exact Hi. reflexivity. Qed.

Lemma diag_row v i : (i < n)%nat -> sum d (fun j => B i j * v j) = if (i <? d)%nat then B i i * v i else 0.
Proof using All.
  intro Hi. destruct Gx as (G1 & _). destruct (Nat.ltb_spec i d) as [Hd|Hd].
  - rewrite (sum_ext (g := fun j => delta j i * (B i j * v j))).
    + apply (@sum_delta d i (fun j => B i j * v j) Hd).
    + intros j Hj. unfold delta. destruct (Nat.eqb_spec j i); [subst; ring|].
      unfold B. rewrite (G1 i j) by auto. ring.
  - apply sum_0. intros j Hj. unfold B. rewrite (G1 i j) by (auto; lia). ring.
Qed.

(** The system in the new coordinates. *)
Lemma change_coords v w :
  (forall r, (r < d)%nat -> v r = sum d (fun j => T r j * w j)) ->
  forall i, (i < n)%nat -> sum n (fun k => S i k * sum d (fun l => get A k l * v l)) = sum d (fun j => B i j * w j).
Proof using All.
  intros Hv i Hi. destruct Dx as (_ & _ & _ & M).
  transitivity (mm d (mm d (mm n S (get A)) T) (colv w) i 0%nat).
  - rewrite mm_assoc, mm_assoc. unfold mm at 1. apply sum_ext. intros k Hk. f_equal.
    unfold mm at 1. apply sum_ext. intros l Hl. f_equal. rewrite Hv by exact Hl. reflexivity.
  - apply sum_ext. intros j Hj. unfold colv. f_equal. symmetry. apply M; assumption.
Qed.

Lemma S_inj u v : (forall i, (i < n)%nat -> sum n (fun k => S i k * u k) = sum n (fun k => S i k * v k)) ->
  forall i, (i < n)%nat -> u i = v i.
Proof using All.
  intros H i Hi. destruct Dx as (_ & (S' & _ & HS) & _ & _).
  assert (forall w, w i = mm n S' (mm n S (colv w)) i 0%nat) as E.
  { intro w. rewrite <- mm_assoc. unfold mm at 1.
    rewrite (sum_ext (g := fun l => delta l i * w l)).
    - symmetry. apply sum_delta. exact Hi.
    - intros l Hl. unfold colv. f_equal. unfold S. rewrite HS by assumption. apply delta_sym. }
  rewrite (E u), (E v). apply sum_ext. intros k Hk. f_equal. apply H. exact Hk.
Qed.

(** Solutions in the new coordinates are the solutions of the diagonal system. *)
Lemma solves_iff v w :
  (forall r, (r < d)%nat -> v r = sum d (fun j => T r j * w j)) ->
  (forall i, (i < n)%nat -> sum d (fun j => get A i j * v j) = bf i) <->
  (forall i, (i < n)%nat -> (if (i <? d)%nat then B i i * w i else 0) = cf i).
Proof using All.
  intro Hv. split; intro H.
  - intros i Hi. rewrite <- diag_row by exact Hi. rewrite <- (change_coords Hv Hi), cf_eq by exact Hi.
    apply sum_ext. intros k Hk. rewrite H by exact Hk. reflexivity.
  - intros i Hi. apply (S_inj (u := fun k => sum d (fun j => get A k j * v j)) (v := bf)); [|exact Hi].
    intros k Hk. rewrite (change_coords Hv Hk), diag_row by exact Hk. rewrite H by exact Hk. apply cf_eq, Hk.
Qed.

(** Every vector has coordinates. *)
Lemma coords v : exists w, forall r, (r < d)%nat -> v r = sum d (fun j => T r j * w j).
Proof using All.
  destruct Dx as (_ & _ & (T' & HT & _) & _). exists (fun j => sum d (fun l => T' j l * v l)).
  intros r Hr. transitivity (mm d (mm d T T') (colv v) r 0%nat).
  - unfold mm at 1. rewrite (sum_ext (g := fun l => delta l r * v l)).
    + symmetry. apply sum_delta. exact Hr.
    + intros l Hl. unfold colv. f_equal. unfold T. rewrite HT by assumption. apply delta_sym.
  - rewrite mm_assoc. reflexivity.
Qed.
Lemma coords_inj w w' :
  (forall r, (r < d)%nat -> sum d (fun j => T r j * w j) = sum d (fun j => T r j * w' j)) ->
  forall j, (j < d)%nat -> w j = w' j.
Proof using All.
  intros H j Hj. destruct Dx as (_ & _ & (T' & _ & HT) & _).
  assert (forall w, w j = mm d T' (mm d T (colv w)) j 0%nat) as E.
  { intro u. rewrite <- mm_assoc. unfold mm at 1.
    rewrite (sum_ext (g := fun l => delta l j * u l)).
    - symmetry. apply sum_delta. exact Hj.
    - intros l Hl. unfold colv. f_equal. unfold T. rewrite HT by assumption. apply delta_sym. }
  rewrite (E w), (E w'). apply sum_ext. intros k Hk. f_equal. apply H. exact Hk.
Qed.

(** The number of components fixed by the solver. *)
Let k := fold_left (fun k i => if B i i =? 0 then i else k) (seq 0 mn) mn.
Lemma k_eq : k = if (rk <? mn)%nat then (mn - 1)%nat else mn.
Proof using All.
  unfold k. assert (forall m init, (m <= mn)%nat ->
    fold_left (fun k i => if B i i =? 0 then i else k) (seq 0 m) init = if (rk <? m)%nat then (m - 1)%nat else init) as H.
  { induction m as [|m IH]; intros init Hm; [reflexivity|].
    rewrite seq_S, fold_left_app. cbn [fold_left Nat.add]. rewrite IH by lia.
    destruct Gx as (_ & G2).
    assert (B m m <> 0 <-> (m < rk)%nat) as R by (apply G2; unfold mn in *; lia).
    destruct (Z.eqb_spec (B m m) 0) as [Hz|Hz].
    - destruct (Nat.ltb_spec rk (Datatypes.S m)); [lia|]. exfalso. assert (m < rk)%nat by lia. apply R in H0. contradiction.
    - apply R in Hz. destruct (Nat.ltb_spec rk m), (Nat.ltb_spec rk (Datatypes.S m)); lia. }
  rewrite H by lia. reflexivity.
Qed.
Lemma k_le : (k <= mn)%nat.
Proof using All. rewrite k_eq. destruct (rk <? mn)%nat; lia. Qed.
Lemma k_zero j : (k <= j)%nat -> (j < n)%nat -> (j < d)%nat -> B j j = 0.
Proof using All.
  intros Hk Hn Hd. rewrite k_eq in Hk. destruct Gx as (_ & G2).
  destruct (Nat.ltb_spec rk mn) as [Hlt|Hge].
  - destruct (Z.eq_dec (B j j) 0) as [|Hne]; [assumption|]. apply G2 in Hne; [|assumption|assumption].
    unfold mn in *. lia.
  - unfold mn in *. lia.
Qed.

Let z := fun i => if (i <? k)%nat then np_div (cf i) (B i i) else 0.
Let n0 := map (fun r => sum k (fun i => T r i * np_div (cf i) (B i i))) (seq 0 d).
Let vs := map (fun j => map (fun r => T r j) (seq 0 d)) (seq k (d - k)).

Lemma solver_eq : solve_diophantines n d A (Some b) =
  if forallb (fun i => np_mod (cf i) (B i i) =? 0) (seq 0 k) then Some (n0, vs) else None.
Proof using All.
  unfold solve_diophantines. rewrite Ex. cbn [option_bind]. rewrite Hb, Nat.eqb_refl. cbn [negb].
  fold c. fold B. fold mn. fold k. fold cf.
  destruct (forallb _ _); reflexivity.
Qed.

Lemma sum_trunc f m : (forall i, (k <= i < m)%nat -> f i = 0) -> (k <= m)%nat -> sum m f = sum k f.
Proof using All.
  intros H Hm. induction m as [|m IH].
  - replace k with 0%nat by lia. reflexivity.
  - destruct (Nat.eq_dec k (Datatypes.S m)) as [->|Hne]; [reflexivity|].
    rewrite sum_S, IH, H by (intros; try apply H; lia). lia.
Qed.
Lemma k_le_d : (k <= d)%nat. Proof using All. pose proof k_le. unfold mn in *. lia. Qed.

Lemma n0_coords r : (r < d)%nat -> nth r n0 0 = sum d (fun j => T r j * z j).
Proof using All.
  intro Hr. unfold n0. rewrite nth_map_seq by exact Hr.
  rewrite (sum_trunc (f := fun j => T r j * z j)).
  - apply sum_ext. intros i Hi. unfold z. destruct (Nat.ltb_spec i k); [reflexivity|lia].
  - intros i Hi. unfold z. destruct (Nat.ltb_spec i k); [lia|ring].
  - apply k_le_d.
Qed.

Lemma check_ok : forallb (fun i => np_mod (cf i) (B i i) =? 0) (seq 0 k) = true ->
  forall i, (i < k)%nat -> B i i <> 0 -> B i i * z i = cf i.
Proof using All.
  intros H i Hi Hne. rewrite forallb_forall in H. specialize (H i ltac:(apply in_seq; lia)).
  unfold z. destruct (Nat.ltb_spec i k); [|lia]. unfold np_mod, np_div in *.
  destruct (Z.eqb_spec (B i i) 0); [contradiction|]. apply Z.eqb_eq in H.
  pose proof (Z.div_mod (cf i) (B i i) n1). lia.
Qed.

Lemma raises_sound : forallb (fun i => np_mod (cf i) (B i i) =? 0) (seq 0 k) = false ->
  forall v, ~ (forall i, (i < n)%nat -> sum d (fun j => get A i j * v j) = bf i).
Proof using All.
  intros H v Hv. destruct (coords v) as (w & Hw). rewrite (solves_iff Hw) in Hv.
  apply Bool.not_true_iff_false in H. apply H, forallb_forall. intros i Hi. apply in_seq in Hi.
  pose proof k_le. unfold mn in *. specialize (Hv i ltac:(lia)).
  destruct (Nat.ltb_spec i d); [|lia]. unfold np_mod. destruct (Z.eqb_spec (B i i) 0); [reflexivity|].
  apply Z.eqb_eq, Z.mod_divide; [assumption|]. exists (w i). lia.
Qed.

Lemma base_ok : forallb (fun i => np_mod (cf i) (B i i) =? 0) (seq 0 k) = true ->
  (exists v, forall i, (i < n)%nat -> sum d (fun j => get A i j * v j) = bf i) ->
  forall i, (i < n)%nat -> sum d (fun j => get A i j * nth j n0 0) = bf i.
Proof using All.
  intros H (v & Hv). destruct (coords v) as (w & Hw). rewrite (solves_iff Hw) in Hv.
  apply (solves_iff (w := z)); [intros r Hr; apply n0_coords, Hr|].
  intros i Hi. specialize (Hv i Hi). destruct (Nat.ltb_spec i d) as [Hd|Hd]; [|exact Hv].
  destruct (Z.eq_dec (B i i) 0) as [E|E]; [rewrite E in *; lia|].
  apply check_ok; [exact H| |exact E].
  destruct (Nat.lt_ge_cases i k); [assumption|]. exfalso. apply E. apply k_zero; assumption.
Qed.

Lemma vs_len : length vs = (d - k)%nat.
Proof using All. unfold vs. rewrite map_length, seq_length. reflexivity. Qed.
Lemma vs_nth q r : (q < d - k)%nat -> (r < d)%nat -> nth r (nth q vs []) 0 = T r (k + q)%nat.
Proof using All.
  intros Hq Hr. unfold vs.
  rewrite (nth_indep _ [] (map (fun r => T r 0%nat) (seq 0 d))) by (rewrite map_length, seq_length; exact Hq).
  rewrite (map_nth (fun j => map (fun r => T r j) (seq 0 d))), seq_nth by exact Hq.
  rewrite (nth_map_seq (fun r => T r (k + q)%nat)) by exact Hr. reflexivity.
Qed.

(** Coordinates of a combination of the returned vectors. *)
Let ext (co : list Z) := fun j => if (j <? k)%nat then 0 else nth (j - k) co 0.
Lemma sum_shift f : forall m, sum (k + m) f = sum k f + sum m (fun q => f (k + q)%nat).
Proof using All.
  induction m as [|m IH]; [rewrite Nat.add_0_r; cbn; lia|].
  rewrite Nat.add_succ_r, !sum_S, IH. lia.
Qed.
Lemma combo_coords co r : (r < d)%nat ->
  sum (length vs) (fun q => nth q co 0 * nth r (nth q vs []) 0) = sum d (fun j => T r j * ext co j).
Proof using All.
  intro Hr. rewrite vs_len. pose proof k_le_d.
  replace d with (k + (d - k))%nat at 2 by lia. rewrite sum_shift.
  rewrite (@sum_0 k).
  - rewrite Z.add_0_l. apply sum_ext. intros q Hq. rewrite vs_nth by assumption. unfold ext.
    destruct (Nat.ltb_spec (k + q) k); [lia|]. replace (k + q - k)%nat with q by lia. ring.
  - intros i Hi. unfold ext. destruct (Nat.ltb_spec i k); [ring|lia].
Qed.
Lemma combine_coords co r : (r < d)%nat ->
  nth r (combine_with d n0 vs co) 0 = sum d (fun j => T r j * (z j + ext co j)).
Proof using All.
  intro Hr. unfold combine_with. rewrite nth_map_seq by exact Hr.
  rewrite n0_coords, combo_coords by exact Hr. rewrite <- sum_add. apply sum_ext. intros; ring.
Qed.

Lemma homogeneous q : (q < d - k)%nat -> forall i, (i < n)%nat ->
  sum d (fun j => get A i j * nth j (nth q vs []) 0) = 0.
Proof using All.
  intros Hq i Hi.
  set (v := fun j => nth j (nth q vs []) 0).
  set (w := fun j => delta j (k + q)%nat).
  assert (forall r, (r < d)%nat -> v r = sum d (fun j => T r j * w j)) as Hv.
  { intros r Hr. unfold v. rewrite vs_nth by assumption.
    rewrite (sum_ext (g := fun j => delta j (k + q)%nat * T r j)) by (intros; unfold w; ring).
    symmetry. apply (@sum_delta d (k + q) (fun j => T r j)). lia. }
  apply (S_inj (u := fun i => sum d (fun j => get A i j * v j)) (v := fun _ => 0)); [|exact Hi].
  intros i' Hi'. rewrite (change_coords Hv Hi'), diag_row by exact Hi'.
  rewrite (@sum_0 n) by (intros; ring).
  destruct (Nat.ltb_spec i' d); [|reflexivity]. unfold w, delta. destruct (Nat.eqb_spec i' (k + q)); [|ring].
  rewrite k_zero by lia. ring.
Qed.

Lemma combo_inj co co' : length co = length vs -> length co' = length vs ->
  combine_with d n0 vs co = combine_with d n0 vs co' -> co = co'.
Proof using All.
  intros L L' H. rewrite vs_len in *.
  assert (forall j, (j < d)%nat -> z j + ext co j = z j + ext co' j) as Hj.
  { apply (coords_inj (w := fun j => z j + ext co j) (w' := fun j => z j + ext co' j)).
    intros r Hr. rewrite <- !combine_coords by exact Hr. rewrite H. reflexivity. }
  apply nth_ext with (d := 0) (d' := 0); [lia|]. intros q Hq. specialize (Hj (k + q)%nat ltac:(lia)).
  unfold ext in Hj. destruct (Nat.ltb_spec (k + q) k); [lia|]. replace (k + q - k)%nat with q in Hj by lia. lia.
Qed.

(** If every fixed component has a non-zero diagonal entry, nothing is missing. *)
Lemma complete : (forall i, (i < k)%nat -> B i i <> 0) ->
  forallb (fun i => np_mod (cf i) (B i i) =? 0) (seq 0 k) = true ->
  forall v, length v = d -> (forall i, (i < n)%nat -> sum d (fun j => get A i j * nth j v 0) = bf i) ->
  exists co, length co = length vs /\ v = combine_with d n0 vs co.
Proof using All.
  intros Hnz Hc v Lv Hv. destruct (coords (fun j => nth j v 0)) as (w & Hw).
  rewrite (solves_iff (v := fun j => nth j v 0) Hw) in Hv.
  exists (map (fun q => w (k + q)%nat) (seq 0 (d - k))).
  split; [rewrite map_length, seq_length, vs_len; reflexivity|].
  apply nth_ext with (d := 0) (d' := 0).
  { unfold combine_with. rewrite map_length, seq_length. exact Lv. }
  intros r Hr. rewrite Lv in Hr. rewrite combine_coords by exact Hr. rewrite Hw by exact Hr.
  apply sum_ext. intros j Hj. f_equal. unfold ext. destruct (Nat.ltb_spec j k) as [Hk|Hk].
  - pose proof k_le. unfold mn in *. specialize (Hv j ltac:(lia)).
    destruct (Nat.ltb_spec j d); [|lia]. rewrite <- (check_ok Hc Hk (Hnz j Hk)) in Hv.
    apply Z.mul_reg_l in Hv; [lia|apply Hnz, Hk].
  - unfold z. destruct (Nat.ltb_spec j k); [lia|].
    rewrite (nth_map_seq (fun q => w (k + q)%nat)) by lia. replace (k + (j - k))%nat with j by lia. ring.
Qed.

(** Independent rows: the diagonal has no zero and at least as many columns. *)
Lemma rows_rank : independent_rows n d A -> (n <= rk)%nat /\ (n <= d)%nat.
Proof using All.
  intro HI.
  assert (forall i, (i < n)%nat -> (forall j, (j < d)%nat -> B i j = 0) -> False) as Hno.
  { intros i Hi Hz. destruct Dx as (_ & (S' & HS & _) & (T' & HT & _) & M).
    assert (forall i', (i' < n)%nat -> S i i' = 0) as HS0.
    { apply (HI (fun i' => S i i')). intros j Hj.
      transitivity (mm d (mm d (mm n S (get A)) T) T' i j).
      - rewrite mm_assoc. transitivity (mm d (mm n S (get A)) delta i j).
        + symmetry. apply (mm_id_r (n := n) (d := d)); assumption.
        + apply (mm_ext (n := n) (d := d)); [apply meq_refl|apply meq_sym; exact HT|exact Hi|exact Hj].
      - apply sum_0. intros l Hl. assert (mm d (mm n S (get A)) T i l = B i l) as -> by (symmetry; apply M; assumption).
        rewrite Hz by exact Hl. ring. }
    specialize (HS i i Hi Hi). unfold delta in HS. rewrite Nat.eqb_refl in HS.
    unfold mm in HS. rewrite sum_0 in HS; [discriminate|]. intros l Hl. fold S. rewrite HS0 by exact Hl. ring. }
  destruct Gx as (G1 & G2).
  assert (n <= d)%nat as Hnd.
  { destruct (Nat.le_gt_cases n d); [assumption|]. exfalso. apply (Hno d); [assumption|].
    intros j Hj. apply G1; lia. }
  split; [|exact Hnd].
  destruct (Nat.le_gt_cases n rk); [assumption|]. exfalso. apply (Hno rk); [assumption|].
  intros j Hj. destruct (Nat.eq_dec rk j) as [<-|Hne]; [|apply G1; lia].
  destruct (Z.eq_dec (B rk rk) 0) as [|E]; [assumption|]. apply G2 in E; lia.
Qed.
Lemma independent_nz : independent_rows n d A -> k = n /\ forall i, (i < k)%nat -> B i i <> 0.
Proof using All.
  intro HI. destruct (rows_rank HI) as (H1 & H2). assert (k = n) as E.
  { rewrite k_eq. unfold mn. destruct (Nat.ltb_spec rk (Nat.min n d)); lia. }
  split; [exact E|]. intros i Hi. destruct Gx as (_ & G2). apply G2; lia.
Qed.
Lemma independent_base : independent_rows n d A ->
  forallb (fun i => np_mod (cf i) (B i i) =? 0) (seq 0 k) = true ->
  forall i, (i < n)%nat -> sum d (fun j => get A i j * nth j n0 0) = bf i.
Proof using All.
  intros HI H. destruct (independent_nz HI) as (E & Hnz). destruct (rows_rank HI) as (_ & Hnd).
  apply (solves_iff (w := z)); [intros r Hr; apply n0_coords, Hr|].
  intros i Hi. destruct (Nat.ltb_spec i d); [|lia]. apply check_ok; [exact H|lia|apply Hnz; lia].
Qed.
End Dio.

Lemma nth_len_Z (l : list Z) d : length l = d -> l = map (fun j => nth j l 0) (seq 0 d).
Proof.
  intros <-. apply nth_ext with (d := 0) (d' := 0); [rewrite map_length, seq_length; reflexivity|].
  intros i Hi. rewrite nth_map_seq by exact Hi. reflexivity.
Qed.

Section Dio2.
Variables (n d : nat) (A : mat) (b : list Z).
Hypothesis HA : shape n d A.
Hypothesis Hb : length b = n.

(** It raises only when there is no integer solution. *)
Theorem C42_raises : solve_diophantines n d A (Some b) = None -> forall v, ~ solves n d A b v.
Proof.
  destruct (compute_snf_ok HA) as (x & rk & E & D & G & _).
  rewrite (solver_eq HA Hb E D G). destruct (forallb _ _) eqn:Ec; [discriminate|].
  intros _ v (_ & Hv). exact (raises_sound HA Hb E D G Ec (v := fun j => nth j v 0) Hv).
Qed.

(** When there is a solution, the base vector and all its combinations with the
    returned vectors are solutions, and different combinations are different. *)
Theorem C42_sound n0 vs : solve_diophantines n d A (Some b) = Some (n0, vs) ->
  (exists v, solves n d A b v) ->
  solves n d A b n0 /\
  Forall (solves n d A (repeat 0 n)) vs /\
  (forall co, solves n d A b (combine_with d n0 vs co)) /\
  (forall co co', length co = length vs -> length co' = length vs ->
     combine_with d n0 vs co = combine_with d n0 vs co' -> co = co').
Proof.
  destruct (compute_snf_ok HA) as (x & rk & E & D & G & _).
  rewrite (solver_eq HA Hb E D G). destruct (forallb _ _) eqn:Ec; [|discriminate].
  intros H (v & _ & Hv). injection H as <- <-.
  set (n0 := map _ (seq 0 d)). set (vs := map _ (seq _ _)).
  assert (forall i, (i < n)%nat -> sum d (fun j => get A i j * nth j n0 0) = nth i b 0) as H0.
  { apply (base_ok HA Hb E D G Ec). exists (fun j => nth j v 0). exact Hv. }
  assert (forall q i, (q < length vs)%nat -> (i < n)%nat ->
     sum d (fun j => get A i j * nth j (nth q vs []) 0) = 0) as Hh.
  { intros q i Hq Hi. unfold vs in *. rewrite map_length, seq_length in Hq.
    exact (homogeneous HA Hb E D G Hq Hi). }
  split; [|split; [|split]].
  - split; [unfold n0; rewrite map_length, seq_length; reflexivity|exact H0].
  - apply Forall_forall. intros w Hw. apply In_nth with (d := []) in Hw as (q & Hq & <-). split.
    + unfold vs in *. rewrite map_length, seq_length in Hq.
      rewrite (nth_indep _ [] (map (fun r => get (st_t x) r 0%nat) (seq 0 d))) by (rewrite map_length, seq_length; exact Hq).
      rewrite (map_nth (fun j => map (fun r => get (st_t x) r j) (seq 0 d))), map_length, seq_length. reflexivity.
    + intros i Hi. rewrite Hh by assumption. rewrite nth_repeat. reflexivity.
  - intro co. split; [unfold combine_with; rewrite map_length, seq_length; reflexivity|].
    intros i Hi. rewrite <- (H0 i Hi).
    rewrite (sum_ext (g := fun j => get A i j * nth j n0 0 +
        sum (length vs) (fun q => nth q co 0 * (get A i j * nth j (nth q vs []) 0)))).
    + rewrite sum_add, sum_swap. rewrite (@sum_0 (length vs)); [ring|].
      intros q Hq. rewrite sum_mul, Hh by assumption. ring.
    + intros j Hj. unfold combine_with. rewrite nth_map_seq by exact Hj.
      rewrite Z.mul_add_distr_l. f_equal. rewrite <- sum_mul. apply sum_ext. intros; ring.
  - intros co co'. exact (combo_inj HA Hb E D G (co := co) (co' := co')).
Qed.

(** Systems with independent rows: it returns exactly if there is a solution, and
    then the solutions are exactly the base vector plus one integer combination. *)
Theorem C42_lattice_partial : independent_rows n d A ->
  match solve_diophantines n d A (Some b) with
  | None => forall v, ~ solves n d A b v
  | Some (n0, vs) =>
      solves n d A b n0 /\
      forall v, solves n d A b v <->
        exists co, length co = length vs /\ v = combine_with d n0 vs co
  end.
Proof.
  intro HI. destruct (solve_diophantines n d A (Some b)) as [[n0 vs]|] eqn:Es; [|exact (C42_raises Es)].
  pose proof (C42_sound Es) as Hs.
  destruct (compute_snf_ok HA) as (x & rk & E & D & G & _).
  rewrite (solver_eq HA Hb E D G) in Es. destruct (forallb _ _) eqn:Ec in Es; [|discriminate].
  injection Es as En Ev.
  assert (solves n d A b n0) as S0.
  { split; [rewrite <- En, map_length, seq_length; reflexivity|].
    rewrite <- En. exact (independent_base HA Hb E D G HI Ec). }
  destruct Hs as (_ & _ & Hc & _); [exists n0; exact S0|].
  split; [exact S0|]. intro v. split.
  - intros (Lv & Hv). destruct (independent_nz HA Hb E D G HI) as (_ & Hnz).
    rewrite <- En, <- Ev. exact (complete HA Hb E D G Hnz Ec Lv Hv).
  - intros (co & _ & ->). apply Hc.
Qed.

(** More generally nothing is missing if the diagonal has at most one zero. *)
Theorem C42_one_zero_partial x n0 vs : compute_snf n d A = Some x ->
  (forall i j, (i < Nat.min n d)%nat -> (j < Nat.min n d)%nat ->
     get (st_m x) i i = 0 -> get (st_m x) j j = 0 -> i = j) ->
  solve_diophantines n d A (Some b) = Some (n0, vs) ->
  forall v, solves n d A b v -> exists co, length co = length vs /\ v = combine_with d n0 vs co.
Proof.
  intros E Hz Es v (Lv & Hv).
  destruct (compute_snf_ok HA) as (x' & rk & E' & D & G & _).
  rewrite E in E'. injection E' as <-.
  rewrite (solver_eq HA Hb E D G) in Es. destruct (forallb _ _) eqn:Ec in Es; [|discriminate].
  injection Es as <- <-.
  refine (complete HA Hb E D G _ Ec Lv Hv).
  intros i Hi. pose proof (k_eq HA Hb E D G) as Hk. pose proof (k_le HA Hb E D G) as Hk'.
  intro Hi0. rewrite Hk in Hi. destruct (Nat.ltb_spec rk (Nat.min n d)) as [Hr|Hr].
  - assert (i = (Nat.min n d - 1)%nat); [|lia]. apply Hz; [lia|lia|exact Hi0|].
    destruct G as (_ & G2). destruct (Z.eq_dec (get (st_m x) (Nat.min n d - 1) (Nat.min n d - 1)) 0) as [|Hne]; [assumption|].
    apply G2 in Hne; [|lia|lia].
    assert (get (st_m x) i i <> 0) by (apply G2; lia). contradiction.
  - destruct G as (_ & G2). assert (get (st_m x) i i <> 0) by (apply G2; lia). contradiction.
Qed.
End Dio2.

(** Dependent equations: a system without solution is answered. *)
Theorem C42_infeasible_refuted : ~ (forall n d A b n0 vs, shape n d A -> length b = n ->
  solve_diophantines n d A (Some b) = Some (n0, vs) -> solves n d A b n0).
Proof.
  intro H. destruct (H 2%nat 1%nat [[1]; [1]] [0; 1] [0] []) as (_ & H1).
  - split; [reflexivity|repeat constructor].
  - reflexivity.
  - vm_compute. reflexivity.
  - specialize (H1 1%nat ltac:(lia)). discriminate H1.
Qed.
(** Two redundant equations: solutions are missing. *)
Theorem C42_missing_refuted : ~ (forall n d A b n0 vs v, shape n d A -> length b = n ->
  solve_diophantines n d A (Some b) = Some (n0, vs) -> solves n d A b v ->
  exists co, length co = length vs /\ v = combine_with d n0 vs co).
Proof.
  intro H. destruct (H 3%nat 3%nat [[1; 1; 1]; [2; 2; 2]; [3; 3; 3]] [0; 0; 0] [0; 0; 0] [[1; 0; -1]] [1; -1; 0])
    as (co & Hl & Hv).
  - split; [reflexivity|repeat constructor].
  - reflexivity.
  - vm_compute. reflexivity.
  - split; [reflexivity|]. intros i Hi. destruct i as [|[|[|i]]]; [reflexivity|reflexivity|reflexivity|lia].
  - destruct co as [|a [|a' co]]; try discriminate Hl. cbn in Hv. injection Hv. lia.
Qed.
(** Without a right-hand side a non-square system always raises. *)
Theorem C42_default_refuted n d A : shape n d A -> n <> d -> solve_diophantines n d A None = None.
Proof.
  intros HA Hne. unfold solve_diophantines. destruct (compute_snf_ok HA) as (x & rk & E & _).
  rewrite E. cbn [option_bind]. rewrite repeat_length.
  destruct (Nat.eqb_spec d n); [congruence|reflexivity].
Qed.

(** A charge balanced composition problem: two sublattices, one charge constraint. *)
Example C42_case :
  let A := [[1; 1; 1; 0; 0]; [0; 0; 0; 1; 1]; [1; 2; 3; -2; -1]] in
  shape 3 5 A /\ independent_rows 3 5 A /\
  solve_diophantines 3 5 A (Some [4; 4; 0]) = Some ([0; 4; 0; 4; 0], [[1; -2; 1; 0; 0]; [1; -1; 0; -1; 1]]).
Proof.
  intro A. split; [split; [reflexivity|repeat constructor]|]. split; [|vm_compute; reflexivity].
  intros a H i Hi.
  pose proof (H 0%nat ltac:(lia)) as H0. pose proof (H 1%nat ltac:(lia)) as H1.
  pose proof (H 3%nat ltac:(lia)) as H3. cbn in H0, H1, H3.
  destruct i as [|[|[|i]]]; lia.
Qed.

Print Assumptions C40_terminates.
Print Assumptions C40_bezout.
Print Assumptions C41_decomposition_partial.
Print Assumptions C41_smith_partial.
Print Assumptions C41_smith_refuted.
Print Assumptions C42_raises.
Print Assumptions C42_sound.
Print Assumptions C42_lattice_partial.
Print Assumptions C42_one_zero_partial.
Print Assumptions C42_infeasible_refuted.
Print Assumptions C42_missing_refuted.
Print Assumptions C42_default_refuted.
