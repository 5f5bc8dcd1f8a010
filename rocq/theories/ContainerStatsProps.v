(** Properties C100 (energies, means and variances of samples), C101 (species counts and
    compositions of samples) and C102 (orbit factors of samples). *)
From Verif Require Export ContainerStats.
From Verif Require Import ContainerProofs ContainerProps.
Set Implicit Arguments.
Unset Strict Implicit.
Open Scope nat_scope.

(** * Specification *)
(** Number [j] of an array of statistics. *)
Definition entry (a : arr) (j : nat) : option Qc :=
  match a with Num x => match j with 0 => Some x | _ => None end | Vec l => nth_error l j | Mat _ => None end.
(** An array of [k] statistics: a number if there is one, a vector otherwise. *)
Definition of_size (k : nat) (a : arr) : Prop :=
  match a with Num _ => k = 1 | Vec l => k <> 1 /\ length l = k | Mat _ => False end.
(** [a] is the mean, and [b] the variance, of [g] over [l]. *)
Definition is_mean {W} (g : W -> Qc) (l : list W) (a : Qc) : Prop :=
  (Qc_of_nat (length l) * a = qsum (map g l))%Qc.
Definition is_variance {W} (g : W -> Qc) (l : list W) (b : Qc) : Prop :=
  exists a, is_mean g l a /\ (Qc_of_nat (length l) * b = qsum (map (fun w => (g w - a) * (g w - a)) l))%Qc.
(** The selected values, sample by sample and walker by walker. *)
Definition selected {W} (xs : list (sample W)) (d t : nat) (l : list W) : Prop :=
  exists ys, selection xs ys d t /\ l = concat ys.

(** * Means and variances *)
Lemma mean_is {W} (g : W -> Qc) l : l <> [] -> is_mean g l (mean (map g l)).
Proof.
  intros H. unfold is_mean, mean. rewrite map_length. field. apply Qc_of_nat_nz.
  destruct l; simpl; congruence.
Qed.
Lemma variance_is {W} (g : W -> Qc) l : l <> [] -> is_variance g l (variance (map g l)).
Proof.
  intros H. exists (mean (map g l)). split; [apply mean_is; auto|].
  unfold variance, mean. rewrite !map_length, map_map. field. apply Qc_of_nat_nz.
  destruct l; simpl; congruence.
Qed.
(** What the two notions mean: between the extremes; not negative, mean of squares minus
    square of the mean, zero exactly for equal values. *)
Theorem C100_mean_between {W} (g : W -> Qc) l a lo hi : l <> [] -> is_mean g l a ->
  (forall w, In w l -> lo <= g w /\ g w <= hi)%Qc -> (lo <= a /\ a <= hi)%Qc.
Proof.
  intros H E B.
  assert (Hp : (0 < Qc_of_nat (length l))%Qc) by (apply Qc_of_nat_pos; destruct l; simpl; [congruence|lia]).
  assert (L : (0 <= qsum (map (fun w => g w - lo) l))%Qc).
  { apply qsum_nonneg. intros x Hx. apply in_map_iff in Hx as (w & <- & Hw). destruct (B w Hw). qclra. }
  assert (U : (0 <= qsum (map (fun w => hi - g w) l))%Qc).
  { apply qsum_nonneg. intros x Hx. apply in_map_iff in Hx as (w & <- & Hw). destruct (B w Hw). qclra. }
  rewrite qsum_map_sub, qsum_const, <- E in L. rewrite qsum_map_sub, qsum_const, <- E in U.
  split.
  - apply Qcnot_lt_le. intros C.
    assert (Qc_of_nat (length l) * a < Qc_of_nat (length l) * lo)%Qc; [|qclra]. qcnra.
  - apply Qcnot_lt_le. intros C.
    assert (Qc_of_nat (length l) * hi < Qc_of_nat (length l) * a)%Qc; [|qclra]. qcnra.
Qed.
Theorem C100_variance_square {W} (g : W -> Qc) l a b : l <> [] -> is_mean g l a -> is_variance g l b ->
  (0 <= b)%Qc /\ is_mean (fun w => g w * g w)%Qc l (b + a * a)%Qc /\ (b = 0 <-> forall w, In w l -> g w = a)%Qc.
Proof.
  intros H E (a' & E' & V).
  assert (Hp : (0 < Qc_of_nat (length l))%Qc) by (apply Qc_of_nat_pos; destruct l; simpl; [congruence|lia]).
  assert (a' = a) as ->.
  { unfold is_mean in *. rewrite <- E in E'.
    destruct (Qceqb_spec a' a) as [|N]; auto. exfalso.
    assert ((Qc_of_nat (length l) * (a' - a)) = 0)%Qc as Z
      by (replace (Qc_of_nat (length l) * (a' - a))%Qc with (Qc_of_nat (length l) * a' - Qc_of_nat (length l) * a)%Qc by ring;
          rewrite E'; ring).
    apply Qcmult_integral in Z as [Z|Z]; [rewrite Z in Hp; inversion Hp|].
    apply N. replace a' with ((a' - a) + a)%Qc by ring. rewrite Z. ring. }
  clear E'.
  assert (Sq : forall x : Qc, (0 <= x * x)%Qc) by (intros x; qcnra).
  assert (B : (0 <= qsum (map (fun w => (g w - a) * (g w - a)) l))%Qc).
  { apply qsum_nonneg. intros x Hx. apply in_map_iff in Hx as (w & <- & _). apply Sq. }
  split; [|split].
  - apply Qcnot_lt_le. intros C. rewrite <- V in B.
    assert (Qc_of_nat (length l) * b < 0)%Qc by qcnra. qclra.
  - unfold is_mean in *.
    assert (X : (qsum (map (fun w => (g w - a) * (g w - a)) l) =
                 qsum (map (fun w => g w * g w) l) - (a + a) * qsum (map g l) + Qc_of_nat (length l) * (a * a))%Qc).
    { rewrite <- qsum_const, <- qsum_map_scale, <- qsum_map_sub, <- qsum_map_add.
      apply qsum_map_ext. intros w _. ring. }
    rewrite X in V. rewrite <- E in V.
    replace (qsum (map (fun w => g w * g w) l))%Qc
      with ((qsum (map (fun w => g w * g w) l) - (a + a) * (Qc_of_nat (length l) * a) + Qc_of_nat (length l) * (a * a))
            + Qc_of_nat (length l) * (a * a))%Qc by ring.
    rewrite <- V. ring.
  - split.
    + intros ->. replace (Qc_of_nat (length l) * 0)%Qc with 0%Qc in V by ring. clear E B Hp H.
      induction l as [|x l IH]; [intros w []|]. simpl in V.
      assert (B : (0 <= qsum (map (fun w => (g w - a) * (g w - a)) l))%Qc).
      { apply qsum_nonneg. intros y Hy. apply in_map_iff in Hy as (w & <- & _). apply Sq. }
      pose proof (Sq (g x - a)%Qc) as S1.
      assert (Z1 : ((g x - a) * (g x - a) = 0)%Qc) by qclra.
      assert (Z2 : (qsum (map (fun w => (g w - a) * (g w - a)) l) = 0)%Qc) by qclra.
      intros w [<-|Hw]; [|apply IH; auto].
      assert (Z : (g x - a = 0)%Qc) by (apply Qcmult_integral in Z1 as [|]; auto).
      replace (g x) with ((g x - a) + a)%Qc by ring. rewrite Z. ring.
    + intros C. rewrite (@qsum_map_0 _ _ l) in V.
      * apply Qcmult_integral in V as [V|V]; auto. rewrite V in Hp. inversion Hp.
      * intros w Hw. rewrite C by auto. ring.
Qed.

Lemma nth_error_ext {A} (l l' : list A) : (forall k, nth_error l k = nth_error l' k) -> l = l'.
Proof.
  revert l'. induction l as [|x l IH]; intros [|y l'] H; auto.
  - specialize (H 0); discriminate.
  - specialize (H 0); discriminate.
  - pose proof (H 0) as H0. simpl in H0. inversion H0; subst. f_equal. apply IH. intros k. apply (H (S k)).
Qed.
Lemma selection_unique {W} (xs ys zs : list (sample W)) d t :
  selection xs ys d t -> selection xs zs d t -> ys = zs.
Proof. intros (_ & A) (_ & B). apply nth_error_ext. intros k. rewrite A, B. auto. Qed.
Lemma selected_flat {W} (c : container W) xs steps d t l : holds c xs steps -> 0 < t -> selected xs d t l ->
  get_flat c d t = Some l.
Proof.
  intros H Ht (ys & S1 & ->). destruct (C24_selected d H Ht) as (zs & _ & S2 & _ & F).
  rewrite (selection_unique S1 S2). auto.
Qed.
Lemma selected_in {W} (xs : list (sample W)) d t l w : selected xs d t l -> In w l -> exists x, In x xs /\ In w x.
Proof.
  intros (ys & (_ & N) & ->) H. apply in_concat in H as (x & Hx & Hw).
  apply In_nth_error in Hx as (k & Hk). rewrite N in Hk. apply nth_error_In in Hk. eauto.
Qed.

Lemma along0_ok {W} (stat : list Qc -> Qc) (P : (W -> Qc) -> list W -> Qc -> Prop) (value : W -> list Qc) k l :
  (forall g l, l <> [] -> P g l (stat (map g l))) -> 2 <= length l ->
  exists a, along0 stat k (flatten k (map value l)) = Some a /\ of_size k a /\
    forall j, j < k -> exists x, entry a j = Some x /\ P (fun w => nth j (value w) 0%Qc) l x.
Proof.
  intros HP Hl. destruct l as [|w1 [|w2 l]]; [simpl in Hl; lia|simpl in Hl; lia|].
  unfold flatten. destruct (k =? 1) eqn:Ek; cbn [map].
  - apply Nat.eqb_eq in Ek. subst k. cbn [along0].
    eexists. split; [reflexivity|]. split; [reflexivity|].
    intros [|j] Hj; [|lia]. eexists. split; [reflexivity|].
    specialize (HP (fun w => nth 0 (value w) 0%Qc) (w1 :: w2 :: l)). cbn [map] in HP. rewrite map_map. apply HP. congruence.
  - apply Nat.eqb_neq in Ek. cbn [along0]. eexists. split; [reflexivity|]. split.
    + split; auto. rewrite map_length, seq_length. auto.
    + intros j Hj. unfold entry. rewrite nth_error_map, nth_error_nth' with (d := 0) by (rewrite seq_length; auto).
      rewrite seq_nth by auto. cbn [option_map plus]. eexists. split; [reflexivity|].
      specialize (HP (fun w => nth j (value w) 0%Qc) (w1 :: w2 :: l)). unfold column. cbn [map] in *.
      rewrite map_map. apply HP. congruence.
Qed.

(** C100: means and variances of a traced value with [k] numbers, over at least two selected
    values.  Missing: a single selected value. *)
Theorem C100_statistics_partial {W} (c : container W) xs steps d t l (value : W -> list Qc) k :
  holds c xs steps -> 0 < t -> selected xs d t l -> 2 <= length l ->
  (exists a, mean_values value k c d t = Some a /\ of_size k a /\
     forall j, j < k -> exists x, entry a j = Some x /\ is_mean (fun w => nth j (value w) 0%Qc) l x) /\
  (exists a, variance_values value k c d t = Some a /\ of_size k a /\
     forall j, j < k -> exists x, entry a j = Some x /\ is_variance (fun w => nth j (value w) 0%Qc) l x).
Proof.
  intros H Ht S L. pose proof (selected_flat H Ht S) as F.
  unfold mean_values, variance_values, get_values. rewrite F. cbn [option_bind]. split.
  - apply (@along0_ok W mean is_mean); auto. intros; apply mean_is; auto.
  - apply (@along0_ok W variance is_variance); auto. intros; apply variance_is; auto.
Qed.

(** A single selected value: the mean of a vector is the mean of its entries, which is a
    number; the mean of a number raises. *)
Theorem C100_single_refuted {W} (c : container W) xs steps d t w (value : W -> list Qc) k :
  holds c xs steps -> 0 < t -> selected xs d t [w] -> 2 <= k -> length (value w) = k ->
  mean_values value k c d t = Some (Num (mean (value w))) /\
  (forall a, mean_values value k c d t = Some a -> ~ of_size k a) /\
  (forall f : W -> Qc, mean_values (fun w => [f w]) 1 c d t = None /\ variance_values (fun w => [f w]) 1 c d t = None).
Proof.
  intros H Ht S K L. pose proof (selected_flat H Ht S) as F.
  assert (E : mean_values value k c d t = Some (Num (mean (value w)))).
  { unfold mean_values, get_values. rewrite F. cbn [option_bind map flatten].
    replace (k =? 1) with false by (symmetry; apply Nat.eqb_neq; lia).
    destruct (value w); simpl in L; [lia|]. reflexivity. }
  split; [exact E|]. split.
  - rewrite E. intros a A. inversion A; subst a. simpl. lia.
  - intros f. unfold mean_values, variance_values, get_values. rewrite F. auto.
Qed.

(** Walker by walker ([flat=False]) every non-empty selection is right. *)
Theorem C100_walkers {W} (c : container W) xs steps d t ys (value : W -> list Qc) k walkers :
  holds c xs steps -> 0 < t -> selection xs ys d t -> ys <> [] ->
  exists a b, walkers_stat mean value k walkers c d t = Some a /\ walkers_stat variance value k walkers c d t = Some b /\
    length a = walkers /\ length b = walkers /\
    forall i j, i < walkers -> j < k -> exists ra x rb y,
      nth_error a i = Some ra /\ nth_error ra j = Some x /\ nth_error b i = Some rb /\ nth_error rb j = Some y /\
      is_mean (fun s => match nth_error s i with Some w => nth j (value w) 0%Qc | None => 0%Qc end) ys x /\
      is_variance (fun s => match nth_error s i with Some w => nth j (value w) 0%Qc | None => 0%Qc end) ys y.
Proof.
  intros H Ht S Hne. destruct (C24_selected d H Ht) as (zs & G & S2 & _ & _).
  rewrite <- (selection_unique S S2) in G. clear zs S2.
  assert (X : forall stat, walkers_stat stat value k walkers c d t =
     Some (map (fun i => map (fun j =>
           stat (map (fun s => nth j (nth i (map value s) []) 0%Qc) ys)) (seq 0 k)) (seq 0 walkers))).
  { intros stat. unfold walkers_stat. rewrite G. cbn [option_bind]. rewrite opt_map_some. cbn [option_bind].
    destruct ys; [congruence|reflexivity]. }
  rewrite !X. eexists _, _. split; [reflexivity|]. split; [reflexivity|].
  split; [rewrite map_length, seq_length; auto|]. split; [rewrite map_length, seq_length; auto|].
  intros i j Hi Hj.
  assert (N : forall stat : list Qc -> Qc, nth_error (map (fun i => map (fun j =>
           stat (map (fun s => nth j (nth i (map value s) []) 0%Qc) ys)) (seq 0 k)) (seq 0 walkers)) i =
       Some (map (fun j => stat (map (fun s => nth j (nth i (map value s) []) 0%Qc) ys)) (seq 0 k)) /\
     nth_error (map (fun j => stat (map (fun s => nth j (nth i (map value s) []) 0%Qc) ys)) (seq 0 k)) j =
       Some (stat (map (fun s => match nth_error s i with Some w => nth j (value w) 0%Qc | None => 0%Qc end) ys))).
  { intros stat. split.
    - rewrite nth_error_map, nth_error_nth' with (d := 0) by (rewrite seq_length; auto). rewrite seq_nth by auto. auto.
    - rewrite nth_error_map, nth_error_nth' with (d := 0) by (rewrite seq_length; auto). rewrite seq_nth by auto.
      cbn [option_map plus]. f_equal. f_equal. apply map_ext. intros s.
      destruct (nth_error s i) as [w|] eqn:E.
      + rewrite (@nth_error_nth _ (map value s) i (value w) []); auto. rewrite nth_error_map, E. auto.
      + rewrite (nth_overflow (map value s)); [destruct j; auto|]. rewrite map_length. apply nth_error_None. auto. }
  destruct (N mean) as (N1 & N2). destruct (N variance) as (N3 & N4).
  do 4 eexists. split; [exact N1|]. split; [exact N2|]. split; [exact N3|]. split; [exact N4|].
  split; [apply mean_is; auto|apply variance_is; auto].
Qed.

(** * Energies *)
(** A sample as the sampler stores it under parameters [ps]: one feature per parameter, and
    the enthalpy is their product. *)
Definition sampled_under {W} (enthalpy : W -> Qc) (features : W -> list Qc) (ps : list Qc) (w : W) : Prop :=
  length (features w) = length ps /\ enthalpy w = qdot (features w) ps.
(** The part of the enthalpy that is the energy: the first [n] terms. *)
Definition energy_of {W} (features : W -> list Qc) (ps : list Qc) (n : nat) (w : W) : Qc :=
  qsum (map (fun i => nth i (features w) 0 * nth i ps 0)%Qc (seq 0 n)).

Lemma qdot_nth (u : list Qc) : forall v, length u = length v ->
  qdot u v = qsum (map (fun i => nth i u 0 * nth i v 0)%Qc (seq 0 (length u))).
Proof.
  induction u as [|x u IH]; intros [|y v] L; try discriminate; auto.
  cbn [length seq map qsum qdot]. rewrite <- seq_shift, map_map. cbn [nth]. rewrite IH by (simpl in L; lia). auto.
Qed.
Lemma nth_firstn_lt {A} (l : list A) n i (x : A) : i < n -> nth i (firstn n l) x = nth i l x.
Proof. revert l i. induction n; intros l i H; [lia|]. destruct l; auto. destruct i; simpl; auto. apply IHn. lia. Qed.

(** C100: the energies are those of the selected samples, in order, whatever has become of
    the chemical potentials (set, changed) since they were sampled, unless they have been
    removed. *)
Theorem C100_energies_partial {W} (c : container W) xs steps d t ys enthalpy features (ps params : list Qc) n :
  holds c xs steps -> 0 < t -> selection xs ys d t -> ys <> [] ->
  (forall s w, In s xs -> In w s -> sampled_under enthalpy features ps w) ->
  n <= length ps -> n <= length params -> firstn n params = firstn n ps ->
  (length params = n -> length ps = n) ->
  energy_rows enthalpy features params n c d t = Some (map (map (energy_of features ps n)) ys) /\
  (forall w s, In s xs -> In w s -> enthalpy w = (energy_of features ps n w +
     qsum (map (fun i => nth i (features w) 0 * nth i ps 0) (seq n (length ps - n))))%Qc).
Proof.
  intros H Ht S Hne Hs Ln Lp Ef Hrm. destruct (C24_selected d H Ht) as (zs & G & S2 & I & _).
  rewrite <- (selection_unique S S2) in *. clear zs S2.
  split.
  - unfold energy_rows. rewrite G. cbn [option_bind]. rewrite opt_map_some. cbn [option_bind].
    destruct (length params =? n) eqn:E.
    + apply Nat.eqb_eq in E. specialize (Hrm E). f_equal. apply map_ext_in. intros s Hs1. apply map_ext_in. intros w Hw.
      destruct (Hs s w) as (L & ->); auto. rewrite qdot_nth by auto. unfold energy_of. rewrite L, Hrm. auto.
    + assert (X : opt_map (opt_map (fun w => tensordot (firstn n (features w)) (firstn n params))) ys =
                  Some (map (map (energy_of features ps n)) ys)).
      { apply opt_map_map. intros s Hs1. apply opt_map_map. intros w Hw.
        destruct (Hs s w) as (L & _); auto. unfold tensordot. rewrite !firstn_length.
        replace (Nat.min n (length (features w)) =? Nat.min n (length params)) with true
          by (symmetry; apply Nat.eqb_eq; lia).
        f_equal. rewrite qdot_nth by (rewrite !firstn_length; lia). rewrite firstn_length.
        replace (Nat.min n (length (features w))) with n by lia. unfold energy_of. rewrite Ef.
        apply qsum_map_ext. intros i Hi. apply in_seq in Hi. rewrite !nth_firstn_lt by lia. auto. }
      destruct ys; [congruence|]. exact X.
  - intros w s Hs1 Hw. destruct (Hs s w) as (L & ->); auto. rewrite qdot_nth by auto. unfold energy_of.
    rewrite <- qsum_app, <- map_app, <- seq_app. rewrite L. repeat f_equal. lia.
Qed.

(** ... and the smallest one is found, for any number of samples. *)
Theorem C100_minimum_energy_partial {W} (c : container W) xs steps d t ys enthalpy features (ps params : list Qc) n :
  holds c xs steps -> 0 < t -> selection xs ys d t -> concat ys <> [] ->
  (forall s w, In s xs -> In w s -> sampled_under enthalpy features ps w) ->
  n <= length ps -> n <= length params -> firstn n params = firstn n ps ->
  (length params = n -> length ps = n) ->
  exists v, get_minimum_energy enthalpy features params n c d t = Some v /\
    (exists w, In w (concat ys) /\ v = energy_of features ps n w) /\
    forall w, In w (concat ys) -> (v <= energy_of features ps n w)%Qc.
Proof.
  intros H Ht S Hne Hs Ln Lp Ef Hrm.
  destruct (@C100_energies_partial W c xs steps d t ys enthalpy features ps params n) as (E & _); auto.
  { intros ->. apply Hne; auto. }
  unfold get_minimum_energy. rewrite E. cbn [option_bind]. rewrite <- concat_map.
  destruct (concat ys) as [|w0 l] eqn:El; [congruence|]. clear Hne.
  unfold minimum. destruct (argmin (map (energy_of features ps n) (w0 :: l))) as [i|] eqn:Ei; [|discriminate].
  destruct (argmin_spec Ei) as (v & Hv & Hle & _). cbn [option_bind]. exists v. split; [exact Hv|]. split.
  - apply nth_error_In in Hv. apply in_map_iff in Hv as (w & Ew & Hw). eauto.
  - intros w Hw. apply Hle. apply in_map. auto.
Qed.

(** Once the chemical potentials have been removed from the ensemble, the energies of samples
    taken with them are the enthalpies. *)
Theorem C100_removed_refuted {W} (c : container W) xs steps d t ys enthalpy features (ps : list Qc) n :
  holds c xs steps -> 0 < t -> selection xs ys d t -> n <= length ps ->
  energy_rows enthalpy features (firstn n ps) n c d t = Some (map (map enthalpy) ys).
Proof.
  intros H Ht S Ln. destruct (C24_selected d H Ht) as (zs & G & S2 & I & _).
  rewrite <- (selection_unique S S2) in *.
  unfold energy_rows. rewrite G. cbn [option_bind]. rewrite opt_map_some. cbn [option_bind].
  rewrite firstn_length. replace (Nat.min n (length ps) =? n) with true by (symmetry; apply Nat.eqb_eq; lia). auto.
Qed.

(** * Species counts *)
(** Occupancy [o] has a code of the encoding of every sublattice on each of its sites. *)
Definition sub_ok (sl : sub) : Prop :=
  NoDup (s_enc sl) /\ length (s_species sl) = length (s_enc sl).
Definition occupied (sl : sub) (o : list nat) : Prop :=
  forall s, In s (s_sites sl) -> exists code, nth_error o s = Some code /\ In code (s_enc sl).
(** [o] has species [sp] on site [s] of [sl]. *)
Definition on_site (sl : sub) (o : list nat) (sp s : nat) : bool :=
  existsb (fun p => (fst p =? sp) && match nth_error o s with Some code => code =? snd p | None => false end)
    (combine (s_species sl) (s_enc sl)).
(** The number of sites with species [sp]. *)
Definition number (sls : list sub) (o : list nat) (sp : nat) : nat :=
  list_sum (map (fun sl => countb (on_site sl o sp) (s_sites sl)) sls).
Definition num_sites (sls : list sub) : nat := list_sum (map (fun sl => length (s_sites sl)) sls).

Definition has_code (o : list nat) (code s : nat) : bool :=
  match nth_error o s with Some k => k =? code | None => false end.
Definition qind (b : bool) : Qc := if b then 1%Qc else 0%Qc.

Lemma Qc_of_nat_add a b : Qc_of_nat (a + b) = (Qc_of_nat a + Qc_of_nat b)%Qc.
Proof. unfold Qc_of_nat. rewrite Nat2Z.inj_add. apply Qc_of_Z_add. Qed.
Lemma countb_qsum {A} (f : A -> bool) l : Qc_of_nat (countb f l) = qsum (map (fun x => qind (f x)) l).
Proof.
  induction l as [|x l IH]; [reflexivity|]. unfold countb in *. cbn [filter map qsum]. rewrite <- IH.
  destruct (f x); cbn [length qind]; [apply Qc_of_nat_S|ring].
Qed.
Lemma list_sum_qsum {A} (f : A -> nat) l : Qc_of_nat (list_sum (map f l)) = qsum (map (fun x => Qc_of_nat (f x)) l).
Proof. induction l as [|x l IH]; [reflexivity|]. cbn [map qsum]. rewrite <- IH, <- Qc_of_nat_add. reflexivity. Qed.

(** Counting a species is counting its codes. *)
Lemma on_site_codes o sp sites : forall species enc, NoDup enc ->
  qsum (map (fun s => qind (existsb (fun p => (fst p =? sp) && has_code o (snd p) s) (combine species enc))) sites) =
  qsum (map (fun p => if fst p =? sp then Qc_of_nat (countb (has_code o (snd p)) sites) else 0%Qc) (combine species enc)).
Proof.
  induction species as [|x species IH]; intros [|e enc] Hnd; cbn [combine map qsum existsb]; try (apply qsum_map_0; auto).
  inversion Hnd as [|? ? Hn Hnd']; subst. rewrite <- IH by auto. cbn [fst snd].
  destruct (x =? sp) eqn:Ex.
  - rewrite countb_qsum, <- qsum_map_add. apply qsum_map_ext. intros s _.
    destruct (has_code o e s) eqn:He; cbn [andb orb]; [|unfold qind; ring].
    replace (existsb _ (combine species enc)) with false; [unfold qind; ring|].
    symmetry. apply Bool.not_true_is_false. intros C. apply existsb_exists in C as ((y & e') & Hin & C).
    apply andb_prop in C as (_ & C). cbn [snd] in C. unfold has_code in *.
    destruct (nth_error o s) as [k|]; [|discriminate]. apply Nat.eqb_eq in He, C. subst.
    apply in_combine_r in Hin. auto.
  - cbn [andb orb]. ring_simplify. reflexivity.
Qed.

(** Exactly one species is on a site. *)
Lemma one_species sl o s : sub_ok sl -> occupied sl o -> In s (s_sites sl) ->
  exists sp0, In sp0 (s_species sl) /\ forall sp, on_site sl o sp s = (sp0 =? sp).
Proof.
  intros (Hnd & L) Ho Hs. destruct (Ho s Hs) as (code & E & Hc).
  apply In_nth_error in Hc as (i & Hi).
  destruct (nth_error (s_species sl) i) as [sp0|] eqn:E0.
  2:{ apply nth_error_None in E0. assert (i < length (s_enc sl)) by (apply nth_error_Some; congruence). lia. }
  exists sp0. split; [eapply nth_error_In; eauto|]. intros sp.
  assert (Hin : In (sp0, code) (combine (s_species sl) (s_enc sl))).
  { clear - Hi E0. revert i Hi E0. generalize (s_enc sl). induction (s_species sl) as [|x l IH]; intros enc i Hi E0.
    - destruct i; discriminate.
    - destruct enc as [|e enc]; [destruct i; discriminate|]. destruct i as [|i]; simpl in *.
      + inversion Hi; inversion E0; subst. auto.
      + right. eapply IH; eauto. }
  assert (U : forall sp', In (sp', code) (combine (s_species sl) (s_enc sl)) -> sp' = sp0).
  { clear - Hin Hnd. revert Hin Hnd. generalize (s_enc sl). induction (s_species sl) as [|x l IH]; intros enc Hin Hnd sp' H'.
    - destruct H'.
    - destruct enc as [|e enc]; [destruct H'|]. inversion Hnd as [|? ? Hn Hnd']; subst. simpl in *.
      destruct Hin as [Hin|Hin], H' as [H'|H'].
      + congruence.
      + inversion Hin; subst. apply in_combine_r in H'. contradiction.
      + inversion H'; subst. apply in_combine_r in Hin. contradiction.
      + eapply IH; eauto. }
  unfold on_site. rewrite E. destruct (sp0 =? sp) eqn:Es.
  - apply Nat.eqb_eq in Es. subst sp. apply existsb_exists. exists (sp0, code). split; auto.
    cbn [fst snd]. rewrite !Nat.eqb_refl. auto.
  - apply Bool.not_true_is_false. intros C. apply existsb_exists in C as ((y & e') & Hy & C).
    cbn [fst snd] in C. apply andb_prop in C as (C1 & C2). apply Nat.eqb_eq in C1, C2. subst y e'.
    apply Nat.eqb_neq in Es. apply Es. symmetry. auto.
Qed.

Lemma qind_unique keys x : NoDup keys -> In x keys -> qsum (map (fun y => qind (x =? y)) keys) = 1%Qc.
Proof.
  induction keys as [|k keys IH]; intros Hnd Hin; [destruct Hin|].
  inversion Hnd as [|? ? Hn Hnd']; subst. cbn [map qsum]. destruct Hin as [->|Hin].
  - rewrite Nat.eqb_refl. rewrite qsum_map_0; [unfold qind; ring|].
    intros y Hy. destruct (x =? y) eqn:E; auto. apply Nat.eqb_eq in E. subst. contradiction.
  - rewrite IH by auto. destruct (x =? k) eqn:E; [apply Nat.eqb_eq in E; subst; contradiction|]. unfold qind. ring.
Qed.

(** Over a list of species that has all species of the sublattices once, the numbers add up
    to the number of sites. *)
Lemma numbers_add_up sls o keys : (forall sl, In sl sls -> sub_ok sl /\ occupied sl o /\ incl (s_species sl) keys) ->
  NoDup keys -> qsum (map (fun sp => Qc_of_nat (number sls o sp)) keys) = Qc_of_nat (num_sites sls).
Proof.
  intros H Hnd. unfold num_sites. rewrite list_sum_qsum.
  rewrite (@qsum_map_ext _ (fun sp => Qc_of_nat (number sls o sp))
     (fun sp => qsum (map (fun sl => Qc_of_nat (countb (on_site sl o sp) (s_sites sl))) sls))).
  2:{ intros sp _. apply list_sum_qsum. }
  rewrite qsum_swap. apply qsum_map_ext. intros sl Hsl. destruct (H sl Hsl) as (Hok & Hocc & Hi).
  rewrite (@qsum_map_ext _ (fun sp => Qc_of_nat (countb (on_site sl o sp) (s_sites sl)))
     (fun sp => qsum (map (fun s => qind (on_site sl o sp s)) (s_sites sl)))).
  2:{ intros sp _. apply countb_qsum. }
  rewrite qsum_swap. rewrite (@qsum_map_ext _ _ (fun _ => 1%Qc)).
  - rewrite qsum_const. ring.
  - intros s Hs. destruct (one_species Hok Hocc Hs) as (sp0 & Hin & E).
    rewrite (@qsum_map_ext _ (fun sp => qind (on_site sl o sp s)) (fun sp => qind (sp0 =? sp))).
    + apply qind_unique; auto.
    + intros sp _. rewrite E. auto.
Qed.

(** ** The table *)
Section Table.
Variable W : Type.
Variable l : list W.
Definition rep (tb : table) (K : nat -> Prop) (T : W -> nat -> Qc) : Prop :=
  NoDup (map fst tb) /\ (forall sp, In sp (map fst tb) <-> K sp) /\
  (forall sp v, In (sp, v) tb -> v = map (fun w => T w sp) l) /\
  (forall sp w, ~ K sp -> In w l -> T w sp = 0%Qc).

Lemma qvadd_map (f g : W -> Qc) m : qvadd (map f m) (map g m) = map (fun w => (f w + g w)%Qc) m.
Proof. unfold qvadd, qmap2. induction m as [|x m IH]; simpl; auto. unfold qmap2 in IH. simpl in IH. rewrite IH. auto. Qed.

Lemma add_to_shape k tb sp h : (0 <= k)%Z -> Z.to_nat k = length l ->
  (forall s v, In (s, v) tb -> length v = length l) ->
  exists tb', add_to k tb sp (map h l) = Some tb' /\
    (forall s, In s (map fst tb') <-> In s (map fst tb) \/ s = sp) /\
    (NoDup (map fst tb) -> NoDup (map fst tb')) /\
    (forall s v, In (s, v) tb' ->
       (s <> sp /\ In (s, v) tb) \/
       (s = sp /\ exists v0, In (s, v0) tb /\ v = qvadd v0 (map h l)) \/
       (s = sp /\ ~ In sp (map fst tb) /\ v = qvadd (repeat 0%Qc (length l)) (map h l)) \/
       (s = sp /\ In (s, v) tb /\ ~ NoDup (map fst tb))).
Proof.
  intros Hk Ek. induction tb as [|(s & v) tb IH]; intros Hlen; cbn [add_to].
  - destruct (k <? 0)%Z eqn:E; [apply Z.ltb_lt in E; lia|].
    rewrite Ek, map_length, repeat_length, Nat.eqb_refl. eexists. split; [reflexivity|]. split; [|split].
    + intros s. simpl. split; [intros [->|[]]; auto|intros [[]| ->]; auto].
    + intros _. constructor; auto. constructor.
    + intros s v [E1|[]]. inversion E1; subst. right. right. left. split; [auto|]. split; [intros []|auto].
  - destruct (s =? sp) eqn:E.
    + apply Nat.eqb_eq in E. subst s. rewrite map_length, (Hlen sp v) by (simpl; auto). rewrite Nat.eqb_refl.
      eexists. split; [reflexivity|]. split; [|split].
      * intros s. simpl. intuition.
      * simpl. auto.
      * intros s v' [E1|H1].
        { inversion E1; subst. right. left. split; auto. exists v. simpl. auto. }
        destruct (Nat.eq_dec s sp) as [->|N]; [|left; simpl; auto].
        right. right. right. split; auto. split; [simpl; auto|]. intros C. inversion C as [|? ? C1 _]; subst.
        apply C1. change sp with (fst (sp, v')). apply in_map. auto.
    + apply Nat.eqb_neq in E. destruct IH as (tb' & E' & A & B & C); [intros; apply (Hlen s0); simpl; auto|].
      rewrite E'. cbn [option_bind]. eexists. split; [reflexivity|]. split; [|split].
      * intros s0. simpl. rewrite A. tauto.
      * simpl. intros Hnd. inversion Hnd; subst. constructor; auto. rewrite A. intros [|]; auto.
      * intros s0 v0 [E1|H1].
        { inversion E1; subst. left. simpl. auto. }
        destruct (C s0 v0 H1) as [(N & H2)|[(-> & v1 & H2 & E2)|[(-> & N & E2)|(-> & H2 & N)]]].
        -- left. simpl. auto.
        -- right. left. split; auto. exists v1. simpl. auto.
        -- right. right. left. split; auto. split; auto. simpl. intros [|]; auto.
        -- right. right. right. split; auto. split; [simpl; auto|]. intros Hnd. inversion Hnd; auto.
Qed.

Lemma add_to_rep k tb K T sp h : (0 <= k)%Z -> Z.to_nat k = length l -> rep tb K T ->
  exists tb', add_to k tb sp (map h l) = Some tb' /\
    rep tb' (fun s => K s \/ s = sp) (fun w s => (T w s + (if sp =? s then h w else 0))%Qc).
Proof.
  intros Hk Ek (R1 & R2 & R3 & R4).
  destruct (@add_to_shape k tb sp h Hk Ek) as (tb' & E & A & B & C).
  { intros s v H. rewrite (R3 s v H), map_length. auto. }
  exists tb'. split; auto. split; [auto|]. split; [|split].
  - intros s. rewrite A, R2. tauto.
  - intros s v H. destruct (C s v H) as [(N & H2)|[(-> & v1 & H2 & ->)|[(-> & N & ->)|(-> & H2 & N)]]].
    + rewrite (R3 s v H2). apply map_ext. intros w.
      destruct (sp =? s) eqn:Es; [apply Nat.eqb_eq in Es; congruence|]. ring.
    + rewrite (R3 sp v1 H2), qvadd_map, Nat.eqb_refl. auto.
    + rewrite Nat.eqb_refl. rewrite R2 in N.
      replace (repeat 0%Qc (length l)) with (map (fun _ : W => 0%Qc) l).
      2:{ clear. induction l; simpl; congruence. }
      rewrite qvadd_map. apply map_ext_in. intros w Hw. rewrite (R4 sp w N Hw). auto.
    + contradiction.
  - intros s w N Hw. rewrite R4 by tauto. destruct (sp =? s) eqn:Es; [|ring].
    apply Nat.eqb_eq in Es. subst. tauto.
Qed.

Lemma rep_ext tb K K' T T' : rep tb K T -> (forall s, K s <-> K' s) ->
  (forall w s, In w l -> T w s = T' w s) -> rep tb K' T'.
Proof.
  intros (R1 & R2 & R3 & R4) HK HT. split; [auto|]. split; [|split].
  - intros s. rewrite R2. apply HK.
  - intros s v H. rewrite (R3 s v H). apply map_ext_in. intros w Hw. auto.
  - intros s w N Hw. rewrite <- HT by auto. apply R4; auto. rewrite HK. auto.
Qed.

Lemma add_all_rep k (ps : list (nat * (W -> Qc))) : (0 <= k)%Z -> Z.to_nat k = length l -> forall tb K T, rep tb K T ->
  exists tb', add_all k tb (map (fun p => (fst p, map (snd p) l)) ps) = Some tb' /\
    rep tb' (fun s => K s \/ In s (map fst ps))
      (fun w s => (T w s + qsum (map (fun p => if fst p =? s then snd p w else 0) ps))%Qc).
Proof.
  intros Hk Ek. induction ps as [|(sp & h) ps IH]; intros tb K T R; cbn [map add_all fst snd].
  - exists tb. split; auto. apply (rep_ext R); [simpl; tauto|]. intros w s _. simpl. ring.
  - destruct (@add_to_rep k tb K T sp h Hk Ek R) as (tb1 & E1 & R1). rewrite E1. cbn [option_bind].
    destruct (IH _ _ _ R1) as (tb2 & E2 & R2). exists tb2. split; auto.
    apply (rep_ext R2).
    + intros s. simpl. split; [intros [[|]|]; auto|intros [|[|]]; auto].
    + intros w s _. cbn [qsum]. ring.
Qed.
End Table.

Lemma column_map {W} (f : W -> nat -> Qc) (enc : list nat) (l : list W) :
  map (fun j => column j (map (fun w => map (f w) enc) l)) (seq 0 (length enc)) =
  map (fun e => map (fun w => f w e) l) enc.
Proof.
  apply nth_error_ext. intros j. rewrite !nth_error_map.
  destruct (nth_error enc j) as [e|] eqn:E.
  - assert (j < length enc) by (apply nth_error_Some; congruence).
    rewrite nth_error_nth' with (d := 0) by (rewrite seq_length; auto). rewrite seq_nth by auto.
    cbn [option_map plus]. f_equal. unfold column. rewrite map_map. apply map_ext. intros w.
    apply nth_error_nth. rewrite nth_error_map, E. auto.
  - apply nth_error_None in E. replace (nth_error (seq 0 (length enc)) j) with (@None nat); auto.
    symmetry. apply nth_error_None. rewrite seq_length. auto.
Qed.

Section Counts.
Variable W : Type.
Variables (c : container W) (xs : list (sample W)) (steps d t : nat) (l : list W) (occu : W -> list nat).
Hypothesis Hc : holds c xs steps.
Hypothesis Ht : 0 < t.
Hypothesis Hsel : selected xs d t l.

Lemma sub_counts_are sl : sub_ok sl -> (forall w, In w l -> occupied sl (occu w)) ->
  sub_counts occu sl c d t =
    Some (flatten (length (s_enc sl)) (map (fun w => map (fun e => Qc_of_nat (countb (has_code (occu w) e) (s_sites sl))) (s_enc sl)) l)).
Proof.
  intros (Hnd & _) Ho. unfold sub_counts. rewrite (selected_flat Hc Ht Hsel). cbn [option_bind].
  rewrite (@opt_map_map _ _ _ (fun w => map (fun e => countb (has_code (occu w) e) (s_sites sl)) (s_enc sl))).
  - cbn [option_bind]. rewrite map_map. do 2 f_equal. apply map_ext. intros w. rewrite map_map. auto.
  - intros w Hw. destruct (@C65_species_counts (s_sites sl) (s_enc sl) (occu w) Hnd (Ho w Hw)) as (cnts & E & L & _ & N).
    rewrite E. f_equal. apply nth_error_ext. intros i. rewrite nth_error_map.
    destruct (nth_error (s_enc sl) i) as [e|] eqn:Ee.
    + rewrite (N i e Ee). auto.
    + simpl. apply nth_error_None in Ee. apply nth_error_None. lia.
Qed.

(** All sites have the only code of the encoding. *)
Lemma only_code sl e o : occupied sl o -> s_enc sl = [e] -> countb (has_code o e) (s_sites sl) = length (s_sites sl).
Proof.
  intros Ho E. unfold occupied in Ho. rewrite E in Ho. unfold countb. f_equal. revert Ho.
  generalize (s_sites sl). intros sites Ho. induction sites as [|s sites IH]; auto. simpl.
  destruct (Ho s) as (code & E1 & [->|[]]); [simpl; auto|]. unfold has_code at 1. rewrite E1, Nat.eqb_refl.
  f_equal. apply IH. intros x Hx. apply Ho. simpl; auto.
Qed.

Lemma zip_columns sl : sub_ok sl -> (forall w, In w l -> occupied sl (occu w)) ->
  l <> [] -> length l <> 1 \/ length (s_enc sl) <> 1 ->
  exists cols,
    columns (Z.of_nat (length l)) (length (s_enc sl))
      (flatten (length (s_enc sl)) (map (fun w => map (fun e => Qc_of_nat (countb (has_code (occu w) e) (s_sites sl))) (s_enc sl)) l)) = Some cols /\
    combine (s_species sl) cols =
    map (fun p => (fst p, map (snd p) l))
      (map (fun p => (fst p, fun w => Qc_of_nat (countb (has_code (occu w) (snd p)) (s_sites sl)))) (combine (s_species sl) (s_enc sl))).
Proof.
  intros (Hnd & L) Ho Hne H1.
  assert (Std : combine (s_species sl) (map (fun e => map (fun w => Qc_of_nat (countb (has_code (occu w) e) (s_sites sl))) l) (s_enc sl)) =
    map (fun p => (fst p, map (snd p) l))
      (map (fun p => (fst p, fun w => Qc_of_nat (countb (has_code (occu w) (snd p)) (s_sites sl)))) (combine (s_species sl) (s_enc sl)))).
  { rewrite map_map. cbn [fst snd]. generalize (s_species sl). generalize (s_enc sl).
    intros enc. induction enc as [|e enc IH]; intros [|sp species]; simpl; auto. rewrite IH. auto. }
  destruct l as [|w1 [|w2 m]] eqn:El; [congruence| |].
  - cbn [map flatten]. destruct (length (s_enc sl) =? 1) eqn:E1.
    + apply Nat.eqb_eq in E1. simpl in H1. lia.
    + cbn [columns]. eexists. split; [reflexivity|]. rewrite map_map. exact Std.
  - unfold flatten. destruct (length (s_enc sl) =? 1) eqn:E1.
    + apply Nat.eqb_eq in E1. destruct (s_enc sl) as [|e [|e2 enc]] eqn:Ee; try discriminate.
      destruct (s_species sl) as [|sp [|sp2 sps]] eqn:Es; try discriminate.
      cbn [map]. cbn [columns map]. eexists. split; [reflexivity|]. cbn [combine map fst snd]. do 3 f_equal.
      assert (Hall : forall w, In w (w1 :: w2 :: m) -> countb (has_code (occu w) e) (s_sites sl) = length (s_sites sl)).
      { intros w Hw. apply (only_code (sl := sl)); auto. }
      transitivity (map (fun _ : W => Qc_of_nat (length (s_sites sl))) (w1 :: w2 :: m)).
      * cbn [nth]. rewrite (Hall w1) by (simpl; auto). rewrite Nat2Z.id.
        assert (Hr : forall (k : list W) (x : Qc), repeat x (length k) = map (fun _ => x) k).
        { intros k x. induction k; simpl; congruence. }
        apply Hr.
      * symmetry. change (Qc_of_nat (countb (has_code (occu w1) e) (s_sites sl))
           :: Qc_of_nat (countb (has_code (occu w2) e) (s_sites sl))
           :: map (fun w => Qc_of_nat (countb (has_code (occu w) e) (s_sites sl))) m) with
          (map (fun w => Qc_of_nat (countb (has_code (occu w) e) (s_sites sl))) (w1 :: w2 :: m)).
        apply map_ext_in. intros w Hw. rewrite Hall; auto.
    + cbn [map columns]. eexists. split; [reflexivity|].
      pose proof (column_map (fun w e => Qc_of_nat (countb (has_code (occu w) e) (s_sites sl))) (s_enc sl) (w1 :: w2 :: m)) as CM.
      cbn [map] in CM. rewrite CM. exact Std.
Qed.

Lemma counts_loop k sls : k = Z.of_nat (length l) -> l <> [] ->
  (forall sl, In sl sls -> sub_ok sl /\ (forall w, In w l -> occupied sl (occu w)) /\ (length l <> 1 \/ length (s_enc sl) <> 1)) ->
  forall tb K T, rep l tb K T ->
  exists tb', species_counts_loop occu k sls tb c d t = Some tb' /\
    rep l tb' (fun s => K s \/ exists sl, In sl sls /\ In s (s_species sl))
      (fun w s => (T w s + Qc_of_nat (number sls (occu w) s))%Qc).
Proof.
  intros Ek Hne. induction sls as [|sl sls IH]; intros Hsl tb K T R; cbn [species_counts_loop].
  - exists tb. split; auto. apply (rep_ext R).
    + intros s. split; auto. intros [|(? & [] & _)]; auto.
    + intros w s _. unfold number. cbn. change (Qc_of_nat 0) with 0%Qc. ring.
  - destruct (Hsl sl) as (Hok & Ho & H1); [simpl; auto|].
    rewrite sub_counts_are by auto. cbn [option_bind].
    destruct (zip_columns Hok Ho Hne H1) as (cols & E & Z). rewrite Ek, E. cbn [option_bind]. rewrite Z.
    destruct (@add_all_rep W l (Z.of_nat (length l))
        (map (fun p => (fst p, fun w => Qc_of_nat (countb (has_code (occu w) (snd p)) (s_sites sl)))) (combine (s_species sl) (s_enc sl))))
      with (tb := tb) (K := K) (T := T) as (tb1 & E1 & R1); [lia|lia|auto|].
    rewrite E1. cbn [option_bind]. rewrite <- Ek.
    destruct (IH (fun sl' H => Hsl sl' (or_intror H)) _ _ _ R1) as (tb2 & E2 & R2).
    exists tb2. split; auto. apply (rep_ext R2).
    + intros s. rewrite map_map. cbn [fst].
      assert (X : In s (map (fun p : nat * nat => fst p) (combine (s_species sl) (s_enc sl))) <-> In s (s_species sl)).
      { destruct Hok as (_ & L). clear - L. revert L. generalize (s_enc sl). induction (s_species sl) as [|x m IHm]; intros [|e enc] L; simpl in *; try lia; try tauto.
        rewrite IHm by lia. tauto. }
      rewrite X. split.
      * intros [[|]|(sl' & H' & H2)]; auto; right; [exists sl|exists sl']; simpl; auto.
      * intros [|(sl' & [<-|H'] & H2)]; auto. right. eauto.
    + intros w s Hw. unfold number at 2. cbn [map list_sum fold_right].
      change (fold_right Nat.add 0 (map (fun sl => countb (on_site sl (occu w) s) (s_sites sl)) sls)) with (number sls (occu w) s).
      rewrite Qc_of_nat_add. rewrite map_map. cbn [fst snd].
      assert (X : Qc_of_nat (countb (on_site sl (occu w) s) (s_sites sl)) =
        qsum (map (fun p => if fst p =? s then Qc_of_nat (countb (has_code (occu w) (snd p)) (s_sites sl)) else 0%Qc) (combine (s_species sl) (s_enc sl)))).
      { rewrite countb_qsum. rewrite <- on_site_codes by (apply Hok). reflexivity. }
      rewrite X. ring.
Qed.

(** C101: the counts of every selected occupancy, in order: the species are those of the
    sublattices, each once, and every count is the number of sites with the species.
    Missing: a single selected occupancy and a sublattice with a single species. *)
Theorem C101_species_counts_partial walkers sls :
  l <> [] -> (forall x, In x xs -> length x = walkers) ->
  (forall sl, In sl sls -> sub_ok sl /\ (forall w, In w l -> occupied sl (occu w)) /\ (length l <> 1 \/ length (s_enc sl) <> 1)) ->
  exists tb, species_counts occu walkers sls c d t = Some tb /\ NoDup (map fst tb) /\
    (forall sp, In sp (map fst tb) <-> exists sl, In sl sls /\ In sp (s_species sl)) /\
    forall sp v, In (sp, v) tb -> v = map (fun w => Qc_of_nat (number sls (occu w) sp)) l.
Proof.
  intros Hne Hw Hsl. destruct Hsel as (ys & (Ly & Ny) & El).
  assert (Hys : length l = walkers * length ys).
  { rewrite El. assert (A : forall y, In y ys -> length y = walkers).
    { intros y Hy. apply In_nth_error in Hy as (k & Hk). rewrite Ny in Hk. apply nth_error_In in Hk. auto. }
    clear - A. induction ys as [|y ys IH]; [simpl; lia|]. cbn [concat]. rewrite app_length, IH by (intros; apply A; simpl; auto).
    rewrite (A y) by (simpl; auto). simpl. lia. }
  assert (Hp : 0 < length ys). { destruct ys; [rewrite El in Hne; simpl in Hne; congruence|simpl; lia]. }
  assert (Hd : d <= length xs).
  { destruct (le_lt_dec d (length xs)) as [|G]; auto. rewrite Ly in Hp.
    replace (length xs - d) with 0 in Hp by lia. rewrite Nat.div_0_l in Hp by lia. lia. }
  destruct Hc as (_ & Hn & _).
  unfold species_counts. destruct (t =? 0) eqn:E0; [apply Nat.eqb_eq in E0; lia|].
  destruct (@counts_loop (Z.of_nat walkers * ((Z.of_nat (c_n c) - Z.of_nat d) / Z.of_nat t))%Z sls) with
    (tb := @nil (nat * list Qc)) (K := fun _ : nat => False) (T := fun (_ : W) (_ : nat) => 0%Qc) as (tb & E & R1 & R2 & R3 & _); auto.
  - rewrite Hn, <- Nat2Z.inj_sub by auto. rewrite <- Nat2Z.inj_div. rewrite <- Ly. lia.
  - split; [constructor|]. split; [simpl; tauto|]. split; [intros ? ? []|auto].
  - exists tb. split; [exact E|]. split; auto. split.
    + intros sp. rewrite R2. tauto.
    + intros sp v H. rewrite (R3 sp v H). apply map_ext. intros w. ring.
Qed.

(** C101: compositions are fractions of the sites; when the sublattices have every site once
    they add up to one for every selected occupancy. *)
Theorem C101_compositions_partial walkers sls sites :
  l <> [] -> (forall x, In x xs -> length x = walkers) ->
  (forall sl, In sl sls -> sub_ok sl /\ (forall w, In w l -> occupied sl (occu w)) /\ (length l <> 1 \/ length (s_enc sl) <> 1)) ->
  0 < sites -> num_sites sls = sites ->
  exists tb, compositions occu walkers sites sls c d t = Some tb /\ NoDup (map fst tb) /\
    (forall sp, In sp (map fst tb) <-> exists sl, In sl sls /\ In sp (s_species sl)) /\
    (forall sp v, In (sp, v) tb -> v = map (fun w => Qc_of_nat (number sls (occu w) sp) / Qc_of_nat sites)%Qc l) /\
    (forall i, i < length l -> qsum (map (fun p => nth i (snd p) 0%Qc) tb) = 1%Qc).
Proof.
  intros Hne Hw Hsl Hs Hn. destruct (C101_species_counts_partial Hne Hw Hsl) as (tb & E & Hnd & Hk & Hv).
  unfold compositions. rewrite E. cbn [option_bind]. eexists. split; [reflexivity|].
  rewrite map_map. cbn [fst]. split; [auto|]. split; [auto|].
  assert (V : forall sp v, In (sp, v) (map (fun p : nat * list Qc => (fst p, map (fun x => (x / Qc_of_nat sites)%Qc) (snd p))) tb) ->
     v = map (fun w => (Qc_of_nat (number sls (occu w) sp) / Qc_of_nat sites)%Qc) l).
  { intros sp v H. apply in_map_iff in H as ((sp' & v') & E1 & H). inversion E1; subst. cbn [fst snd].
    rewrite (Hv _ _ H), map_map. auto. }
  split; [exact V|].
  intros i Hi. destruct (nth_error l i) as [w|] eqn:Ew; [|apply nth_error_None in Ew; lia].
  rewrite map_map. cbn [snd].
  rewrite (@qsum_map_ext _ _ (fun p => Qc_of_nat (number sls (occu w) (fst p)) * / Qc_of_nat sites)%Qc).
  - rewrite qsum_map_scale_r.
    rewrite <- (map_map fst (fun sp => Qc_of_nat (number sls (occu w) sp))). rewrite numbers_add_up.
    + rewrite Hn. field. apply Qc_of_nat_nz. lia.
    + intros sl Hsl'. destruct (Hsl sl Hsl') as (A & B & _). split; [exact A|]. split; [apply B; eapply nth_error_In; eauto|].
      intros sp Hsp. apply Hk. eauto.
    + exact Hnd.
  - intros (sp & v) H. cbn [fst snd]. apply nth_error_nth. rewrite nth_error_map, (Hv _ _ H), nth_error_map, Ew. auto.
Qed.

(** ... and so do the mean compositions. *)
Theorem C101_mean_compositions_partial walkers sls sites :
  l <> [] -> (forall x, In x xs -> length x = walkers) ->
  (forall sl, In sl sls -> sub_ok sl /\ (forall w, In w l -> occupied sl (occu w)) /\ (length l <> 1 \/ length (s_enc sl) <> 1)) ->
  0 < sites -> num_sites sls = sites ->
  exists ms vs, composition_stat mean occu walkers sites sls c d t = Some ms /\
    composition_stat variance occu walkers sites sls c d t = Some vs /\
    (forall sp a, In (sp, a) ms -> is_mean (fun w => Qc_of_nat (number sls (occu w) sp) / Qc_of_nat sites)%Qc l a) /\
    (forall sp a, In (sp, a) vs -> is_variance (fun w => Qc_of_nat (number sls (occu w) sp) / Qc_of_nat sites)%Qc l a) /\
    (forall sp, In sp (map fst ms) <-> exists sl, In sl sls /\ In sp (s_species sl)) /\ map fst vs = map fst ms /\
    qsum (map snd ms) = 1%Qc.
Proof.
  intros Hne Hw Hsl Hs Hn. destruct (C101_compositions_partial Hne Hw Hsl Hs Hn) as (tb & E & Hnd & Hk & Hv & H1).
  assert (X : forall stat, composition_stat stat occu walkers sites sls c d t = Some (map (fun p => (fst p, stat (snd p))) tb)).
  { intros stat. unfold composition_stat. rewrite E. cbn [option_bind]. apply opt_map_map. intros (sp & v) H.
    cbn [fst snd]. rewrite (Hv _ _ H). destruct l; [congruence|reflexivity]. }
  rewrite !X. eexists _, _. split; [reflexivity|]. split; [reflexivity|]. repeat split.
  - intros sp a H. apply in_map_iff in H as ((sp' & v) & E1 & H). cbn [fst snd] in E1. inversion E1; subst.
    rewrite (Hv _ _ H). apply mean_is; auto.
  - intros sp a H. apply in_map_iff in H as ((sp' & v) & E1 & H). cbn [fst snd] in E1. inversion E1; subst.
    rewrite (Hv _ _ H). apply variance_is; auto.
  - rewrite map_map. cbn [fst]. apply Hk.
  - rewrite map_map. cbn [fst]. apply Hk.
  - rewrite !map_map. auto.
  - rewrite map_map. cbn [snd].
    assert (N : Qc_of_nat (length l) <> 0%Qc) by (apply Qc_of_nat_nz; destruct l; simpl; congruence).
    assert (Y : (Qc_of_nat (length l) * qsum (map (fun p => mean (snd p)) tb) = Qc_of_nat (length l))%Qc).
    { rewrite <- qsum_map_scale.
      rewrite (@qsum_map_ext _ _ (fun p => qsum (map (fun i => nth i (snd p) 0%Qc) (seq 0 (length l))))).
      - rewrite qsum_swap. rewrite (@qsum_map_ext _ _ (fun _ => 1%Qc)).
        + rewrite qsum_const, seq_length. ring.
        + intros i Hi. apply in_seq in Hi. apply H1. lia.
      - intros (sp & v) H. cbn [snd]. assert (L : length v = length l) by (rewrite (Hv _ _ H), map_length; auto).
        unfold mean. rewrite L. replace (map (fun i => nth i v 0%Qc) (seq 0 (length l))) with v.
        + field. auto.
        + rewrite <- L. apply nth_error_ext. intros i. rewrite nth_error_map.
          destruct (nth_error v i) as [x|] eqn:Ex.
          * assert (i < length v) by (apply nth_error_Some; congruence).
            rewrite nth_error_nth' with (d := 0) by (rewrite seq_length; auto). rewrite seq_nth by auto.
            simpl. f_equal. symmetry. apply nth_error_nth. auto.
          * apply nth_error_None in Ex. replace (nth_error (seq 0 (length v)) i) with (@None nat); auto.
            symmetry. apply nth_error_None. rewrite seq_length. auto. }
    assert (Z : (Qc_of_nat (length l) * (qsum (map (fun p => mean (snd p)) tb) - 1) = 0)%Qc).
    { replace (Qc_of_nat (length l) * (qsum (map (fun p => mean (snd p)) tb) - 1))%Qc
        with (Qc_of_nat (length l) * qsum (map (fun p => mean (snd p)) tb) - Qc_of_nat (length l))%Qc by ring. rewrite Y. ring. }
    apply Qcmult_integral in Z as [Z|Z]; [contradiction|].
    replace (qsum (map (fun p => mean (snd p)) tb)) with ((qsum (map (fun p => mean (snd p)) tb) - 1) + 1)%Qc by ring.
    rewrite Z. ring.
Qed.

(** A single occupancy and a sublattice with a single species: raises. *)
Theorem C101_single_refuted walkers w sl sls e : l = [w] -> sub_ok sl -> occupied sl (occu w) -> s_enc sl = [e] ->
  species_counts occu walkers (sl :: sls) c d t = None.
Proof.
  intros El Hok Ho Ee. unfold species_counts. destruct (t =? 0); auto. cbn [species_counts_loop].
  rewrite sub_counts_are; auto; [|rewrite El; intros w' [<-|[]]; auto].
  rewrite El, Ee. reflexivity.
Qed.
End Counts.

(** * Compositions of a sublattice *)
Lemma scale_flatten q k rows : scale q (flatten k rows) = flatten k (map (map (fun x => x / q)%Qc) rows).
Proof.
  assert (Z : (0 / q = 0)%Qc) by (unfold Qcdiv; ring).
  assert (N : forall r, nth 0 (map (fun x => x / q)%Qc r) 0%Qc = (nth 0 r 0 / q)%Qc).
  { intros [|x r]; simpl; auto. }
  unfold flatten. destruct rows as [|r [|r2 rows]]; cbn [map].
  - destruct (k =? 1); auto.
  - destruct (k =? 1); cbn [scale]; auto. rewrite N. auto.
  - destruct (k =? 1); cbn [scale map]; auto. rewrite !N. do 3 f_equal. rewrite !map_map. apply map_ext. auto.
Qed.

(** C101: the mean and the variance of the composition of a sublattice, over at least two
    selected occupancies.  Missing: a single one, for which the result is the mean over the
    species. *)
Theorem C101_sublattice_partial {W} (c : container W) xs steps d t l (occu : W -> list nat) sl :
  holds c xs steps -> 0 < t -> selected xs d t l -> 2 <= length l -> 0 < length (s_sites sl) ->
  sub_ok sl -> (forall w, In w l -> occupied sl (occu w)) ->
  exists m v, sub_composition_stat mean occu sl c d t = Some m /\ sub_composition_stat variance occu sl c d t = Some v /\
    of_size (length (s_enc sl)) m /\ of_size (length (s_enc sl)) v /\
    forall j code, nth_error (s_enc sl) j = Some code -> exists a b, entry m j = Some a /\ entry v j = Some b /\
      is_mean (fun w => Qc_of_nat (countb (fun s => match nth_error (occu w) s with Some k => k =? code | None => false end)
                 (s_sites sl)) / Qc_of_nat (length (s_sites sl)))%Qc l a /\
      is_variance (fun w => Qc_of_nat (countb (fun s => match nth_error (occu w) s with Some k => k =? code | None => false end)
                 (s_sites sl)) / Qc_of_nat (length (s_sites sl)))%Qc l b.
Proof.
  intros Hc Ht Hs L Hp Hok Ho.
  set (value := fun w => map (fun e => Qc_of_nat (countb (has_code (occu w) e) (s_sites sl)) / Qc_of_nat (length (s_sites sl)))%Qc (s_enc sl)).
  assert (E : sub_compositions occu sl c d t = Some (flatten (length (s_enc sl)) (map value l))).
  { unfold sub_compositions. rewrite (sub_counts_are Hc Ht Hs Hok Ho). cbn [option_bind].
    destruct (length (s_sites sl) =? 0) eqn:E0; [apply Nat.eqb_eq in E0; lia|]. rewrite scale_flatten, map_map.
    do 2 f_equal. apply map_ext. intros w. unfold value. rewrite map_map. auto. }
  unfold sub_composition_stat. rewrite E. cbn [option_bind].
  destruct (@along0_ok W mean is_mean value (length (s_enc sl)) l) as (m & Em & Sm & Hm); auto.
  { intros. apply mean_is; auto. }
  destruct (@along0_ok W variance is_variance value (length (s_enc sl)) l) as (v & Ev & Sv & Hv); auto.
  { intros. apply variance_is; auto. }
  exists m, v. repeat (split; [auto|]). intros j code Hj.
  assert (Hlt : j < length (s_enc sl)) by (apply nth_error_Some; congruence).
  destruct (Hm j Hlt) as (a & Ea & Ma). destruct (Hv j Hlt) as (b & Eb & Vb).
  exists a, b. split; auto. split; auto.
  assert (X : forall w, nth j (value w) 0%Qc = (Qc_of_nat (countb (has_code (occu w) code) (s_sites sl)) / Qc_of_nat (length (s_sites sl)))%Qc).
  { intros w. apply nth_error_nth. unfold value. rewrite nth_error_map, Hj. auto. }
  split.
  - unfold is_mean in *. rewrite Ma. f_equal. apply map_ext. auto.
  - destruct Vb as (a' & Ma' & Vb). exists a'. split.
    + unfold is_mean in *. rewrite Ma'. f_equal. apply map_ext. auto.
    + rewrite Vb. f_equal. apply map_ext. intros w. rewrite X. auto.
Qed.

(** * Orbit factors *)
(** The factor of orbit [i] in a sample: the sum of parameter times feature over the
    functions of the orbit. *)
Definition factor (params : list Qc) (ids : list nat) (fs : list Qc) (i : nat) : Qc :=
  qsum (map (fun f => nth f params 0 * nth f fs 0)%Qc (filter (fun f => nth f ids 0 =? i) (seq 0 (length ids)))).

Lemma masked_sum i : forall ids params fs : list _, length ids = length fs -> length params = length fs ->
  qsum (map snd (filter fst (combine (map (fun o => o =? i) ids) (qmap2 Qcmult params fs)))) = factor params ids fs i.
Proof.
  unfold factor, qmap2. induction ids as [|o ids IH]; intros params fs L1 L2; auto.
  destruct fs as [|x fs]; [discriminate|]. destruct params as [|p params]; [discriminate|].
  simpl in L1, L2. injection L1 as L1. injection L2 as L2. specialize (IH params fs L1 L2).
  cbn [map combine length seq filter fst]. change (nth 0 (o :: ids) 0) with o.
  assert (S0 : qsum (map (fun f => nth f (p :: params) 0 * nth f (x :: fs) 0)%Qc
            (filter (fun f => nth f (o :: ids) 0 =? i) (seq 1 (length ids)))) =
          qsum (map (fun f => nth f params 0 * nth f fs 0)%Qc (filter (fun f => nth f ids 0 =? i) (seq 0 (length ids))))).
  { rewrite <- seq_shift. generalize (seq 0 (length ids)). intros m. induction m as [|k m IHm]; auto.
    cbn [map filter]. change (nth (S k) (o :: ids) 0) with (nth k ids 0).
    destruct (nth k ids 0 =? i); cbn [map qsum]; rewrite IHm; auto. }
  destruct (o =? i); cbn [map qsum snd fst]; rewrite S0, <- IH; auto.
Qed.

(** C102: the orbit factors of a single selected sample.  Missing: more samples. *)
Theorem C102_single_partial {W} (c : container W) xs steps d t w (features : W -> list Qc) params ids :
  holds c xs steps -> 0 < t -> selected xs d t [w] -> length (features w) = length params -> 2 <= length params ->
  length ids = length params ->
  orbit_factors features params ids c d t = Some (map (factor params ids (features w)) (seq 0 (length params))).
Proof.
  intros H Ht S L K Li. pose proof (selected_flat H Ht S) as F.
  unfold orbit_factors, get_values. rewrite F. cbn [option_bind map flatten].
  replace (length params =? 1) with false by (symmetry; apply Nat.eqb_neq; lia).
  cbn [times option_bind]. rewrite L, Nat.eqb_refl. cbn [option_bind]. apply opt_map_map. intros i _.
  cbn [orbit_factor]. unfold masked. rewrite map_length. unfold qmap2 at 1.
  rewrite map_length, combine_length, L, Nat.min_id, Li, Nat.eqb_refl. cbn [option_bind].
  f_equal. apply masked_sum; lia.
Qed.

(** Two or more selected samples: an error unless there are as many samples as functions,
    and then the mask selects samples: factor [i] is the sum of the energies of the samples
    whose number is that of a function of orbit [i]. *)
Theorem C102_samples_refuted {W} (c : container W) xs steps d t l (features : W -> list Qc) params ids :
  holds c xs steps -> 0 < t -> selected xs d t l -> 2 <= length l -> 2 <= length params ->
  (forall w, In w l -> length (features w) = length params) ->
  (length ids <> length l -> orbit_factors features params ids c d t = None) /\
  (length ids = length l -> orbit_factors features params ids c d t =
     Some (map (fun i => qsum (map (fun p => qdot params (features (snd p))) (filter (fun p => fst p =? i) (combine ids l))))
            (seq 0 (length params)))).
Proof.
  intros H Ht S L K Lf. pose proof (selected_flat H Ht S) as F.
  set (rows := map (fun w => qmap2 Qcmult params (features w)) l).
  assert (E : orbit_factors features params ids c d t =
    opt_map (fun i => orbit_factor ids i (Mat rows)) (seq 0 (length params))).
  { unfold orbit_factors, get_values. rewrite F. cbn [option_bind].
    assert (X : opt_map (fun r => if length r =? length params then Some (qmap2 Qcmult params r) else None) (map features l) = Some rows).
    { unfold rows. rewrite <- (map_map features (fun r => qmap2 Qcmult params r)). apply opt_map_map.
      intros r Hr. apply in_map_iff in Hr as (w & <- & Hw). rewrite Lf, Nat.eqb_refl by auto. auto. }
    destruct l as [|w1 [|w2 m]]; [simpl in L; lia|simpl in L; lia|].
    unfold flatten. cbn [map] in *. replace (length params =? 1) with false by (symmetry; apply Nat.eqb_neq; lia).
    cbn [times]. rewrite X. auto. }
  rewrite E. assert (Lr : length rows = length l) by apply map_length. split.
  - intros N. destruct params as [|p ps]; [simpl in K; lia|]. cbn [length seq opt_map orbit_factor].
    unfold masked. rewrite map_length, Lr. replace (length ids =? length l) with false by (symmetry; apply Nat.eqb_neq; auto).
    auto.
  - intros Eq. apply opt_map_map. intros i _. cbn [orbit_factor]. unfold masked. rewrite map_length, Lr, Eq, Nat.eqb_refl.
    cbn [option_bind]. f_equal. unfold rows. clear - Lf.
    revert Lf. revert ids. induction l as [|w m IH]; intros ids Lf; [destruct ids; auto|].
    destruct ids as [|o ids]; [auto|]. cbn [map combine filter fst]. specialize (IH ids (fun w' Hw => Lf w' (or_intror Hw))).
    assert (D : forall u v : list Qc, qsum (qmap2 Qcmult u v) = qdot u v).
    { unfold qmap2. induction u as [|x u IHu]; intros [|y v]; cbn; auto. rewrite <- IHu. auto. }
    destruct (o =? i); cbn [map concat snd qsum]; auto. rewrite qsum_app, D, IH. auto.
Qed.

Print Assumptions C100_mean_between.
Print Assumptions C100_variance_square.
Print Assumptions C100_statistics_partial.
Print Assumptions C100_single_refuted.
Print Assumptions C100_walkers.
Print Assumptions C100_energies_partial.
Print Assumptions C100_minimum_energy_partial.
Print Assumptions C100_removed_refuted.
Print Assumptions C101_species_counts_partial.
Print Assumptions C101_compositions_partial.
Print Assumptions C101_mean_compositions_partial.
Print Assumptions C101_sublattice_partial.
Print Assumptions C101_single_refuted.
Print Assumptions C102_single_partial.
Print Assumptions C102_samples_refuted.

(** * Cases *)
(** Two samples of two walkers on four sites: sites 0 and 1 have species 7 or 8 (codes 0, 1),
    sites 2 and 3 species 8 or 9 (codes 5, 4). *)
Definition ex_w : Type := list nat.
Definition ex_xs : list (sample ex_w) := [[[0; 1; 5; 5]; [1; 1; 5; 4]]; [[0; 0; 4; 4]; [0; 1; 4; 4]]].
Definition ex_c : container ex_w := mkC (map Some ex_xs) 2 20.
Definition ex_sls : list sub := [mkSub [0; 1] [0; 1] [7; 8]; mkSub [2; 3] [5; 4] [8; 9]].
Lemma ex_holds : holds ex_c ex_xs 20.
Proof. repeat split. Qed.
Lemma ex_selection : selection ex_xs ex_xs 0 1.
Proof. split; [reflexivity|]. intros k. rewrite Nat.mul_1_r. replace (0 + (k + 1) - 1) with k by lia. auto. Qed.

(** One number of sites with code 1 and one with code 4 as features, parameters 3 and 1/2
    and a third parameter for the chemical term. *)
Definition ex_features (o : ex_w) : list Qc :=
  [Qc_of_nat (count_occ Nat.eq_dec o 1); Qc_of_nat (count_occ Nat.eq_dec o 4); Qc_of_nat (count_occ Nat.eq_dec o 0)].
Definition ex_ps : list Qc := [Qc_of_nat 3; Qc_frac 1 2; Qc_of_nat 1].
Definition ex_enthalpy (o : ex_w) : Qc := qdot (ex_features o) ex_ps.

Example C100_case : let l := concat ex_xs in
  (exists a, mean_values ex_features 3 ex_c 0 1 = Some a /\ of_size 3 a /\
     entry a 0 = Some 1%Qc /\ entry a 1 = Some (Qc_frac 5 4)) /\
  energy_rows ex_enthalpy ex_features ex_ps 2 ex_c 0 1 = Some (map (map (energy_of ex_features ex_ps 2)) ex_xs) /\
  energy_rows ex_enthalpy ex_features (firstn 2 ex_ps) 2 ex_c 0 1 = Some (map (map ex_enthalpy) ex_xs) /\
  energy_of ex_features ex_ps 2 [0; 0; 4; 4] <> ex_enthalpy [0; 0; 4; 4].
Proof.
  intros l. split; [|split; [|split]].
  - destruct (@C100_statistics_partial ex_w ex_c ex_xs 20 0 1 l ex_features 3 ex_holds) as ((a & E & S & H) & _);
      [lia|exists ex_xs; split; [apply ex_selection|reflexivity]|simpl; lia|].
    exists a. split; auto. split; auto.
    destruct (H 0) as (x & Ex & _); [lia|]. destruct (H 1) as (y & Ey & _); [lia|].
    clear H S. vm_compute in E. inversion E; subst a. split; vm_compute; f_equal; apply Qc_is_canon; reflexivity.
  - apply (@C100_energies_partial ex_w ex_c ex_xs 20 0 1 ex_xs ex_enthalpy ex_features ex_ps ex_ps 2 ex_holds); simpl; auto; try lia.
    + apply ex_selection.
    + discriminate.
    + intros s w _ _. split; reflexivity.
  - apply (@C100_removed_refuted ex_w ex_c ex_xs 20 0 1 ex_xs ex_enthalpy ex_features ex_ps 2 ex_holds); simpl; auto. apply ex_selection.
  - vm_compute. intros C. discriminate.
Qed.

Example C101_case : exists tb, species_counts (fun w => w) 2 ex_sls ex_c 0 1 = Some tb /\
  map fst tb = [7; 8; 9] /\ map (fun sp => number ex_sls [0; 1; 5; 5] sp) [7; 8; 9] = [1; 3; 0] /\
  (exists tb2, compositions (fun w => w) 2 4 ex_sls ex_c 0 1 = Some tb2 /\
     forall i, i < 4 -> qsum (map (fun p => nth i (snd p) 0%Qc) tb2) = 1%Qc) /\
  species_counts (fun w : ex_w => w) 1 [mkSub [0] [0] [7]] (mkC [Some [[0]]] 1 1) 0 1 = None.
Proof.
  assert (Hsel : selected ex_xs 0 1 (concat ex_xs)) by (exists ex_xs; split; [apply ex_selection|reflexivity]).
  assert (Hw : forall x, In x ex_xs -> length x = 2) by (intros x [<-|[<-|[]]]; reflexivity).
  assert (Hsl : forall sl, In sl ex_sls -> sub_ok sl /\ (forall w, In w (concat ex_xs) -> occupied sl w) /\
                  (length (concat ex_xs) <> 1 \/ length (s_enc sl) <> 1)).
  { intros sl [<-|[<-|[]]]; (split; [split; [repeat constructor; simpl; intuition; discriminate|reflexivity]|]);
      (split; [|left; discriminate]); intros w [<-|[<-|[<-|[<-|[]]]]] s [<-|[<-|[]]]; eexists; (split; [reflexivity|]); simpl; auto. }
  destruct (@C101_species_counts_partial ex_w ex_c ex_xs 20 0 1 (concat ex_xs) (fun w => w) ex_holds Nat.lt_0_1 Hsel 2 ex_sls)
    as (tb & E & _); auto; [discriminate|].
  exists tb. split; auto. split; [|split; [reflexivity|split]].
  - clear -E. vm_compute in E. inversion E; subst. reflexivity.
  - destruct (@C101_compositions_partial ex_w ex_c ex_xs 20 0 1 (concat ex_xs) (fun w => w) ex_holds Nat.lt_0_1 Hsel 2 ex_sls 4)
      as (tb2 & E2 & _ & _ & _ & H); auto; [discriminate|..]. exists tb2. split; auto.
  - reflexivity.
Qed.

(** One sample and three samples of one walker with three functions of two orbits: the
    factors of one sample; the sums of energies of samples. *)
Example C102_case : let ids := [0; 1; 1] in let params := [1; 1; 1]%Qc in
  orbit_factors (fun w => w) params ids (mkC [Some [[1; Qc_of_nat 2; Qc_of_nat 4]%Qc]] 1 1) 0 1 =
    Some (map (factor params ids [1; Qc_of_nat 2; Qc_of_nat 4]%Qc) [0; 1; 2]) /\
  factor params ids [1; Qc_of_nat 2; Qc_of_nat 4]%Qc 1 = Qc_of_nat 6 /\
  orbit_factors (fun w => w) params ids (mkC [Some [[1; 1; 1]%Qc]; Some [[1; 1; 1]%Qc]] 2 2) 0 1 = None.
Proof.
  intros ids params. split; [|split].
  - apply (@C102_single_partial _ _ [[[1; Qc_of_nat 2; Qc_of_nat 4]%Qc]] 1 0 1 [1; Qc_of_nat 2; Qc_of_nat 4]%Qc); simpl; auto; try lia.
    + repeat split.
    + exists [[[1; Qc_of_nat 2; Qc_of_nat 4]%Qc]]. split; [|reflexivity]. split; [reflexivity|].
      intros k. rewrite Nat.mul_1_r. replace (0 + (k + 1) - 1) with k by lia. auto.
  - apply Qc_is_canon. reflexivity.
  - reflexivity.
Qed.
