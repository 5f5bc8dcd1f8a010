(** The greedy choice of basis vectors. *)
From Verif Require Import LibProofs SublatticeProofs GroundTermsProps.
From Verif Require Export LatticeProofs Ergodic.
From Coq Require Import Sorting.Sorted.
Set Implicit Arguments.
Unset Strict Implicit.
Open Scope Z_scope.

Lemma nth_vadd_ u w i : length u = length w -> nth i (vadd u w) 0 = nth i u 0 + nth i w 0.
Proof. revert w i. induction u as [|a u IH]; intros [|b w] [|i] H; simpl in *; try discriminate; auto. Qed.
Lemma length_vadd_ u w : length u = length w -> length (vadd u w) = length u.
Proof. revert w. induction u as [|a u IH]; intros [|b w] H; simpl in *; try discriminate; auto. Qed.
Lemma nth_vopp u i : nth i (vopp u) 0 = - nth i u 0.
Proof. unfold vopp. change 0 with (- 0) at 1. apply map_nth. Qed.
Lemma length_vopp u : length (vopp u) = length u.
Proof. apply map_length. Qed.
Lemma zsum_vadd u w : length u = length w -> zsum (vadd u w) = zsum u + zsum w.
Proof. revert w. induction u as [|a u IH]; intros [|b w] H; simpl in *; try discriminate; auto. rewrite IH by congruence. lia. Qed.
Lemma zsum_vopp u : zsum (vopp u) = - zsum u.
Proof. induction u; simpl; [auto|]. fold (vopp u). lia. Qed.

Lemma flip_size_moved u s : flip_size u = Some s -> moved u = 2 * s.
Proof.
  unfold flip_size. destruct (Z.eqb_spec (zsum u) 0) as [E|]; [|discriminate]. intros H. apply (f_equal (fun o => match o with Some x => x | None => 0 end)) in H. simpl in H. subst s.
  assert (K : forall u, moved u = 2 * zsum (filter (fun x => 0 <? x) u) - zsum u).
  { clear. induction u as [|x u IH]; [reflexivity|]. unfold moved in *. cbn [map zsum filter]. destruct (Z.ltb_spec 0 x); cbn [zsum]; lia. }
  rewrite K, E. lia.
Qed.
Lemma flip_size_some u : zsum u = 0 -> exists s, flip_size u = Some s.
Proof. intros E. unfold flip_size. rewrite E. simpl. eauto. Qed.

(** ** Sorting *)
Lemma key_leb_total a b : key_leb a b = true \/ key_leb b a = true.
Proof. unfold key_leb. destruct (Z.ltb_spec (fst a) (fst b)), (Z.eqb_spec (fst a) (fst b)), (Z.leb_spec (snd a) (snd b)), (Z.ltb_spec (fst b) (fst a)), (Z.eqb_spec (fst b) (fst a)), (Z.leb_spec (snd b) (snd a)); simpl; auto; lia. Qed.
Lemma key_leb_trans a b c : key_leb a b = true -> key_leb b c = true -> key_leb a c = true.
Proof.
  unfold key_leb. rewrite !orb_true_iff, !andb_true_iff, !Z.ltb_lt, !Z.eqb_eq, !Z.leb_le. lia.
Qed.
Lemma StronglySorted_map A B (R : A -> A -> Prop) (S : B -> B -> Prop) (f : A -> B) l : (forall a b, In a l -> In b l -> R a b -> S (f a) (f b)) -> StronglySorted R l -> StronglySorted S (map f l).
Proof.
  intros H St. induction St as [|a l St IH F]; simpl; constructor.
  - apply IH. intros x y X Y. apply H; right; auto.
  - apply Forall_forall. intros y Y. apply in_map_iff in Y as (b & <- & Bi). apply H; [left; auto|right; auto|]. rewrite Forall_forall in F. auto.
Qed.
Lemma opt_map_snd A B (f : A -> option B) l r : opt_map (fun u => let? k := f u in Some (k, u)) l = Some r -> map snd r = l /\ forall k u, In (k, u) r -> f u = Some k.
Proof.
  revert r. induction l as [|u l IH]; simpl; intros r H; [injection H as <-; split; auto; intros k u []|].
  destruct (f u) as [k|] eqn:E; [|discriminate]. cbn [option_bind] in H. destruct (opt_map _ l) as [r'|]; [|discriminate]. injection H as <-. destruct (IH r' eq_refl) as (I1 & I2). split; [simpl; congruence|].
  intros k' u' [X|X]; [congruence|auto].
Qed.
Lemma opt_map_snd_total A B (f : A -> option B) l : (forall u, In u l -> exists k, f u = Some k) -> exists r, opt_map (fun u => let? k := f u in Some (k, u)) l = Some r.
Proof.
  induction l as [|u l IH]; simpl; intros H; [eauto|]. destruct (H u (or_introl eq_refl)) as (k & ->). destruct IH as (r & ->); [intros; apply H; auto|]. simpl. eauto.
Qed.
Lemma sorted_vectors_spec ns V : (forall u, In u V -> zsum u = 0) -> exists V', sorted_vectors ns V = Some V' /\ Permutation V V' /\ StronglySorted (fun a b => moved a <= moved b) V'.
Proof.
  intros H. unfold sorted_vectors. destruct (@opt_map_snd_total _ _ (opt_key ns) V) as (r & E).
  { intros u U. unfold opt_key. destruct (flip_size_some (H u U)) as (s & ->). simpl. eauto. }
  rewrite E. cbn [option_bind]. eexists. split; [reflexivity|]. destruct (opt_map_snd E) as (M & K). set (leb := fun a b : (Z * Z) * list Z => key_leb (fst a) (fst b)).
  pose proof (sort_by_perm leb r) as P. split; [rewrite <- M; apply Permutation_map, P|].
  apply StronglySorted_map with (R := fun a b => leb a b = true).
  - intros [k1 a] [k2 b] A B L. apply (Permutation_in _ (Permutation_sym P)) in A, B. apply K in A, B. unfold opt_key in A, B.
    destruct (flip_size a) as [sa|] eqn:Ea; [|discriminate]. destruct (flip_size b) as [sb|] eqn:Eb; [|discriminate]. cbn [option_bind] in A, B. injection A as <-. injection B as <-.
    unfold leb, key_leb in L. cbn [fst snd] in *. rewrite (flip_size_moved Ea), (flip_size_moved Eb). rewrite orb_true_iff, andb_true_iff, Z.ltb_lt, Z.eqb_eq in L. lia.
  - apply sort_by_sorted; unfold leb; [intros; apply key_leb_total|intros x y z; apply key_leb_trans].
Qed.
Lemma sorted_split s V : StronglySorted (fun a b => moved a <= moved b) V -> V = filter (fun u => moved u <=? s) V ++ filter (fun u => negb (moved u <=? s)) V.
Proof.
  induction 1 as [|u V S IH F]; [reflexivity|]. simpl. destruct (Z.leb_spec (moved u) s) as [L|L]; simpl; [congruence|].
  assert (N : filter (fun u => moved u <=? s) V = []).
  { clear -F L. induction F as [|w V W F IH]; [reflexivity|]. simpl. destruct (Z.leb_spec (moved w) s); [lia|auto]. }
  rewrite N in *. simpl in *. congruence.
Qed.

(** ** Selection *)
Section Select.
Variables (d : nat) (rank : list (list Z) -> nat).
Hypothesis RE : rank_exact d rank.

Lemma rows_forall M : rows d M -> Forall (fun r => length r = d) M.
Proof. intros R. apply Forall_forall. auto. Qed.
Lemma full_iff n cur : (n <= d)%nat -> rows d cur -> (length cur <= n)%nat -> (Nat.eqb (rank cur) (Nat.min (length cur) d) = true <-> independent cur).
Proof. intros N R L. rewrite Nat.min_l by lia. rewrite Nat.eqb_eq. apply RE; [apply rows_forall; auto|lia]. Qed.

Lemma select_done n new V : length new = n -> select rank n d new V = new.
Proof. intros L. destruct V; auto. simpl. rewrite L, Nat.eqb_refl. auto. Qed.
Lemma select_app n V1 : forall new V2, select rank n d new (V1 ++ V2) = select rank n d (select rank n d new V1) V2.
Proof.
  induction V1 as [|u V1 IH]; intros new V2; [reflexivity|]. cbn [app select]. destruct (Nat.eqb_spec (length new) n) as [E|]; [symmetry; apply select_done; auto|]. apply IH.
Qed.
Lemma select_spec n V : (n <= d)%nat -> rows d V -> forall new, rows d new -> independent new -> (length new <= n)%nat ->
  let R := select rank n d new V in
  independent R /\ (length R <= n)%nat /\ (exists ext, R = new ++ ext /\ incl ext V) /\ (length R = n \/ forall u, In u V -> spans R u).
Proof.
  intros N. induction V as [|u V IH]; intros RV new RN I L; cbn [select].
  - split; auto. split; auto. split; [exists []; rewrite app_nil_r; split; auto; intros x []|right; intros u []].
  - destruct (Nat.eqb_spec (length new) n) as [E|NE].
    + split; auto. split; auto. split; [exists []; rewrite app_nil_r; split; auto; intros x []|left; auto].
    + assert (RU : length u = d) by (apply RV; left; auto). assert (RC : rows d (new ++ [u])) by (intros v Hv; apply in_app_or in Hv as [Hv|[<-|[]]]; auto).
      assert (LC : (length (new ++ [u]) <= n)%nat) by (rewrite app_length; simpl; lia). pose proof (full_iff N RC LC) as FI. assert (RV' : rows d V) by (intros v Hv; apply RV; right; auto).
      destruct (Nat.eqb (rank (new ++ [u])) (Nat.min (length (new ++ [u])) d)) eqn:EF.
      * destruct (IH RV' (new ++ [u]) RC (proj1 FI eq_refl) LC) as (A & B & (ext & X & Y) & Z). split; auto. split; auto. split.
        -- exists (u :: ext). split; [rewrite X, <- app_assoc; auto|]. intros x [<-|Hx]; [left|right]; auto.
        -- destruct Z as [Z|Z]; [left; auto|right]. intros v [<-|Hv]; auto. rewrite X. apply spans_gen, gen_in. rewrite <- app_assoc. apply in_or_app. right. left. auto.
      * destruct (IH RV' new RN I L) as (A & B & (ext & X & Y) & Z). split; auto. split; auto. split.
        -- exists ext. split; auto. intros x Hx. right. auto.
        -- destruct Z as [Z|Z]; [left; auto|right]. intros v [<-|Hv]; auto. rewrite X. apply spans_app. apply (rejected_spanned RN RU I). intros C. apply FI in C. discriminate.
Qed.

(** The vectors that are compared. *)
Lemma pair_vectors_in : forall vs u, In u (pair_vectors vs) -> exists v w, In v vs /\ In w vs /\ (u = vadd v w \/ u = vadd v (vopp w)).
Proof.
  induction vs as [|v vs IH]; simpl; intros u U; [contradiction|]. apply in_app_or in U as [U|U].
  - apply in_concat in U as (l & L & U). apply in_map_iff in L as (w & <- & W). exists v, w. destruct U as [<-|[<-|[]]]; auto.
  - destruct (IH u U) as (a & b & A & B & E). exists a, b. auto.
Qed.
Lemma compared_rows vs : rows d vs -> rows d (vs ++ pair_vectors vs).
Proof.
  intros R u U. apply in_app_or in U as [U|U]; auto. destruct (pair_vectors_in U) as (v & w & V & W & [->| ->]); rewrite length_vadd_; rewrite ?length_vopp, ?(R v V), ?(R w W); auto.
Qed.
Lemma compared_zero vs : rows d vs -> (forall v, In v vs -> zsum v = 0) -> forall u, In u (vs ++ pair_vectors vs) -> zsum u = 0.
Proof.
  intros R Z u U. apply in_app_or in U as [U|U]; auto. destruct (pair_vectors_in U) as (v & w & V & W & [->| ->]); rewrite zsum_vadd by (rewrite ?length_vopp, ?(R v V), ?(R w W); auto); rewrite ?zsum_vopp, (Z v V), (Z w W); lia.
Qed.
Lemma compared_gen vs : rows d vs -> forall u, In u (vs ++ pair_vectors vs) -> gen vs (at_ u).
Proof.
  intros R u U. apply in_app_or in U as [U|U]; [apply gen_in; auto|]. destruct (pair_vectors_in U) as (v & w & V & W & E).
  destruct E as [->| ->].
  - apply (gen_ext (f := fun i => 1 * at_ v i + 1 * at_ w i)); [|apply gen_comb; apply gen_in; auto]. intro i. unfold at_. rewrite nth_vadd_ by (rewrite (R v V), (R w W); auto). lia.
  - apply (gen_ext (f := fun i => 1 * at_ v i + (-1) * at_ w i)); [|apply gen_comb; apply gen_in; auto]. intro i. unfold at_. rewrite nth_vadd_ by (rewrite length_vopp, (R v V), (R w W); auto). rewrite nth_vopp. lia.
Qed.

(** One cycle: as many independent vectors, chosen among those compared, and no other independent ones are smaller. *)
Record improves (cur new : list (list Z)) : Prop := {
  im_length : length new = length cur;
  im_independent : independent new;
  im_incl : incl new (cur ++ pair_vectors cur);
  im_small : forall I, independent I -> incl I (cur ++ pair_vectors cur) -> forall s, (small s I <= small s new)%nat }.
Lemma small_app s a b : small s (a ++ b) = (small s a + small s b)%nat.
Proof. unfold small. rewrite filter_app, app_length. auto. Qed.
Lemma cycle_improves ns cur : rows d cur -> (forall v, In v cur -> zsum v = 0) -> independent cur ->
  exists V, sorted_vectors ns (cur ++ pair_vectors cur) = Some V /\ improves cur (select rank (length cur) d [] V).
Proof.
  intros R Z I. destruct (sorted_vectors_spec ns (compared_zero R Z)) as (V & E & P & S). exists V. split; auto.
  pose proof (independent_bound R I) as N. assert (RV : rows d V) by (intros v Hv; apply (compared_rows R); apply (Permutation_in _ (Permutation_sym P)); auto).
  assert (RN : rows d []) by (intros v []). assert (L0 : (length (@nil (list BinNums.Z)) <= length cur)%nat) by (simpl; lia).
  destruct (select_spec N RV RN independent_nil L0) as (A & B & (ext & X & Y) & T). simpl in X.
  assert (LI : forall J, independent J -> incl J (cur ++ pair_vectors cur) -> (length J <= length cur)%nat).
  { intros J IJ HJ. apply (exchange_rows (d := d)); auto; [intros v Hv; apply (compared_rows R); auto|]. intros v Hv. apply spans_gen, compared_gen; auto. }
  split.
  - destruct T as [T|T]; auto. apply Nat.le_antisymm; auto. apply (exchange_rows (d := d)); auto. intros v Hv. apply T. apply (Permutation_in _ P), in_or_app. auto.
  - auto.
  - intros u U. apply (Permutation_in _ (Permutation_sym P)), Y. rewrite <- X. auto.
  - intros J IJ HJ s. rewrite (sorted_split s S), select_app.
    set (P1 := filter (fun u => moved u <=? s) V). set (P2 := filter _ V).
    assert (R1 : rows d P1) by (intros v Hv; apply RV; apply filter_In in Hv; tauto). assert (R2 : rows d P2) by (intros v Hv; apply RV; apply filter_In in Hv; tauto).
    destruct (select_spec N R1 RN independent_nil L0) as (A1 & B1 & (e1 & X1 & Y1) & T1). simpl in X1.
    set (S1 := select rank (length cur) d [] P1) in *. assert (RS : rows d S1) by (intros v Hv; rewrite X1 in Hv; auto).
    destruct (select_spec N R2 RS A1 B1) as (A2 & B2 & (e2 & X2 & Y2) & T2). rewrite X2, small_app.
    assert (F : small s S1 = length S1).
    { unfold small. assert (G : forall u, In u S1 -> (moved u <=? s) = true) by (intros u U; rewrite X1 in U; apply Y1, filter_In in U; tauto). clear -G. induction S1 as [|u l IH]; [reflexivity|]. simpl. rewrite (G u (or_introl eq_refl)). simpl. f_equal. apply IH. intros; apply G; right; auto. }
    rewrite F. enough (small s J <= length S1)%nat by lia. unfold small. pose proof (independent_sub (f := fun u => moved u <=? s) IJ) as IJs.
    assert (HJs : incl (filter (fun u => moved u <=? s) J) (cur ++ pair_vectors cur)) by (intros u U; apply filter_In in U; apply HJ; tauto).
    destruct T1 as [T1|T1]; [rewrite T1; apply LI; auto|]. apply (exchange_rows (d := d)); auto; [intros v Hv; apply (compared_rows R); auto|].
    intros v Hv. apply T1. apply filter_In. apply filter_In in Hv as (Hv & M). split; auto. apply (Permutation_in _ P), HJ. auto.
Qed.
Lemma improves_rows cur new : rows d cur -> improves cur new -> rows d new.
Proof. intros R IM v V. apply (compared_rows R), (im_incl IM). auto. Qed.
Lemma improves_zero cur new : rows d cur -> (forall v, In v cur -> zsum v = 0) -> improves cur new -> forall v, In v new -> zsum v = 0.
Proof. intros R Z IM v V. apply (compared_zero R Z), (im_incl IM). auto. Qed.

(** A property of tables that every cycle keeps holds of the result. *)
Lemma opt_loop_inv (P : list (list Z) -> Prop) n ns : (forall cur new, rows d cur -> (forall v, In v cur -> zsum v = 0) -> independent cur -> P cur -> improves cur new -> P new) ->
  forall fuel cur, n = length cur -> rows d cur -> (forall v, In v cur -> zsum v = 0) -> independent cur -> P cur ->
  exists r, opt_loop rank n d ns fuel cur = Some r /\ length r = n /\ rows d r /\ (forall v, In v r -> zsum v = 0) /\ independent r /\ P r.
Proof.
  intros K. induction fuel as [|fuel IH]; intros cur -> R Z I H; cbn [opt_loop]; [exists cur; auto 10|].
  destruct (cycle_improves ns R Z I) as (V & E & IM). rewrite E. cbn [option_bind]. destruct (table_match _ cur); [exists cur; auto 10|].
  apply IH; [symmetry; apply IM|exact (improves_rows R IM)|exact (improves_zero R Z IM)|apply IM|eauto].
Qed.
End Select.
