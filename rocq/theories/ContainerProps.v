(** Properties C24 (reading samples) and C25 (files). *)
From Verif Require Import ContainerProofs.
Set Implicit Arguments.
Unset Strict Implicit.
Open Scope nat_scope.

Section Props.
Variable W : Type.
Implicit Types (c : container W) (xs ys : list (sample W)).

(** C24: [ys] are the samples d+t-1, d+2t-1, ... *)
Definition selection xs ys (d t : nat) : Prop :=
  length ys = (length xs - d) / t /\ forall k, nth_error ys k = nth_error xs (d + (k + 1) * t - 1).

Theorem C24_selected c xs steps d t : holds c xs steps -> 0 < t ->
  exists ys, get_rows c d t = Some (map Some ys) /\ selection xs ys d t /\
    (forall y, In y ys -> In y xs) /\ get_flat c d t = Some (concat ys).
Proof.
  intros (A & B & C) Ht. exists (pyslice (d + t - 1) t xs).
  assert (G : get_rows c d t = Some (map Some (pyslice (d + t - 1) t xs))).
  { unfold get_rows. destruct (t =? 0) eqn:E; [apply Nat.eqb_eq in E; lia|].
    rewrite A, pyslice_map. auto. }
  split; [exact G|]. split; [split|split].
  - unfold pyslice. rewrite every_length by auto. rewrite skipn_length.
    destruct (le_lt_dec (d + t - 1) (length xs)) as [H|H].
    + f_equal. lia.
    + rewrite !Nat.div_small; lia.
  - intros k. rewrite pyslice_nth by auto. f_equal. nia.
  - intros y Hy. apply In_nth_error in Hy as (k & Hk). rewrite pyslice_nth in Hk by auto.
    eapply nth_error_In; eauto.
  - unfold get_flat. rewrite G. simpl. rewrite opt_map_some. auto.
Qed.

(** Asking for every zero-th sample raises. *)
Theorem C24_zero_thin c d : get_rows c d 0 = None /\ get_flat c d 0 = None.
Proof. auto. Qed.

(** The minimum over the selected samples is attained by one of them. *)
Theorem C24_minimum c xs steps d t (value : W -> Qc) : holds c xs steps -> 0 < t ->
  (forall x, In x xs -> x <> []) ->
  (d + t <= length xs ->
   exists v, min_value value c d t = Some v) /\
  forall v, min_value value c d t = Some v ->
    (exists j x w, j < length xs /\ (exists k, j = d + (k + 1) * t - 1) /\
       nth_error xs j = Some x /\ In w x /\ value w = v) /\
    (forall k x w, nth_error xs (d + (k + 1) * t - 1) = Some x -> In w x -> (v <= value w)%Qc).
Proof.
  intros H Ht Hne. destruct (C24_selected d H Ht) as (ys & G & (L & N) & I & F).
  unfold min_value. rewrite F. cbn [option_bind].
  assert (Hin : forall w, In w (concat ys) <-> exists k x, nth_error xs (d + (k + 1) * t - 1) = Some x /\ In w x).
  { intros w. rewrite in_concat. split.
    - intros (x & Hx & Hw). apply In_nth_error in Hx as (k & Hk). rewrite N in Hk. eauto.
    - intros (k & x & Hk & Hw). exists x. split; auto. rewrite <- N in Hk. eapply nth_error_In; eauto. }
  split.
  - intros Hd. destruct ys as [|y ys].
    { simpl in L. assert (1 <= (length xs - d) / t) by (apply Nat.div_le_lower_bound; lia). lia. }
    assert (Hy : y <> []) by (apply Hne, I; simpl; auto).
    destruct y as [|w y]; [congruence|]. simpl. unfold minimum. cbn [argmin option_bind].
    destruct (@argmin_spec (value w :: map value (y ++ concat ys)) (argmin_from 1 0 (value w) (map value (y ++ concat ys))) eq_refl)
      as (v & Hv & _). eauto.
  - intros v Hv. unfold minimum in Hv. destruct (argmin _) as [i|] eqn:E; [|discriminate]. cbn [option_bind] in Hv.
    destruct (argmin_spec E) as (v' & Hv' & Hle & _). rewrite Hv in Hv'. inversion Hv'; subst v'.
    split.
    + apply nth_error_In in Hv. apply in_map_iff in Hv as (w & Ew & Hw).
      apply Hin in Hw as (k & x & Hk & Hw). exists (d + (k + 1) * t - 1), x, w.
      split; [apply nth_error_Some; congruence|]. eauto.
    + intros k x w Hk Hw. apply Hle. apply in_map. apply Hin. eauto.
Qed.

(** The flat minimum occupancy is that of a selected sample attaining the minimum, when
    more than one occupancy is selected. *)
Theorem C24_minimum_occupancy_partial c xs steps d t (value : W -> Qc) (occu : W -> list nat) r :
  holds c xs steps -> 0 < t ->
  (forall l, get_flat c d t = Some l -> length l <> 1) ->
  min_occupancy_flat value occu c d t = Some r ->
  exists v k x w, min_value value c d t = Some v /\ nth_error xs (d + (k + 1) * t - 1) = Some x /\
     In w x /\ value w = v /\ r = Occupancy (occu w).
Proof.
  intros H Ht H1. destruct (C24_selected d H Ht) as (ys & G & (L & N) & I & F).
  unfold min_occupancy_flat, min_value, minimum. specialize (H1 _ F). rewrite F. cbn [option_bind].
  destruct (argmin _) as [i|] eqn:E; [|discriminate]. cbn [option_bind].
  intros Hr.
  assert (Hr' : (let? x := nth_error (concat ys) i in Some (Occupancy (occu x))) = Some r).
  { destruct (concat ys) as [|w0 [|w1 l]]; auto. simpl in H1. lia. }
  destruct (nth_error (concat ys) i) as [w|] eqn:Ew; [|discriminate]. cbn [option_bind] in Hr'.
  exists (value w). rewrite (map_nth_error value _ _ Ew).
  apply nth_error_In in Ew. apply in_concat in Ew as (x & Hx & Hw).
  apply In_nth_error in Hx as (k & Hk). rewrite N in Hk.
  exists k, x, w. repeat split; auto. congruence.
Qed.

(** C25: saving to a file and loading it back. *)
Theorem C25_append c xs steps file ys s :
  holds c xs steps -> match file with None => ys = [] /\ s = 0 | Some b => file_holds b ys s end ->
  exists b', to_hdf5 c file = Some b' /\ file_holds b' (ys ++ xs) (s + steps).
Proof.
  intros H Hf. destruct (get_backend_spec (length xs) Hf) as (k & Hk & Hl).
  destruct (flush_spec H Hk Hl) as (b' & Hb & Hb').
  unfold to_hdf5. assert (E : c_n c = length xs) by apply H. rewrite E, Hb. simpl. eexists; split; eauto.
  eapply file_filled_holds; eauto.
Qed.

Theorem C25_load b xs steps : file_holds b xs steps -> holds (from_hdf5 b) xs steps.
Proof. intros (A & B & C). repeat split; auto. Qed.

(** Any number of containers appended to one file. *)
Fixpoint append_all (file : option (backend W)) (cs : list (container W)) : option (option (backend W)) :=
  match cs with
  | [] => Some file
  | c :: cs' => let? b := to_hdf5 c file in append_all (Some b) cs'
  end.
Theorem C25_history (cs : list (container W * list (sample W) * nat)) :
  cs <> [] -> (forall c xs s, In (c, xs, s) cs -> holds c xs s) ->
  exists b, append_all None (map (fun p => fst (fst p)) cs) = Some (Some b) /\
    holds (from_hdf5 b) (concat (map (fun p => snd (fst p)) cs)) (list_sum (map snd cs)).
Proof.
  intros Hne H.
  assert (G : forall cs file ys s, (forall c xs s, In (c, xs, s) cs -> holds c xs s) ->
     match file with None => ys = [] /\ s = 0 | Some b => file_holds b ys s end -> (file <> None \/ cs <> []) ->
     exists b, append_all file (map (fun p => fst (fst p)) cs) = Some (Some b) /\
       file_holds b (ys ++ concat (map (fun p => snd (fst p)) cs)) (s + list_sum (map snd cs))).
  { clear. induction cs as [|[[c xs] st] cs IH]; intros file ys s Hc Hf Hor; simpl.
    - destruct file as [b|]; [|destruct Hor; congruence]. exists b. split; auto.
      rewrite app_nil_r, Nat.add_0_r. auto.
    - destruct (@C25_append c xs st file ys s) as (b & Hb & Hb'); auto.
      { apply Hc. simpl. auto. }
      rewrite Hb. simpl. destruct (IH (Some b) (ys ++ xs) (s + st)) as (b2 & E2 & H2); [intros; apply Hc; simpl; auto|auto|left; congruence|].
      exists b2. split; auto. rewrite app_assoc. replace (s + (st + list_sum (map snd cs))) with (s + st + list_sum (map snd cs)) by lia. auto. }
  destruct (G cs None [] 0 H) as (b & Hb & Hb'); auto.
  exists b. split; [exact Hb|]. apply C25_load. exact Hb'.
Qed.

Theorem C25_dict c xs steps : holds c xs steps -> from_dict (as_dict c) = c.
Proof.
  intros (A & B & C). destruct c as [r n s]; simpl in *. subst. rewrite map_length. auto.
Qed.

Lemma filter_length_le {A} (f : A -> bool) l : length (filter f l) <= length l.
Proof. induction l as [|a l IH]; simpl; auto. destruct (f a); simpl; lia. Qed.

(** Sampling efficiency lies between zero and one. *)
Lemma qsum_le_const {A} (f : A -> Qc) (l : list A) (b : Qc) :
  (forall a, In a l -> (0 <= f a)%Qc /\ (f a <= b)%Qc) ->
  (0 <= qsum (map f l))%Qc /\ (qsum (map f l) <= Qc_of_nat (length l) * b)%Qc.
Proof.
  induction l as [|a l IH]; intros H.
  - cbn [map qsum length]. rewrite Qc_of_nat_0. split; qclra.
  - cbn [map qsum length]. rewrite Qc_of_nat_S.
    destruct IH as [I1 I2]; [intros; apply H; simpl; auto|].
    destruct (H a) as [J1 J2]; [simpl; auto|]. split; [qclra|].
    replace ((1 + Qc_of_nat (length l)) * b)%Qc with (b + Qc_of_nat (length l) * b)%Qc by ring. qclra.
Qed.
Theorem C24_efficiency_bounds c xs steps d (acc : W -> bool) e :
  holds c xs steps -> efficiency acc c d = Some e -> (0 <= e)%Qc /\ (e <= 1)%Qc.
Proof.
  intros (A & B & C). unfold efficiency. rewrite A, skipn_map, opt_map_some. cbn [option_bind].
  destruct (skipn d xs) as [|row l] eqn:El; [discriminate|].
  destruct (_ =? 0) eqn:E1; [discriminate|]. destruct (length row =? 0) eqn:E2; [discriminate|]. cbn [orb].
  apply Nat.eqb_neq in E1, E2. intros H.
  assert (E : (c_n c - d)%nat = length (row :: l)) by (rewrite <- El, skipn_length, B; auto).
  rewrite E in *. set (n := length (row :: l)) in *.
  assert (Hn : (0 < Qc_of_nat n)%Qc) by (apply Qc_of_nat_pos; lia).
  assert (Hw : (0 < Qc_of_nat (length row))%Qc) by (apply Qc_of_nat_pos; lia).
  injection H as <-.
  match goal with |- context [qsum (map ?f (seq 0 ?k))] => destruct (@qsum_le_const nat f (seq 0 k) 1) as [J1 J2] end.
  { intros i _. split.
    - apply Qcdiv_ge_iff; auto. replace (0 * Qc_of_nat n)%Qc with 0%Qc by ring. apply Qc_of_nat_nonneg.
    - apply Qcdiv_le_iff; auto. replace (1 * Qc_of_nat n)%Qc with (Qc_of_nat n) by ring.
      unfold Qc_of_nat. apply (proj1 (Qc_of_Z_le _ _)). apply Nat2Z.inj_le.
      exact (filter_length_le (fun x => match nth_error x i with Some w => acc w | None => false end) (row :: l)). }
  rewrite seq_length in J2. split.
  - apply Qcdiv_ge_iff; [exact Hw|]. replace (0 * Qc_of_nat (length row))%Qc with 0%Qc by ring. exact J1.
  - apply Qcdiv_le_iff; [exact Hw|]. replace (1 * Qc_of_nat (length row))%Qc with (Qc_of_nat (length row) * 1)%Qc by ring. auto.
Qed.
End Props.

(** C65: species counts of a sampled occupancy. *)
Lemma list_sum_count (enc here : list nat) : NoDup enc -> (forall c, In c here -> In c enc) ->
  list_sum (map (count_occ Nat.eq_dec here) enc) = length here.
Proof.
  intros Hnd. induction here as [|h here IH]; intros Hin.
  - simpl. induction enc; simpl; auto. apply IHenc. inversion Hnd; auto. intros c [].
  - cbn [length]. rewrite <- IH by (intros; apply Hin; simpl; auto).
    assert (Hh : In h enc) by (apply Hin; simpl; auto). clear IH Hin.
    induction enc as [|e enc IHe]; [inversion Hh|].
    inversion Hnd as [|? ? Hn Hnd']; subst. cbn [map list_sum fold_right].
    destruct (Nat.eq_dec h e) as [->|Hne].
    + rewrite count_occ_cons_eq by auto. simpl. f_equal. f_equal. f_equal.
      apply map_ext_in. intros a Ha. apply count_occ_cons_neq. intros ->; auto.
    + rewrite count_occ_cons_neq by auto. unfold list_sum in IHe. rewrite IHe; auto.
      destruct Hh; congruence.
Qed.

Theorem C65_species_counts sites enc o :
  NoDup enc -> (forall s, In s sites -> exists c, nth_error o s = Some c /\ In c enc) ->
  exists cnts, sublattice_counts sites enc o = Some cnts /\
    length cnts = length enc /\ list_sum cnts = length sites /\
    forall i c, nth_error enc i = Some c ->
      nth_error cnts i = Some (countb (fun s => match nth_error o s with Some k => k =? c | None => false end) sites).
Proof.
  intros Hnd Hv.
  destruct (@opt_map_all _ _ (nth_error o) sites) as (here & Hh).
  { intros s Hs. destruct (Hv s Hs) as (c & E & _). congruence. }
  assert (Hcodes : forall c, In c here -> In c enc).
  { intros c Hc. apply In_nth_error in Hc as (i & Hi).
    destruct (nth_error sites i) as [s|] eqn:Es.
    - destruct (Hv s) as (c' & E & Hc'); [eapply nth_error_In; eauto|].
      pose proof (@opt_map_nth _ _ _ _ _ _ _ Hh Es) as (c2 & E2 & E3). congruence.
    - apply nth_error_None in Es. rewrite <- (@opt_map_length _ _ _ _ _ Hh) in Es. apply nth_error_None in Es. congruence. }
  assert (Hcnt : forall c, count_occ Nat.eq_dec here c =
    countb (fun s => match nth_error o s with Some k => k =? c | None => false end) sites).
  { intros c. clear Hv Hcodes. revert here Hh. induction sites as [|s l IH]; simpl; intros here Hh.
    - inversion Hh; auto.
    - destruct (nth_error o s) as [k|] eqn:Es; [|discriminate].
      destruct (opt_map (nth_error o) l) as [h|]; [|discriminate]. inversion Hh; subst here.
      specialize (IH h eq_refl). unfold countb in *. simpl. rewrite Es.
      destruct (Nat.eq_dec k c) as [->|Hne].
      + rewrite Nat.eqb_refl. simpl. auto.
      + apply Nat.eqb_neq in Hne. rewrite Hne. auto. }
  unfold sublattice_counts, codes_on. rewrite Hh. cbn [option_bind].
  set (codes := nodup Nat.eq_dec here).
  assert (Hin : forall c, In c enc -> In c (if length codes =? length enc then codes
              else codes ++ filter (fun c => negb (existsb (Nat.eqb c) codes)) enc)).
  { intros c Hc. destruct (length codes =? length enc) eqn:El.
    - apply Nat.eqb_eq in El.
      assert (Hincl : incl codes enc) by (intros x Hx; apply nodup_In in Hx; auto).
      apply (@NoDup_length_incl _ codes enc (NoDup_nodup Nat.eq_dec here)); auto. lia.
    - apply in_or_app. destruct (existsb (Nat.eqb c) codes) eqn:Ee.
      + left. apply existsb_exists in Ee as (x & Hx & E). apply Nat.eqb_eq in E. congruence.
      + right. apply filter_In. rewrite Ee. auto. }
  rewrite (@opt_map_map _ _ _ (count_occ Nat.eq_dec here)).
  2:{ intros c Hc. match goal with |- context [existsb ?f ?l] => assert (E : existsb f l = true) end.
      { apply existsb_exists. exists c. split; auto. apply Nat.eqb_refl. }
      rewrite E. auto. }
  eexists; split; [reflexivity|]. split; [apply map_length|]. split.
  - rewrite list_sum_count; auto. apply (@opt_map_length _ _ _ _ _ Hh).
  - intros i c Hi. rewrite (map_nth_error _ _ _ Hi). f_equal. auto.
Qed.
Example C65_example : sublattice_counts [0;2;3] [0;1;4] [4;9;0;4] = Some [1;0;2].
Proof. reflexivity. Qed.

(** Non-flat minimum occupancies: a walker other than the first may get an occupancy of
    higher energy than one it visited. *)
Definition ex_c : container (Qc * list nat) :=
  mkC [Some [(Qc_frac 0 1, [0;0]); (Qc_frac 5 1, [0;1])]; Some [(Qc_frac 1 1, [1;0]); (Qc_frac 2 1, [1;1])]] 2 2.
Theorem C24_minimum_occupancy_walkers_refuted :
  holds ex_c [[(Qc_frac 0 1, [0;0]); (Qc_frac 5 1, [0;1])]; [(Qc_frac 1 1, [1;0]); (Qc_frac 2 1, [1;1])]] 2 /\
  min_occupancy_walkers fst snd ex_c 0 1 2 = Some [[0;0]; [0;1]] /\
  (Qc_frac 2 1 < Qc_frac 5 1)%Qc.
Proof. split; [|split]; [repeat split|reflexivity|reflexivity]. Qed.
(** With one stored occupancy the flat query returns a single site code. *)
Theorem C24_minimum_occupancy_single_refuted :
  min_occupancy_flat fst snd (mkC [Some [(Qc_frac 0 1, [3;0])]] 1 1) 0 1 = Some (OneSite 3).
Proof. reflexivity. Qed.
(** Saving a container with unused allocated rows: with one row more allocated than
    written the write raises, and a dictionary round trip counts the unused rows. *)
Theorem C25_unused_rows_refuted :
  let c := allocate (mkC [Some [1]; Some [2]] 2 2) 1 in
  to_hdf5 c None = None /\ c_n (from_dict (as_dict c)) = 3 /\ c_n c = 2.
Proof. repeat split. Qed.

Example C24_example : exists l, get_flat ex_c 0 2 = Some l /\ length l = 2 /\
  min_value fst ex_c 0 1 = Some (Qc_frac 0 1) /\ efficiency (fun w => Qcltb (fst w) (Qc_frac 2 1)) ex_c 0 = Some (Qc_frac 1 2).
Proof. eexists. split; [reflexivity|]. repeat split. Qed.
Example C25_example : exists b, append_all None [ex_c; ex_c] = Some (Some b) /\ b_n b = 4 /\ b_steps b = 4.
Proof. eexists. split; [reflexivity|]. split; reflexivity. Qed.

Print Assumptions C24_selected.
Print Assumptions C24_minimum.
Print Assumptions C24_minimum_occupancy_partial.
Print Assumptions C25_history.
Print Assumptions C25_dict.
