(** Entries of correlation tensors. *)
From Verif Require Import LibProofs EvaluatorProofs EvaluatorProps SubspaceSpec KernelProofs WangLandauProofs.
From Coq Require Import Lia.
Set Implicit Arguments.
Unset Strict Implicit.
Open Scope nat_scope.

Fixpoint rprod (rows : list (list Qc)) (codes : list nat) : Qc :=
  match rows, codes with r :: rows', c :: codes' => (nth c r 0 * rprod rows' codes')%Qc | _, _ => 1%Qc end.
Lemma outer_length rows : length (outer rows) = nprod (map (@length _) rows).
Proof.
  induction rows as [|r rows IH]; auto. cbn [outer map]. rewrite nprod_cons. rewrite <- IH. clear IH. set (o := outer rows).
  induction r as [|x r IHr]; auto. cbn [flat_map length]. rewrite app_length, map_length, IHr. simpl. lia.
Qed.
Lemma outer_nth rows codes : codes_below (map (@length _) rows) codes ->
  nth (index_of_codes (strides_of (map (@length _) rows)) codes) (outer rows) 0%Qc = rprod rows codes.
Proof.
  revert codes. induction rows as [|r rows IH]; intros codes H; inversion H as [|d c ds cs Hc Hcs]; subst; auto.
  cbn [map strides_of index_of_codes outer rprod]. rewrite <- IH by auto. rewrite flat_map_concat_map.
  pose proof (index_lt Hcs) as Hi. set (i := index_of_codes _ _) in *. rewrite (Nat.mul_comm _ c).
  rewrite (@nth_concat_block (map (fun x => map (Qcmult x) (outer rows)) r) (nprod (map (@length _) rows)) c i).
  - rewrite (nth_indep _ [] (map (Qcmult 0) (outer rows))) by (rewrite map_length; auto).
    rewrite (map_nth (fun x => map (Qcmult x) (outer rows))).
    rewrite (nth_indep _ 0%Qc (nth c r 0 * 0)%Qc) by (rewrite map_length, outer_length; auto). rewrite (map_nth (Qcmult (nth c r 0%Qc))). auto.
  - intros t Ht. apply in_map_iff in Ht as (x & <- & _). rewrite map_length, outer_length. auto.
  - auto.
  - rewrite map_length. auto.
Qed.
Lemma qvadd_fold ts n acc : length acc = n -> (forall t, In t ts -> length t = n) ->
  length (fold_left qvadd ts acc) = n /\ forall j, nth j (fold_left qvadd ts acc) 0%Qc = (nth j acc 0 + qsum (map (fun t => nth j t 0) ts))%Qc.
Proof.
  revert acc. induction ts as [|t ts IH]; intros acc La H; cbn [fold_left].
  - split; auto. intros j. simpl. unfold qsum. simpl. ring.
  - assert (Lt : length t = n) by (apply H; simpl; auto).
    destruct (IH (qvadd acc t)) as [L V]; [rewrite length_qvadd; lia|intros; apply H; simpl; auto|]. split; auto.
    intros j. rewrite V. cbn [map]. rewrite nth_qvadd by congruence. unfold qsum. simpl. ring.
Qed.
(** The shape of site function arrays: rows of the given lengths. *)
Definition basis_shape (basis : list (list (list Qc))) (dims : list nat) : Prop :=
  Forall2 (fun B d => forall r, In r B -> length r = d) basis dims.
Definition bits_in (basis : list (list (list Qc))) (bits : list nat) : Prop := Forall2 (fun B b => b < length B) basis bits.
Lemma pick_rows_ok basis dims bits : basis_shape basis dims -> bits_in basis bits ->
  exists rs, pick_rows basis bits = Some rs /\ map (@length _) rs = dims.
Proof.
  intros H. revert bits. induction H as [|B d basis dims HB H IH]; intros bits Hb; inversion Hb as [|B' b basis' bits' Hlt Hbs]; subst; simpl; [eauto|].
  destruct (@nth_error_lt _ B b Hlt) as [r Hr]. rewrite Hr. cbn [option_bind]. destruct (IH _ Hbs) as (rs & -> & E). cbn [option_bind].
  eexists. split; [reflexivity|]. simpl. rewrite E, (HB r); auto. eapply nth_error_In; eauto.
Qed.
Definition bprod (basis : list (list (list Qc))) (bits codes : list nat) : Qc :=
  match pick_rows basis bits with Some rs => rprod rs codes | None => 0%Qc end.
Lemma combo_tensor_ok basis dims combos : basis_shape basis dims -> (forall bits, In bits combos -> bits_in basis bits) ->
  exists t, combo_tensor basis (nprod dims) combos = Some t /\ length t = nprod dims /\
    forall codes, codes_below dims codes ->
      nth (index_of_codes (strides_of dims) codes) t 0%Qc = (qsum (map (fun bits => bprod basis bits codes) combos) / Qc_of_nat (length combos))%Qc.
Proof.
  intros HS HB. unfold combo_tensor.
  set (g := fun bits => match pick_rows basis bits with Some rs => outer rs | None => [] end).
  rewrite opt_map_map with (g := g).
  2:{ intros bits Hb. unfold g. destruct (pick_rows_ok HS (HB bits Hb)) as (rs & -> & _). auto. }
  cbn [option_bind]. eexists. split; [reflexivity|].
  destruct (@qvadd_fold (map g combos) (nprod dims) (repeat (Q2Qc 0) (nprod dims))) as [L V]; [apply repeat_length| |].
  { intros t Ht. apply in_map_iff in Ht as (bits & <- & Hb). unfold g. destruct (pick_rows_ok HS (HB bits Hb)) as (rs & -> & E). rewrite outer_length, E. auto. }
  split; [rewrite map_length; auto|]. intros codes Hc. pose proof (index_lt Hc) as Hi.
  rewrite (nth_indep _ 0%Qc (0 / Qc_of_nat (length combos))%Qc) by (rewrite map_length, L; auto).
  rewrite (map_nth (fun x => (x / Qc_of_nat (length combos))%Qc)). rewrite V, nth_zeros, map_map, Qcplus_0_l. do 2 f_equal.
  apply map_ext_in. intros bits Hb. unfold g, bprod. destruct (pick_rows_ok HS (HB bits Hb)) as (rs & -> & E). rewrite <- E. apply outer_nth. rewrite E. auto.
Qed.
Lemma basis_dims basis dims : basis_shape basis dims -> (forall B, In B basis -> B <> []) -> map (fun b => length (hd [] b)) basis = dims.
Proof.
  induction 1 as [|B d basis dims HB H IH]; intros Hne; simpl; auto. f_equal; [|apply IH; intros; apply Hne; simpl; auto].
  destruct B as [|r B]; [exfalso; apply (Hne []); simpl; auto|]. apply HB. simpl; auto.
Qed.
(** Orbits whose functions exist. *)
Record sorbit_ok (dims : list nat) (o : sorbit) : Prop := {
  so_shape : basis_shape (s_basis o) dims;
  so_ne : forall B, In B (s_basis o) -> B <> [];
  so_bits : forall combos bits, In combos (s_combos o) -> In bits combos -> bits_in (s_basis o) bits;
  so_combos : forall combos, In combos (s_combos o) -> combos <> []
}.
Lemma tensors_ok dims o : sorbit_ok dims o -> exists ts, correlation_tensors o = Some ts /\ length ts = s_len o /\ s_dims o = dims /\
  (forall t, In t ts -> length t = nprod dims) /\
  forall k combos t codes, nth_error (s_combos o) k = Some combos -> nth_error ts k = Some t -> codes_below dims codes ->
    nth (index_of_codes (strides_of dims) codes) t 0%Qc = (qsum (map (fun bits => bprod (s_basis o) bits codes) combos) / Qc_of_nat (length combos))%Qc.
Proof.
  intros HO. unfold correlation_tensors. assert (Ed : s_dims o = dims) by (apply basis_dims; [apply (so_shape HO)|apply (so_ne HO)]).
  rewrite Ed. change (fold_right Nat.mul 1 dims) with (nprod dims).
  assert (Hall : forall combos, In combos (s_combos o) -> exists t, combo_tensor (s_basis o) (nprod dims) combos = Some t /\ length t = nprod dims /\
     forall codes, codes_below dims codes -> nth (index_of_codes (strides_of dims) codes) t 0%Qc = (qsum (map (fun bits => bprod (s_basis o) bits codes) combos) / Qc_of_nat (length combos))%Qc).
  { intros combos Hc. apply combo_tensor_ok; [apply (so_shape HO)|]. intros; eapply (so_bits HO); eauto. }
  unfold s_len. clear HO. induction (s_combos o) as [|c cs IH]; cbn [opt_map].
  - exists []. repeat split; auto; [intros t []|]. intros [|k] ? ? ?; discriminate.
  - destruct (Hall c (or_introl eq_refl)) as (t & -> & Lt & Vt). destruct IH as (ts & -> & L & _ & Hl & Hv); [intros; apply Hall; simpl; auto|].
    exists (t :: ts). repeat split; simpl; auto.
    + intros t' [<-|Ht']; auto.
    + intros [|k] combos t' codes; simpl; [intros [= <-] [= <-]; auto|apply Hv].
Qed.
