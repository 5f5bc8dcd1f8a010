(** C152: removing a correlation function from an orbit. *)
From Verif Require Import LibProofs QcLib SubspaceSpec OrbitProps.
From Verif Require Export ComboRemoval.
Set Implicit Arguments.
Unset Strict Implicit.
Local Open Scope nat_scope.

(** What the permutations make of an ordering. *)
Definition equivalent (ps : list (list nat)) (a b : list nat) : Prop := exists p, In p ps /\ permute a p = Some b.
(** The functions, each with its orderings and its tensor. *)
Definition functions (o : sorbit) : option (list (list (list nat) * list Qc)) :=
  let? ts := correlation_tensors o in Some (combine (s_combos o) ts).

Lemma has_in b g : existsb (row_eqb b) g = true <-> In b g.
Proof. rewrite existsb_exists. split; [intros (x & I & E); apply row_eqb_eq in E as ->; auto|intros I; exists b; split; auto; apply row_eqb_eq; auto]. Qed.
Lemma opt_map_filter {A B} (f : A -> option B) (q : A -> bool) : forall l ys, opt_map f l = Some ys ->
  exists zs, opt_map f (filter q l) = Some zs /\ combine (filter q l) zs = filter (fun p => q (fst p)) (combine l ys).
Proof.
  induction l as [|x l IH]; intros ys E; [exists []; auto|]. cbn [opt_map] in E. destruct (f x) as [y|] eqn:F; [|discriminate]. cbn [option_bind] in E. destruct (opt_map f l) as [ys'|] eqn:G; [|discriminate]. injection E as <-.
  destruct (IH _ eq_refl) as (zs & Z1 & Z2). cbn [filter combine fst]. destruct (q x); [|exists zs; auto]. exists (y :: zs). cbn [opt_map]. rewrite F. cbn [option_bind]. rewrite Z1. split; auto. cbn [combine]. congruence.
Qed.

Lemma filter_all {A} (l : list A) : filter (fun _ => true) l = l.
Proof. induction l; cbn [filter]; congruence. Qed.
(** The functions of an orbit, some of which may have been removed. *)
Definition functions_of (bits ps : list (list nat)) (o : sorbit) : Prop := exists cs, gen_combos bits ps = Some cs /\ incl (s_combos o) cs.

Section Removal.
Variables (n : nat) (bits ps : list (list nat)) (o : sorbit).
Hypotheses (HG : perm_group n ps) (HB : sym_bits bits ps) (HL : length bits = n) (HC : functions_of bits ps o).

Lemma parts : (forall g, In g (s_combos o) -> g <> []) /\
  (forall g a b, In g (s_combos o) -> In a g -> (In b g <-> equivalent ps a b)).
Proof. destruct (C35_partition HG HB HL) as (cs & E & _ & _ & H1 & H2). destruct HC as (cs' & E' & I). rewrite E in E'. injection E' as <-. split; [intros g G; apply H1, I, G|intros g a b G A; exact (H2 g a b (I g G) A)]. Qed.
Lemma group_of b : In b (concat (s_combos o)) -> exists g, In g (s_combos o) /\ In b g.
Proof. intros I. apply in_concat in I as (g & G & J). exists g. auto. Qed.
Lemma in_group g a b : In b (concat (s_combos o)) -> In g (s_combos o) -> In a g -> (In b g <-> equivalent ps b a).
Proof.
  intros BC G A. destruct parts as (NE & EQ). split; [intros J; apply (EQ g b a G J); auto|]. intros E. destruct (group_of BC) as (h & H & J). assert (K : In a h) by (apply (EQ h b a H J); auto). apply (EQ h a b H K) in J. apply (EQ g a b G A). auto.
Qed.

(** Exactly the equivalent orderings go; the other functions keep their orderings, their tensors and their order. *)
Theorem C152_removed b o' : In b (concat (s_combos o)) -> remove_bit_combo b o = Some o' ->
  (forall a, In a (concat (s_combos o')) <-> In a (concat (s_combos o)) /\ ~ equivalent ps b a) /\
  (forall fs, functions o = Some fs -> exists fs', functions o' = Some fs' /\ fs' = filter (fun f => negb (existsb (row_eqb b) (fst f))) fs) /\
  s_key o' = s_key o /\ s_mult o' = s_mult o /\ s_basis o' = s_basis o /\ functions_of bits ps o'.
Proof.
  intros BC. unfold remove_bit_combo. destruct (_ =? 0); [discriminate|]. intros [= <-]. split; [|split; [|repeat split; destruct HC as (cs & E & I); exists cs; split; auto; intros g G; apply I; apply filter_In in G; tauto]].
  - intros a. unfold with_combos. cbn [s_combos]. rewrite !in_concat. split.
    + intros (g & G & A). apply filter_In in G as (G & N). split; [exists g; auto|]. intros E. apply (in_group BC G A) in E. apply has_in in E. rewrite E in N. discriminate.
    + intros ((g & G & A) & N). exists g. split; auto. apply filter_In. split; auto. destruct (existsb (row_eqb b) g) eqn:X; auto. exfalso. apply N. apply has_in in X. apply (in_group BC G A). auto.
  - intros fs F. unfold functions in *. unfold correlation_tensors, with_combos, s_dims in *. cbn [s_combos s_basis] in *. destruct (opt_map _ (s_combos o)) as [ts|] eqn:T; [|discriminate]. injection F as <-.
    destruct (opt_map_filter (fun g => negb (existsb (row_eqb b) g)) T) as (zs & Z1 & Z2). rewrite Z1. eexists; split; [reflexivity|exact Z2].
Qed.
(** Only the last function cannot be removed. *)
Theorem C152_error b : In b (concat (s_combos o)) -> (remove_bit_combo b o = None <-> forall a, In a (concat (s_combos o)) -> equivalent ps b a).
Proof.
  intros BC. unfold remove_bit_combo. destruct parts as (NE & _). split.
  - destruct (Nat.eqb_spec (length (filter (fun g => negb (existsb (row_eqb b) g)) (s_combos o))) 0) as [Z|]; [|discriminate]. intros _ a A. destruct (group_of A) as (g & G & J). apply (in_group BC G J). apply has_in. destruct (existsb (row_eqb b) g) eqn:X; auto. exfalso.
    assert (I : In g (filter (fun g => negb (existsb (row_eqb b) g)) (s_combos o))) by (apply filter_In; rewrite X; auto). apply length_zero_iff_nil in Z. rewrite Z in I. destruct I.
  - intros A. destruct (filter _ (s_combos o)) as [|g l] eqn:F; [reflexivity|]. exfalso. assert (I : In g (g :: l)) by (left; auto). rewrite <- F in I. apply filter_In in I as (G & N). destruct g as [|a g]; [exact (NE _ G eq_refl)|].
    assert (J : In b (a :: g)) by (apply (@in_group _ a); auto; [left; auto|apply A, in_concat; exists (a :: g); split; auto; left; auto]). apply has_in in J. rewrite J in N. discriminate.
Qed.
(** Any of the equivalent orderings may be given, and one that is not of the orbit changes nothing. *)
Theorem C152_any b b' : In b (concat (s_combos o)) -> equivalent ps b b' -> remove_bit_combo b' o = remove_bit_combo b o.
Proof.
  intros BC E. destruct parts as (NE & EQ). unfold remove_bit_combo. rewrite (@filter_ext_in _ (fun g => negb (existsb (row_eqb b') g)) (fun g => negb (existsb (row_eqb b) g))); auto.
  intros g G. f_equal. apply Bool.eq_iff_eq_true. rewrite !has_in. split; intros J; [apply (in_group BC G J); auto|apply (EQ g b b' G J); auto].
Qed.
Theorem C152_none b : s_combos o <> [] -> ~ In b (concat (s_combos o)) -> remove_bit_combo b o = Some o.
Proof.
  intros NZ N. unfold remove_bit_combo. rewrite (@filter_ext_in _ _ (fun _ => true)), filter_all.
  - destruct (Nat.eqb_spec (length (s_combos o)) 0) as [Z|]; [apply length_zero_iff_nil in Z; congruence|]. destruct o; reflexivity.
  - intros g G. destruct (existsb (row_eqb b) g) eqn:X; auto. exfalso. apply N. apply has_in in X. apply in_concat. exists g. auto.
Qed.
End Removal.

(** Two sites with two functions each that a symmetry exchanges. *)
Definition c152_orbit : sorbit := mkS 0 1 [indicator 2; indicator 2] [[[0; 0]]; [[0; 1]; [1; 0]]; [[1; 1]]] 0 1.
Example C152_case : perm_group 2 ex_perms /\ sym_bits [[0; 1]; [0; 1]] ex_perms /\ functions_of [[0; 1]; [0; 1]] ex_perms c152_orbit /\
  equivalent ex_perms [1; 0] [0; 1] /\ (exists fs, functions c152_orbit = Some fs /\ length fs = 3) /\
  option_map s_combos (remove_bit_combo [1; 0] c152_orbit) = Some [[[0; 0]]; [[1; 1]]] /\
  (let? o := remove_bit_combo [1; 0] c152_orbit in let? o := remove_bit_combo [0; 0] o in remove_bit_combo [1; 1] o) = None.
Proof.
  split; [apply ex_perm_group|]. split; [apply ex_sym_bits|]. split; [eexists; split; [reflexivity|apply incl_refl]|]. split; [exists [1; 0]; split; [right; left; auto|reflexivity]|]. split; [eexists; split; reflexivity|]. split; reflexivity.
Qed.

Print Assumptions C152_removed.
Print Assumptions C152_error.
Print Assumptions C152_any.
Print Assumptions C152_none.
