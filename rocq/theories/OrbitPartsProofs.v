(** Proofs about the clusters, operations and site permutations of an orbit. *)
From Verif Require Import LibProofs SublatticeProofs OrbitProps.
From Verif Require Export OrbitGenSpec OrbitGenProofs.
From Coq Require Import Lia Permutation.
Set Implicit Arguments.
Unset Strict Implicit.
Local Open Scope Qc_scope.

(** ** Counting *)
Lemma rel_le {A B} (R : A -> B -> Prop) (la : list A) : forall lb : list B, NoDup la -> (forall a, In a la -> exists b, In b lb /\ R a b) ->
  (forall a a' b, In a la -> In a' la -> R a b -> R a' b -> a = a') -> (length la <= length lb)%nat.
Proof.
  induction la as [|a la IH]; intros lb D H I; simpl; [lia|]. inversion D as [|? ? Ha D']; subst.
  destruct (H a (or_introl eq_refl)) as (b & Hb & Rb). apply in_split in Hb as (l1 & l2 & ->).
  assert (length la <= length (l1 ++ l2))%nat; [|rewrite app_length in *; simpl; lia]. apply IH; auto.
  - intros a' Ha'. destruct (H a' (or_intror Ha')) as (b' & Hb' & Rb'). exists b'. split; auto. apply in_app_iff in Hb' as [?|[<- |?]]; apply in_app_iff; auto.
    exfalso. apply Ha. rewrite (I a a' b); simpl; auto.
  - intros; eapply I; simpl; eauto.
Qed.
Lemma count_groups {A B} (f : B -> A -> bool) (cs : list B) (l : list A) k : (forall x, In x l -> length (filter (fun c => f c x) cs) = 1%nat) ->
  (forall c, In c cs -> length (filter (f c) l) = k) -> (length cs * k = length l)%nat.
Proof.
  intros H1 H2. transitivity (list_sum (map (fun c => length (filter (f c) l)) cs)).
  - clear H1. induction cs as [|c cs IH]; simpl; [auto|]. rewrite <- IH by (intros; apply H2; right; auto). rewrite H2 by (left; auto). auto.
  - clear H2. induction l as [|x l IH]; simpl; [clear H1; induction cs; simpl; auto|]. rewrite <- IH by (intros; apply H1; right; auto).
    transitivity (length (filter (fun c => f c x) cs) + list_sum (map (fun c => length (filter (f c) l)) cs))%nat; [|rewrite H1 by (left; auto); auto].
    clear. induction cs as [|c cs IH]; simpl; auto. destruct (f c x); simpl; lia.
Qed.
Lemma one_of {A} (f : A -> bool) (l : list A) : (exists x, In x l /\ f x = true) ->
  (forall i j x y, nth_error l i = Some x -> nth_error l j = Some y -> f x = true -> f y = true -> i = j) -> length (filter f l) = 1%nat.
Proof.
  induction l as [|a l IH]; intros (x & Hx & Fx) U; [destruct Hx|]. simpl. destruct (f a) eqn:Fa.
  - simpl. f_equal. destruct (filter f l) as [|y r] eqn:E; auto. exfalso. assert (I : In y (filter f l)) by (rewrite E; left; auto). apply filter_In in I as [I Fy].
    apply In_nth_error in I as (j & Ej). assert (0 = S j)%nat; [|discriminate]. apply (U 0 (S j) a y)%nat; auto.
  - apply IH.
    + destruct Hx as [-> |Hx]; [congruence|eauto].
    + intros i j y z H1 H2 H3 H4. assert (S i = S j); [|congruence]. apply (U (S i) (S j) y z); auto.
Qed.
Lemma perm_seq n p : is_perm n p -> Permutation p (seq 0 n).
Proof.
  intros (L & D & H). apply NoDup_Permutation_bis; auto; [rewrite seq_length; lia|]. intros i Hi. apply in_seq. specialize (H i Hi). lia.
Qed.
Lemma map_nth_seq {A} (l : list A) d : map (fun i => nth i l d) (seq 0 (length l)) = l.
Proof.
  apply (nth_ext _ _ d d); [rewrite map_length, seq_length; auto|]. intros i Hi. rewrite map_length, seq_length in Hi.
  rewrite (nth_indep _ d (nth 0 l d)) by (rewrite map_length, seq_length; auto). rewrite (map_nth (fun i => nth i l d)). rewrite seq_nth; auto.
Qed.

Section Crystal.
Variables (dim : nat) (tol : Qc) (G : list (list Qc)) (sites : list (list Qc)) (ops : list symop).
Hypothesis CR : crystal dim tol G sites ops.
Notation site := (site dim sites).
Notation is_site := (is_site dim sites).
Notation site_cluster := (site_cluster dim sites).
Notation related := (related dim ops).
Notation moved := (moved dim).
Notation same_op := (same_op dim sites).
Notation proper := (proper dim sites).

Lemma eq_coords a b : proper a -> proper b -> (cluster_eq tol a b = true <-> moved (c_coords a) (c_coords b)).
Proof.
  intros (A & SA & EA) (B & SB & EB). destruct (mk_coords CR SA EA) as [Sa Ma]. destruct (mk_coords CR SB EB) as [Sb Mb]. rewrite (eq_moved CR SA SB EA EB).
  assert (HA : forall x, In x A -> site x) by apply SA. assert (HB : forall x, In x B -> site x) by apply SB.
  assert (Hb : forall x, In x (c_coords b) -> site x) by apply Sb. assert (Ha : forall x, In x (c_coords a) -> site x) by apply Sa. split; intros M.
  - apply (moved_trans CR Hb Ma). apply (moved_trans CR Hb M). apply (moved_sym CR HB Mb).
  - apply (moved_trans CR HB (moved_sym CR HA Ma)). apply (moved_trans CR HB M Mb).
Qed.

(** *** Translations are determined *)
Lemma sum_translate A t j : length t = dim -> (forall x, In x A -> site x) ->
  qsum (map (fun x => comp x j) (translate t A)) = qsum (map (fun x => comp x j) A) + Qc_of_nat (length A) * Qc_of_Z (nth j t 0%Z).
Proof.
  intros Lt H. unfold translate. rewrite map_map. induction A as [|x A IH]; simpl; [rewrite Qc_of_nat_0; ring|].
  rewrite IH by (intros; apply H; right; auto). rewrite Qc_of_nat_S. change (qvadd x (map Qc_of_Z t)) with (shift x t).
  rewrite comp_shift by (rewrite Lt; apply (site_len CR); apply H; left; auto). ring.
Qed.
Lemma translate_unique A t u : length t = dim -> length u = dim -> A <> [] -> (forall x, In x A -> site x) -> Permutation (translate t A) (translate u A) -> t = u.
Proof.
  intros Lt Lu N H P. apply (nth_ext _ _ 0%Z 0%Z); [congruence|]. intros j _.
  assert (E := qsum_perm (Permutation_map (fun x => comp x j) P)). rewrite !sum_translate in E by auto.
  assert (NZ : Qc_of_nat (length A) <> 0) by (apply Qc_of_nat_nz; destruct A; [congruence|discriminate]).
  assert (Qc_of_Z (nth j t 0%Z) = Qc_of_Z (nth j u 0%Z)).
  { assert (D : Qc_of_nat (length A) * Qc_of_Z (nth j t 0%Z) = Qc_of_nat (length A) * Qc_of_Z (nth j u 0%Z)) by (transitivity (Qc_of_nat (length A) * Qc_of_Z (nth j t 0%Z) + qsum (map (fun x => comp x j) A) - qsum (map (fun x => comp x j) A)); [ring|rewrite Qcplus_comm, E; ring]).
    transitivity (Qc_of_nat (length A) * Qc_of_Z (nth j t 0%Z) / Qc_of_nat (length A)); [field; auto|]. rewrite D. field; auto. }
  apply Z.le_antisymm; apply Qc_of_Z_le; qclra.
Qed.
Lemma moved_zero a b t : proper a -> proper b -> length t = dim -> Permutation (c_coords a) (translate t (c_coords b)) ->
  c_centroid a = c_centroid b /\ Permutation (c_coords a) (c_coords b).
Proof.
  intros Pa Pb Lt P. destruct (centroid_facts CR Pa) as [La Ca]. destruct (centroid_facts CR Pb) as [Lb Cb].
  assert (SB := proper_coords CR Pb). assert (HB : forall x, In x (c_coords b) -> site x) by apply SB.
  assert (NZ : Qc_of_nat (length (c_coords b)) <> 0) by (apply Qc_of_nat_nz; destruct SB as [N _]; destruct (c_coords b); [congruence|discriminate]).
  assert (E : forall j, (j < dim)%nat -> comp (c_centroid a) j = comp (c_centroid b) j + Qc_of_Z (nth j t 0%Z)).
  { intros j Hj. destruct (Ca j Hj) as (_ & _ & ->). destruct (Cb j Hj) as (_ & _ & ->). rewrite !nth_average by auto.
    rewrite (qsum_perm (Permutation_map (fun x => comp x j) P)), sum_translate by auto.
    replace (length (c_coords a)) with (length (c_coords b)) by (rewrite (Permutation_length P); unfold translate; rewrite map_length; auto). field. auto. }
  assert (Z : t = repeat 0%Z dim).
  { apply (nth_ext _ _ 0%Z 0%Z); [rewrite repeat_length; auto|]. intros j Hj. rewrite Lt in Hj. rewrite nth_repeat.
    specialize (E j Hj). destruct (Ca j Hj) as (A1 & A2 & _). destruct (Cb j Hj) as (B1 & B2 & _).
    apply Z.le_antisymm; apply Z_of_lt; change (Qc_of_Z 0) with 0; qclra. }
  subst t. split.
  - apply vec_ext; [congruence|]. intros j Hj. rewrite La in Hj. rewrite (E j Hj), nth_repeat. change (Qc_of_Z 0) with 0. ring.
  - assert (T : translate (repeat 0%Z dim) (c_coords b) = c_coords b); [|rewrite T in P; auto].
    unfold translate. transitivity (map (fun x => x) (c_coords b)); [|apply map_id]. apply map_ext_in. intros x Hx. apply (@shift_0 x dim). apply (site_len CR). auto.
Qed.

(** *** Operations up to lattice translations *)
Definition on_sites (f : list Qc -> list Qc) : Prop := forall x, site x -> site (f x).
Lemma on_op g : In g ops -> on_sites (operate g).
Proof. intros H x. apply (cr_op CR H). Qed.
Lemma same_sym f h : on_sites h -> same_op f h -> same_op h f.
Proof.
  intros Hh (t & Lt & E). exists (zneg t). split; [rewrite length_zneg; auto|]. intros x Hx. rewrite (E x Hx), shift_back; auto.
  rewrite Lt. apply (site_len CR). auto.
Qed.
Lemma same_trans f h k : on_sites k -> same_op f h -> same_op h k -> same_op f k.
Proof.
  intros Hk (t & Lt & E) (u & Lu & F). exists (zadd u t). split; [rewrite length_zadd; congruence|]. intros x Hx. rewrite (E x Hx), (F x Hx). apply shift_shift; try congruence.
  rewrite Lu. apply (site_len CR). auto.
Qed.
Lemma same_left g f h : In g ops -> on_sites h -> same_op f h -> same_op (fun x => operate g (f x)) (fun x => operate g (h x)).
Proof.
  intros Hg Hh (t & Lt & E). destruct (cr_lattice CR Hg Lt) as (t' & Lt' & E'). exists t'. split; auto. intros x Hx. rewrite (E x Hx). apply E'. auto.
Qed.
Lemma same_right f h s : on_sites s -> same_op f h -> same_op (fun x => f (s x)) (fun x => h (s x)).
Proof. intros Hs (t & Lt & E). exists t. split; [auto|]. intros x Hx. apply E. auto. Qed.
Lemma same_cancel g f h : In g ops -> on_sites f -> on_sites h -> same_op (fun x => operate g (f x)) (fun x => operate g (h x)) -> same_op f h.
Proof.
  intros Hg Hf Hh E. destruct (cr_inv CR Hg) as (k & Hk & I).
  assert (Hgh : on_sites (fun x => operate g (h x))) by (intros x Hx; apply (on_op Hg); auto).
  apply (@same_trans f (fun x => operate k (operate g (f x))) h); auto.
  - apply same_sym; auto. apply (same_right Hf I).
  - apply (@same_trans _ (fun x => operate k (operate g (h x)))); auto; [apply (same_left Hk Hgh E)|apply (same_right Hh I)].
Qed.

(** *** The clusters of an orbit *)
Definition apart (l : list cluster) : Prop :=
  forall i j x y, nth_error l i = Some x -> nth_error l j = Some y -> moved (c_coords x) (c_coords y) -> i = j.
Section Base.
Variable b : cluster.
Hypothesis PB : proper b.
Notation B := (c_coords b).
Lemma B_cluster : site_cluster B.
Proof using CR PB. apply (proper_coords CR PB). Qed.
Lemma B_sites x : In x B -> site x.
Proof using CR PB. apply B_cluster. Qed.
Definition img (g : symop) : cluster := match mk_cluster dim (map (operate g) B) with Some c => c | None => b end.
Lemma img_ok g : In g ops -> mk_cluster dim (map (operate g) B) = Some (img g) /\ proper (img g) /\ moved (c_coords (img g)) (map (operate g) B).
Proof using CR PB.
  intros Hg. assert (S := sc_image CR Hg B_cluster). destruct (mk_proper CR S) as (c & E & P). unfold img. rewrite E. split; auto. split; auto. apply (mk_coords CR S E).
Qed.
Lemma img_sites g x : In g ops -> In x (c_coords (img g)) -> site x.
Proof using CR PB. intros Hg. destruct (img_ok Hg) as (_ & P & _). apply (proper_coords CR P). Qed.
Lemma gB_sites g x : In g ops -> In x (map (operate g) B) -> site x.
Proof using CR PB. intros Hg. apply (image_sites CR Hg B_sites). Qed.
Lemma mem_moved c l : proper c -> (forall e, In e l -> proper e) -> (mem_cluster tol c l = true <-> exists e, In e l /\ moved (c_coords e) (c_coords c)).
Proof using CR.
  intros Pc Pl. unfold mem_cluster. rewrite existsb_exists. split; intros (e & He & M); exists e; split; auto; apply (eq_coords (Pl e He) Pc); auto.
Qed.
Lemma apart_add l c : proper c -> (forall e, In e l -> proper e) -> apart l -> mem_cluster tol c l = false -> apart (l ++ [c]).
Proof using CR.
  intros Pc Pl A M i j x y Hi Hj Mv.
  assert (N : forall e, In e l -> moved (c_coords e) (c_coords c) -> False) by (intros e He X; assert (mem_cluster tol c l = true) by (apply mem_moved; eauto); congruence).
  assert (D : forall k z, nth_error (l ++ [c]) k = Some z -> nth_error l k = Some z \/ (k = length l /\ z = c)).
  { intros k z Hk. destruct (Nat.lt_ge_cases k (length l)) as [L|L]; [rewrite nth_error_app1 in Hk; auto|]. rewrite nth_error_app2 in Hk by auto.
    destruct (k - length l)%nat as [|m] eqn:Em; [|destruct m; discriminate]. right. split; [lia|]. injection Hk as <-. auto. }
  destruct (D _ _ Hi) as [Hi'|[-> ->]]; destruct (D _ _ Hj) as [Hj'|[-> ->]]; auto.
  - apply (A i j x y); auto.
  - destruct (N x); auto. eapply nth_error_In; eauto.
  - destruct (N y); [eapply nth_error_In; eauto|]. apply (moved_sym CR); auto. apply (proper_coords CR). apply Pl. eapply nth_error_In; eauto.
Qed.
Lemma equiv_loop_ok gs : forall acc, incl gs ops -> (forall c, In c acc -> proper c) -> apart acc ->
  exists cs, equiv_loop dim tol B gs acc = Some cs /\ incl acc cs /\ (forall c, In c cs -> proper c) /\ apart cs /\
    (forall c, In c cs -> In c acc \/ exists g, In g gs /\ c = img g) /\ (forall g, In g gs -> exists c, In c cs /\ moved (c_coords c) (c_coords (img g))).
Proof using CR PB.
  induction gs as [|g gs IH]; intros acc HI HP HA.
  - exists acc. split; auto. split; [apply incl_refl|]. split; auto. split; auto. split; auto. intros g [].
  - simpl. assert (Hg : In g ops) by (apply HI; left; auto). destruct (img_ok Hg) as (E & Pg & M). rewrite E. cbn [option_bind].
    assert (HI' : incl gs ops) by (intros h Hh; apply HI; right; auto).
    destruct (mem_cluster tol (img g) acc) eqn:Em.
    + destruct (IH acc HI' HP HA) as (cs & E1 & E2 & E3 & E4 & E5 & E6). exists cs. split; auto. split; auto. split; auto. split; auto. split.
      * intros c Hc. destruct (E5 c Hc) as [?|(h & Hh & ->)]; [auto|right; exists h; split; auto; right; auto].
      * intros h [<- |Hh]; [|auto]. apply mem_moved in Em as (e & He & Me); auto. exists e. split; auto.
    + destruct (IH (acc ++ [img g]) HI') as (cs & E1 & E2 & E3 & E4 & E5 & E6); [|apply apart_add; auto|].
      { intros c Hc. apply in_app_iff in Hc as [?|[<- |[]]]; auto. }
      exists cs. split; auto. split; [intros c Hc; apply E2; apply in_app_iff; auto|]. split; auto. split; auto. split.
      * intros c Hc. destruct (E5 c Hc) as [Hc'|(h & Hh & ->)]; [|right; exists h; split; auto; right; auto].
        apply in_app_iff in Hc' as [?|[<- |[]]]; auto. right. exists g. split; [left; auto|auto].
      * intros h [<- |Hh]; [|auto]. exists (img g). split; [apply E2; apply in_app_iff; right; left; auto|]. apply (moved_refl CR). apply (proper_coords CR Pg).
Qed.
Lemma id_image g : In g ops -> same_op (operate g) (fun x => x) -> moved (map (operate g) B) B.
Proof using CR PB. intros Hg E. assert (M := moved_same E B_sites). rewrite map_id in M. exact M. Qed.
Lemma equiv_ok : exists cs, equiv_clusters dim tol ops b = Some cs /\ (forall c, In c cs -> proper c) /\ apart cs /\
  (forall c, In c cs -> exists g, In g ops /\ moved (c_coords c) (map (operate g) B)) /\ (forall g, In g ops -> exists c, In c cs /\ moved (c_coords c) (map (operate g) B)).
Proof using CR PB.
  destruct (@equiv_loop_ok ops [b]) as (cs & E1 & E2 & E3 & E4 & E5 & E6); [apply incl_refl|intros c [<- |[]]; auto| |].
  { intros [|[|i]] [|[|j]] x y; simpl; intros; try discriminate; auto. }
  exists cs. split; auto. split; auto. split; auto. split.
  - intros c Hc. destruct (E5 c Hc) as [[<- |[]]|(g & Hg & ->)].
    + destruct (cr_id CR) as (g & Hg & E). exists g. split; auto. apply (moved_sym CR B_sites). apply id_image; auto.
    + exists g. split; auto. apply (img_ok Hg).
  - intros g Hg. destruct (E6 g Hg) as (c & Hc & M). exists c. split; auto. apply (moved_trans CR (fun x => @gB_sites g x Hg) M). apply (img_ok Hg).
Qed.

(** *** Operations of the cluster *)
Definition stab (g : symop) : bool := cluster_eq tol (img g) b.
Lemma stab_iff g : In g ops -> (stab g = true <-> moved (map (operate g) B) B).
Proof using CR PB.
  intros Hg. destruct (img_ok Hg) as (_ & P & M). unfold stab. rewrite (eq_coords P PB). split; intros N.
  - apply (moved_trans CR B_sites (moved_sym CR (fun x => @gB_sites g x Hg) M) N).
  - apply (moved_trans CR B_sites M N).
Qed.
Definition fib (c : cluster) (g : symop) : bool := cluster_eq tol c (img g).
Lemma fib_iff c g : proper c -> In g ops -> (fib c g = true <-> moved (c_coords c) (map (operate g) B)).
Proof using CR PB.
  intros Pc Hg. destruct (img_ok Hg) as (_ & P & M). unfold fib. rewrite (eq_coords Pc P). split; intros N.
  - apply (moved_trans CR (fun x => @gB_sites g x Hg) N M).
  - apply (moved_trans CR (fun x => @img_sites g x Hg) N). apply (moved_sym CR (fun x => @gB_sites g x Hg) M).
Qed.
Lemma fib_size c g0 : proper c -> In g0 ops -> moved (c_coords c) (map (operate g0) B) -> length (filter (fib c) ops) = length (filter stab ops).
Proof using CR PB.
  intros Pc Hg0 M0. assert (Hc : forall x, In x (c_coords c) -> site x) by apply (proper_coords CR Pc). apply Nat.le_antisymm.
  - destruct (cr_inv CR Hg0) as (h0 & Hh0 & I0).
    apply (@rel_le _ _ (fun g k => In k ops /\ same_op (fun x => operate h0 (operate g x)) (operate k))); [apply NoDup_filter, (cr_nodup CR)| |].
    + intros g Hg. apply filter_In in Hg as [Hg Fg]. apply (fib_iff Pc Hg) in Fg. destruct (cr_comp CR Hh0 Hg) as (k & Hk & E). exists k. split; auto. apply filter_In. split; auto.
      apply (stab_iff Hk). assert (M1 := moved_same E B_sites). rewrite <- (map_map (operate g) (operate h0)) in M1.
      assert (M2 : moved (map (operate g) B) (map (operate g0) B)) by (apply (moved_trans CR (fun x => @gB_sites g0 x Hg0) (moved_sym CR (fun x => @gB_sites g x Hg) Fg) M0)).
      apply (moved_image CR Hh0 (fun x => @gB_sites g0 x Hg0)) in M2.
      assert (M3 := moved_same I0 B_sites). rewrite <- (map_map (operate g0) (operate h0)), map_id in M3.
      apply (moved_trans CR B_sites (moved_sym CR (fun x => @gB_sites k x Hk) M1)). apply (moved_trans CR B_sites M2 M3).
    + intros g g' k Hg Hg' [Hk R] [_ R']. apply filter_In in Hg as [Hg _]. apply filter_In in Hg' as [Hg' _]. apply (cr_distinct CR Hg Hg').
      apply (@same_cancel h0); auto using on_op. apply (same_trans (h := operate k)); auto.
      * intros x Hx. apply (on_op Hh0). apply (on_op Hg'). auto.
      * apply same_sym; auto using on_op.
  - apply (@rel_le _ _ (fun s k => In k ops /\ same_op (fun x => operate g0 (operate s x)) (operate k))); [apply NoDup_filter, (cr_nodup CR)| |].
    + intros s Hs. apply filter_In in Hs as [Hs Fs]. apply (stab_iff Hs) in Fs. destruct (cr_comp CR Hg0 Hs) as (k & Hk & E). exists k. split; auto. apply filter_In. split; auto.
      apply (fib_iff Pc Hk). assert (M1 := moved_same E B_sites). rewrite <- (map_map (operate s) (operate g0)) in M1.
      apply (moved_image CR Hg0 B_sites) in Fs. apply (moved_trans CR (fun x => @gB_sites k x Hk) M0).
      apply (moved_trans CR (fun x => @gB_sites k x Hk)) with (2 := M1). apply (moved_sym CR) with (2 := Fs). intros x Hx. apply (@gB_sites g0 x Hg0 Hx).
    + intros s s' k Hs Hs' [Hk R] [_ R']. apply filter_In in Hs as [Hs _]. apply filter_In in Hs' as [Hs' _]. apply (cr_distinct CR Hs Hs').
      apply (@same_cancel g0); auto using on_op. apply (same_trans (h := operate k)); auto.
      * intros x Hx. apply (on_op Hg0). apply (on_op Hs'). auto.
      * apply same_sym; auto using on_op.
Qed.
Lemma orbit_stabiliser cs : equiv_clusters dim tol ops b = Some cs -> (length cs * length (filter stab ops) = length ops)%nat.
Proof using CR PB.
  intros E. destruct equiv_ok as (cs' & E' & P & A & S & C). rewrite E in E'. injection E' as <-. apply (@count_groups _ _ fib).
  - intros g Hg. apply one_of.
    + destruct (C g Hg) as (c & Hc & M). exists c. split; auto. apply fib_iff; auto.
    + intros i j x y Hi Hj Fx Fy. apply (A i j x y); auto. assert (Px := P x (nth_error_In _ _ Hi)). assert (Py := P y (nth_error_In _ _ Hj)).
      apply fib_iff in Fx; auto. apply fib_iff in Fy; auto. apply (moved_trans CR (proj2 (proj2 (proper_coords CR Py))) Fx). apply (moved_sym CR (fun x => @gB_sites g x Hg) Fy).
  - intros c Hc. destruct (S c Hc) as (g0 & Hg0 & M). apply (fib_size (P c Hc) Hg0 M).
Qed.

(** *** Site permutations *)
Lemma matches_from x C : forall o, (forall y, In y C -> close tol x y = true <-> x = y) -> NoDup C -> In x C ->
  exists j, map fst (filter (fun p => close tol x (snd p)) (combine (seq o (length C)) C)) = [(o + j)%nat] /\ nth_error C j = Some x.
Proof using.
  induction C as [|y C IH]; intros o H D I; [destruct I|]. inversion D as [|? ? Hy D']; subst. cbn [length seq combine filter snd map].
  destruct (close tol x y) eqn:Ec.
  - apply H in Ec; [|left; auto]. subst y. exists 0%nat. rewrite Nat.add_0_r. split; auto. cbn [map fst]. f_equal.
    destruct (filter (fun p => close tol x (snd p)) (combine (seq (S o) (length C)) C)) as [|[i z] r] eqn:E; auto. exfalso.
    assert (J : In (i, z) (filter (fun p => close tol x (snd p)) (combine (seq (S o) (length C)) C))) by (rewrite E; left; auto). apply filter_In in J as [J F].
    apply in_combine_r in J. apply Hy. apply H in F; [|right; auto]. simpl in F. subst z. auto.
  - destruct (IH (S o)) as (j & E & N); auto.
    + intros z Hz. apply H. right; auto.
    + destruct I as [<- |I]; auto. exfalso. assert (X := proj2 (H y (or_introl eq_refl)) eq_refl). congruence.
    + exists (S j). split; auto. rewrite E. f_equal. lia.
Qed.
Lemma matches_one x C : site x -> (forall y, In y C -> site y) -> NoDup C -> In x C -> exists j, matches tol x C = [j] /\ nth_error C j = Some x.
Proof using CR. intros Hx HC D I. destruct (@matches_from x C 0) as (j & E & N); auto; [|exists j; auto]. intros y Hy. apply (closeb_eq CR Hx). auto. Qed.
Lemma mapping_ok C : Permutation C B -> exists m, coord_mapping tol B C = Some m /\ is_perm (length B) m /\ forall i, (i < length B)%nat -> nth i B [] = nth (nth i m 0%nat) C [].
Proof using CR PB.
  intros P. assert (HC : forall y, In y C -> site y) by (intros y Hy; apply B_sites; eapply Permutation_in; eauto).
  assert (DC : NoDup C) by (eapply Permutation_NoDup; [apply Permutation_sym; eauto|apply B_cluster]).
  unfold coord_mapping. destruct (@opt_map_all _ _ (fun x => match matches tol x C with [j] => Some j | _ => None end) B) as (m & E).
  { intros x Hx. destruct (@matches_one x C) as (j & -> & _); auto; [apply B_sites; auto|eapply Permutation_in; [apply Permutation_sym|]; eauto|congruence]. }
  exists m. split; auto. assert (L : length m = length B) by apply (opt_map_length _ _ E).
  assert (K : forall i, (i < length B)%nat -> nth_error C (nth i m 0%nat) = Some (nth i B [])).
  { intros i Hi. assert (Ei : nth_error B i = Some (nth i B [])) by (apply nth_error_nth'; auto). destruct (opt_map_nth _ _ _ E Ei) as (j & Hj & Nj).
    destruct (@matches_one (nth i B []) C) as (j' & Ej & N); auto; [apply B_sites; apply nth_In; auto|eapply Permutation_in; [apply Permutation_sym; eauto|apply nth_In; auto]|].
    rewrite Ej in Hj. injection Hj as <-. rewrite (nth_error_nth _ _ 0%nat Nj). auto. }
  split; [split; [auto|split]|].
  - apply (NoDup_nth m 0%nat). intros i j Hi Hj Eq. rewrite L in *. assert (Ei := K i Hi). assert (Ej := K j Hj). rewrite Eq, Ej in Ei. injection Ei as Ei.
    apply (proj1 (NoDup_nth B []) (proj1 (proj2 B_cluster))); auto.
  - intros j Hj. apply (In_nth _ _ 0%nat) in Hj as (i & Hi & <-). rewrite L in Hi. rewrite <- (Permutation_length P). apply nth_error_Some. rewrite (K i Hi). congruence.
  - intros i Hi. symmetry. apply nth_error_nth. auto.
Qed.
(** The operation [g] puts site [p i] where site [i] was, up to one lattice vector for the whole cluster. *)
Definition site_perm (g : list Qc -> list Qc) (p : list nat) : Prop :=
  is_perm (length B) p /\ exists t, length t = dim /\ forall i, (i < length B)%nat -> nth i B [] = shift (g (nth (nth i p 0%nat) B [])) t.
Lemma site_permutation_ok g : In g ops -> exists r, site_permutation dim tol b g = Some r /\ (r <> None <-> stab g = true) /\ forall p, r = Some p -> site_perm (operate g) p.
Proof using CR PB.
  intros Hg. destruct (img_ok Hg) as (E & P & M). unfold site_permutation. rewrite E. cbn [option_bind]. change (cluster_eq tol (img g) b) with (stab g). destruct (stab g) eqn:Es.
  - assert (Es' := Es). apply (eq_coords P PB) in Es' as (t & Lt & Pt). destruct (moved_zero P PB Lt Pt) as [Ec Pc]. rewrite Ec.
    assert (R : map (fun x => qvadd x (map (fun x => Qc_of_Z (qround x)) (qvsub (c_centroid b) (c_centroid b)))) (c_coords (img g)) = c_coords (img g)).
    { transitivity (map (fun x => x) (c_coords (img g))); [|apply map_id]. apply map_ext_in. intros x Hx. apply (img_sites Hg) in Hx. apply (site_len CR) in Hx.
      destruct (centroid_facts CR PB) as [Lb _]. apply vec_ext.
      - unfold qvadd. apply length_qmap2. rewrite map_length. unfold qvsub. rewrite length_qmap2; congruence.
      - intros j _. rewrite nth_qvadd by (rewrite map_length; unfold qvsub; rewrite length_qmap2; congruence).
        replace (nth j (map (fun x0 => Qc_of_Z (qround x0)) (qvsub (c_centroid b) (c_centroid b))) 0) with 0; [ring|].
        symmetry. transitivity (Qc_of_Z (qround (nth j (qvsub (c_centroid b) (c_centroid b)) 0))); [apply (map_nth (fun x0 => Qc_of_Z (qround x0)) (qvsub (c_centroid b) (c_centroid b)) 0 j)|].
        rewrite nth_qvsub by auto. replace (nth j (c_centroid b) 0 - nth j (c_centroid b) 0) with (Q2Qc 0) by ring. apply Qc_is_canon. reflexivity. }
    rewrite R. destruct (mapping_ok Pc) as (m & Em & Pm & Km). rewrite Em. cbn [option_bind]. exists (Some m). split; auto. split; [split; [auto|congruence]|].
    intros p [= <-]. split; auto. destruct (mk_coords CR (sc_image CR Hg B_cluster) E) as [_ _]. destruct (C57_normal (sc_points CR (sc_image CR Hg B_cluster))) as (c' & u & E' & Lu & Ec' & _).
    rewrite E in E'. injection E' as <-. exists u. split; auto. intros i Hi. rewrite (Km i Hi), Ec'. assert (Hj : (nth i m 0 < length B)%nat) by (destruct Pm as (Lm & _ & Bm); apply Bm; apply nth_In; rewrite Lm; auto).
    unfold translate. rewrite map_map. rewrite nth_indep with (d' := qvadd (operate g []) (map Qc_of_Z u)) by (rewrite map_length; auto).
    rewrite (map_nth (fun x => qvadd (operate g x) (map Qc_of_Z u))). auto.
  - exists None. split; auto. split; [split; congruence|]. intros p [=].
Qed.
Lemma symops_ok gs : incl gs ops -> exists ss, symops_loop dim tol b gs = Some ss /\ map fst ss = filter stab gs /\ forall g p, In (g, p) ss -> In g gs /\ site_perm (operate g) p.
Proof using CR PB.
  induction gs as [|g gs IH]; intros HI.
  - exists []. split; auto. split; auto. intros g p [].
  - destruct IH as (ss & E & F & S); [intros h Hh; apply HI; right; auto|]. destruct (@site_permutation_ok g) as (r & Er & Sr & Pr); [apply HI; left; auto|].
    simpl. rewrite Er. cbn [option_bind]. rewrite E. cbn [option_bind]. destruct r as [p|].
    + exists ((g, p) :: ss). split; auto. rewrite (proj1 Sr) by congruence. simpl. rewrite F. split; auto. intros h q [[= <- <-]|H]; [split; auto|]. destruct (S h q H). split; auto.
    + exists ss. split; auto. destruct (stab g) eqn:Es; [destruct (proj2 Sr eq_refl eq_refl)|]. rewrite F. split; auto. intros h q H. destruct (S h q H). split; auto.
Qed.

Lemma nth_perm p i : is_perm (length B) p -> (i < length B)%nat -> (nth i p 0 < length B)%nat.
Proof using. intros (L & _ & H) Hi. apply H. apply nth_In. rewrite L. auto. Qed.
Lemma nth_B i : (i < length B)%nat -> site (nth i B []).
Proof using CR PB. intros Hi. apply B_sites. apply nth_In. auto. Qed.
Lemma perm_translate f p t : is_perm (length B) p -> (forall i, (i < length B)%nat -> nth i B [] = shift (f (nth (nth i p 0%nat) B [])) t) -> Permutation B (translate t (map f B)).
Proof using.
  intros Pp E. set (F := fun j => shift (f (nth j B [])) t). apply (perm_trans (l' := map F p)).
  - apply perm_eq. transitivity (map (fun i => nth i B []) (seq 0 (length B))); [symmetry; apply map_nth_seq|].
    transitivity (map F (map (fun i => nth i p 0%nat) (seq 0 (length p)))); [|rewrite map_nth_seq; auto]. rewrite map_map, (proj1 Pp). apply map_ext_in. intros i Hi. apply in_seq in Hi. apply E. lia.
  - apply (perm_trans (Permutation_map F (perm_seq Pp))). apply perm_eq. transitivity (translate t (map f (map (fun i => nth i B []) (seq 0 (length B))))).
    + unfold translate. rewrite !map_map. auto.
    + rewrite map_nth_seq. auto.
Qed.
Lemma site_perm_same f h p : on_sites h -> same_op f h -> site_perm f p -> site_perm h p.
Proof using CR PB.
  intros Hh (w & Lw & E) [Pp (t & Lt & F)]. split; auto. exists (zadd w t). split; [rewrite length_zadd; congruence|]. intros i Hi. rewrite (F i Hi).
  assert (Hs := nth_B (nth_perm Pp Hi)). rewrite E by auto. apply shift_shift; try congruence. rewrite Lw. apply (site_len CR). auto.
Qed.
Lemma site_perm_unique h p q : on_sites h -> (forall x y, site x -> site y -> h x = h y -> x = y) -> site_perm h p -> site_perm h q -> p = q.
Proof using CR PB.
  intros Hh I [Pp (t & Lt & E)] [Pq (u & Lu & F)]. assert (t = u).
  { apply (@translate_unique (map h B)); auto.
    - destruct B_cluster as [N _]. destruct B; [congruence|discriminate].
    - intros x Hx. apply in_map_iff in Hx as (y & <- & Hy). apply Hh, B_sites. auto.
    - eapply perm_trans; [apply Permutation_sym, (perm_translate Pp E)|apply (perm_translate Pq F)]. }
  subst u. apply (nth_ext _ _ 0%nat 0%nat); [rewrite (proj1 Pp), (proj1 Pq); auto|]. intros i Hi. rewrite (proj1 Pp) in Hi.
  assert (Sp := nth_B (nth_perm Pp Hi)). assert (Sq := nth_B (nth_perm Pq Hi)).
  apply (proj1 (NoDup_nth B []) (proj1 (proj2 B_cluster))); auto using nth_perm. apply I; auto.
  apply (@shift_inj _ _ t); try (rewrite Lt; apply (site_len CR); auto). rewrite <- E, <- F by auto. auto.
Qed.
Lemma act_perm p q : is_perm (length B) p -> is_perm (length B) q -> is_perm (length B) (act p q).
Proof using.
  intros Pp Pq. split; [|split].
  - unfold act. rewrite map_length. apply Pq.
  - assert (P : Permutation (act p q) p).
    { apply (perm_trans (Permutation_map (fun i => nth i p 0%nat) (perm_seq Pq))). apply perm_eq. rewrite <- (proj1 Pp). apply map_nth_seq. }
    eapply Permutation_NoDup; [apply Permutation_sym, P|]. apply Pp.
  - intros i Hi. apply in_map_iff in Hi as (j & <- & Hj). apply nth_perm; auto. apply Pq. auto.
Qed.
Lemma nth_act p q i : (i < length q)%nat -> nth i (act p q) 0%nat = nth (nth i q 0%nat) p 0%nat.
Proof using. intros Hi. unfold act. rewrite (nth_indep _ 0%nat (nth 0 p 0%nat)) by (rewrite map_length; auto). apply (map_nth (fun i => nth i p 0%nat)). Qed.
Lemma site_perm_comp g h p q : In h ops -> on_sites g -> site_perm g p -> site_perm (operate h) q -> site_perm (fun x => operate h (g x)) (act p q).
Proof using CR PB.
  intros Hh Hg [Pp (t & Lt & E)] [Pq (u & Lu & F)]. split; [apply act_perm; auto|]. destruct (cr_lattice CR Hh Lt) as (t' & Lt' & E').
  exists (zadd t' u). split; [rewrite length_zadd; congruence|]. intros i Hi. rewrite nth_act by (rewrite (proj1 Pq); auto).
  rewrite (F i Hi). rewrite (E (nth i q 0%nat)) by (apply nth_perm; auto). assert (Hs : site (g (nth (nth (nth i q 0%nat) p 0%nat) B []))) by (apply Hg, nth_B; auto using nth_perm).
  rewrite E' by auto. apply shift_shift; try congruence. rewrite Lt'. apply (site_len CR). apply (on_op Hh). auto.
Qed.
Lemma site_perm_stab g p : In g ops -> site_perm (operate g) p -> stab g = true.
Proof using CR PB.
  intros Hg [Pp (t & Lt & E)]. apply (stab_iff Hg). apply (moved_sym CR (fun x => @gB_sites g x Hg)). exists t. split; auto. apply (perm_translate Pp E).
Qed.
Lemma site_perm_id p : site_perm (fun x => x) p -> p = seq 0 (length B).
Proof using CR PB.
  intros H. apply (@site_perm_unique (fun x => x)); auto; [intros x Hx; auto|]. split.
  - split; [apply seq_length|]. split; [apply seq_NoDup|]. intros i Hi. apply in_seq in Hi. lia.
  - exists (repeat 0%Z dim). split; [apply repeat_length|]. intros i Hi. rewrite seq_nth by auto. simpl. symmetry. apply shift_0. apply (site_len CR). apply nth_B. auto.
Qed.
Lemma parts_ok : exists P, orbit_parts dim tol ops b = Some P /\
  (forall c, In c (o_clusters P) -> proper c) /\ apart (o_clusters P) /\
  (forall c, In c (o_clusters P) -> exists g, In g ops /\ moved (c_coords c) (map (operate g) B)) /\
  (forall g, In g ops -> exists c, In c (o_clusters P) /\ moved (c_coords c) (map (operate g) B)) /\
  (forall g, In g (o_symops P) <-> In g ops /\ moved (map (operate g) B) B) /\
  (length (o_clusters P) * length (o_symops P) = length ops)%nat /\
  (forall p, In p (o_perms P) <-> exists g, In g ops /\ site_perm (operate g) p) /\
  perm_group (length B) (o_perms P).
Proof using CR PB.
  destruct equiv_ok as (cs & E & C1 & C2 & C3 & C4). destruct (symops_ok (incl_refl ops)) as (ss & Es & Fs & Ss). assert (OS := orbit_stabiliser E).
  assert (L : length ss = length (filter stab ops)) by (rewrite <- Fs, map_length; auto).
  unfold orbit_parts. rewrite E, Es. cbn [option_bind]. rewrite L, OS, Nat.eqb_refl. exists (mkParts cs (map fst ss) (unique_rows (map snd ss))). cbn [o_clusters o_symops o_perms].
  assert (PI : forall p, In p (unique_rows (map snd ss)) <-> exists g, In g ops /\ site_perm (operate g) p).
  { intros p. rewrite unique_rows_in, in_map_iff. split.
    - intros ([g p'] & <- & H). exists g. destruct (Ss g p' H). auto.
    - intros (g & Hg & Hp). assert (St := site_perm_stab Hg Hp). assert (I : In g (map fst ss)) by (rewrite Fs; apply filter_In; auto).
      apply in_map_iff in I as ([g' p'] & X & I). simpl in X. subst g'. exists (g, p'). split; auto. simpl. apply (@site_perm_unique (operate g)); auto using on_op.
      + intros x y Hx Hy. apply (op_inj CR Hg Hx Hy).
      + apply (Ss g p' I). }
  split; auto. split; auto. split; auto. split; auto. split; auto. split.
  { intros g. rewrite Fs, filter_In. split; intros [Hg H]; split; auto; apply (stab_iff Hg); auto. }
  split; [rewrite map_length, L; auto|]. split; auto. constructor.
  - intros p Hp. apply PI in Hp as (g & _ & Pp & _). auto.
  - apply PI. destruct (cr_id CR) as (g & Hg & I). exists g. split; auto.
    assert (St : stab g = true) by (apply (stab_iff Hg), (id_image Hg I)). assert (J : In g (map fst ss)) by (rewrite Fs; apply filter_In; auto).
    apply in_map_iff in J as ([g' p'] & X & J). simpl in X. subst g'. destruct (Ss g p' J) as [_ Sp].
    replace (seq 0 (length B)) with p'; auto. apply site_perm_id. apply (@site_perm_same (operate g)); auto. intros x Hx; auto.
  - intros p q r Hp Hq Hr. apply PI in Hp as (g & Hg & Pp). apply PI in Hq as (h & Hh & Pq). apply PI.
    rewrite (@permute_act (length B)) in Hr; [|apply Pp|apply Pq]. injection Hr as <-. destruct (cr_comp CR Hh Hg) as (k & Hk & Ek). exists k. split; auto.
    apply (site_perm_same (on_op Hk) Ek). apply site_perm_comp; auto using on_op.
  - intros p Hp. apply PI in Hp as (g & Hg & Pp). destruct (cr_inv CR Hg) as (h & Hh & I).
    assert (Mh : moved (map (operate h) B) B).
    { assert (Mg : moved (map (operate g) B) B) by (apply (stab_iff Hg), (site_perm_stab Hg Pp)). apply (moved_sym CR B_sites) in Mg || idtac. assert (M1 := moved_same I B_sites). rewrite <- (map_map (operate g) (operate h)), map_id in M1.
      apply (moved_image CR Hh (fun x => @gB_sites g x Hg)) in Mg. apply (moved_trans CR B_sites Mg M1). }
    assert (J : In h (map fst ss)) by (rewrite Fs; apply filter_In; split; auto; apply stab_iff; auto). apply in_map_iff in J as ([h' q] & X & J). simpl in X. subst h'. destruct (Ss h q J) as [_ Pq].
    exists q. split; [apply PI; eauto|]. rewrite (@permute_act (length B)); [|apply Pp|apply Pq]. f_equal. apply site_perm_id.
    apply (@site_perm_same (fun x => operate h (operate g x))); auto; [intros x Hx; auto|]. apply site_perm_comp; auto using on_op.
Qed.
End Base.
End Crystal.
