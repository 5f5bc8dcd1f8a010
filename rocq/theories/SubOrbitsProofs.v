(** Proofs about sub-orbits and sub-functions. *)
From Verif Require Import LibProofs SublatticeProofs OrbitProps SubOrbitsSpec.
From Verif Require Export OrbitSearchProofs.
From Coq Require Import Lia Permutation.
Set Implicit Arguments.
Unset Strict Implicit.
Local Open Scope Qc_scope.

(** ** Lists *)
Lemma comb_len {A} (l : list A) : forall k c, In c (combinations l k) -> length c = k.
Proof.
  induction l as [|x l IH]; intros [|k] c H; simpl in H; try (destruct H as [<-|[]]; auto); try tauto.
  apply in_app_or in H as [H|H]; [apply in_map_iff in H as (d & <- & H); simpl; f_equal; eauto|eauto].
Qed.
Lemma comb_incl {A} (l : list A) : forall k c, In c (combinations l k) -> incl c l.
Proof.
  induction l as [|x l IH]; intros [|k] c H; simpl in H; try (destruct H as [<-|[]]; apply incl_nil_l); try tauto.
  apply in_app_or in H as [H|H]; [apply in_map_iff in H as (d & <- & H)|].
  - intros y [<-|Hy]; [left; auto|right; apply (IH k d); auto].
  - intros y Hy. right. apply (IH (S k) c); auto.
Qed.
Lemma comb_nodup {A} (l : list A) : forall k c, NoDup l -> In c (combinations l k) -> NoDup c.
Proof.
  induction l as [|x l IH]; intros [|k] c D H; simpl in H; try (destruct H as [<-|[]]; constructor); try tauto.
  inversion D as [|? ? Hx D']; subst. apply in_app_or in H as [H|H]; [apply in_map_iff in H as (d & <- & H)|eauto].
  constructor; eauto. intros Hd. apply Hx. apply (comb_incl H). auto.
Qed.
Lemma comb_perm {A} (dec : forall a b : A, {a = b} + {a <> b}) (l : list A) : forall M, NoDup M -> incl M l -> exists c, In c (combinations l (length M)) /\ Permutation c M.
Proof.
  induction l as [|x l IH]; intros M D I.
  - destruct M as [|y M]; [exists []; simpl; auto|]. destruct (I y (or_introl eq_refl)).
  - destruct (in_dec dec x M) as [Hx|Hx].
    + apply in_split in Hx as (M1 & M2 & ->). apply NoDup_remove in D as [D Hx]. destruct (IH (M1 ++ M2)) as (c & Hc & P); auto.
      { intros y Hy. destruct (I y) as [<-|]; auto; [|tauto]. apply in_app_or in Hy. apply in_or_app. simpl. tauto. }
      exists (x :: c). split; [|apply Permutation_cons_app; auto]. rewrite app_length in *. simpl. rewrite Nat.add_succ_r. simpl. apply in_or_app. left. apply in_map. auto.
    + destruct (IH M) as (c & Hc & P); auto.
      { intros y Hy. destruct (I y Hy) as [<-|]; auto. tauto. }
      exists c. split; auto. destruct M as [|z M].
      * simpl in *. destruct l; simpl in Hc; destruct Hc as [<-|[]]; simpl; auto.
      * simpl length in *. simpl. apply in_or_app. right. auto.
Qed.
Lemma row_nth A m i : (i < length m)%nat -> nth i (rows A m) [] = nth (nth i m 0%nat) A [].
Proof. intros H. unfold rows. rewrite (nth_indep _ [] (nth (nth 0 [] 0%nat) A [])) by (rewrite map_length; auto). rewrite (nth_indep _ _ (nth 0%nat A [])) by (rewrite map_length; auto). apply (map_nth (fun i => nth i A [])). Qed.
Lemma positions {A} (d : A) (L l : list A) : incl l L -> exists m, length m = length l /\ (forall i, In i m -> (i < length L)%nat) /\ map (fun i => nth i L d) m = l.
Proof.
  induction l as [|x l IH]; intros I; [exists []; simpl; repeat split; auto; tauto|].
  destruct IH as (m & Lm & H & E); [intros y Hy; apply I; right; auto|]. destruct (In_nth L x d) as (j & Hj & Ej); [apply I; left; auto|].
  exists (j :: m). simpl. repeat split; auto; [intros i [<-|Hi]; auto|congruence].
Qed.
Lemma nodup_rows A m : NoDup A -> NoDup m -> (forall i, In i m -> (i < length A)%nat) -> NoDup (rows A m).
Proof.
  intros DA D. unfold rows. induction D as [|i m Hi D IH]; intros H; simpl; constructor; [|apply IH; intros; apply H; right; auto].
  intros I. apply in_map_iff in I as (j & E & Hj). apply Hi. replace i with j; auto. rewrite NoDup_nth with (d := []) in DA. apply DA; auto; apply H; simpl; auto.
Qed.
Lemma nodup_map_inv {A B} (f : A -> B) l : NoDup (map f l) -> NoDup l.
Proof. induction l as [|x l IH]; simpl; intros D; [constructor|]. inversion D as [|? ? Hx D']; subst. constructor; auto. intros I. apply Hx. apply in_map. auto. Qed.
(** The permutation between two arrangements of the same list. *)
Lemma perm_of {A} (d : A) (X Y : list A) : NoDup Y -> Permutation X Y -> exists p, is_perm (length X) p /\ forall i, (i < length X)%nat -> nth i X d = nth (nth i p 0%nat) Y d.
Proof.
  intros D P. assert (L := Permutation_length P). destruct (@positions A d Y X) as (m & Lm & H & E); [intros x Hx; eapply Permutation_in; eauto|].
  assert (DX : NoDup X) by (eapply Permutation_NoDup; [apply Permutation_sym|]; eauto).
  exists m. split; [split; [auto|split]|].
  - apply (@nodup_map_inv _ _ (fun i => nth i Y d)). rewrite E. auto.
  - rewrite L. auto.
  - intros i Hi. rewrite <- E at 1. rewrite (nth_indep _ d (nth 0%nat Y d)) by (rewrite map_length; lia). apply (map_nth (fun i => nth i Y d)).
Qed.

Ltac zl := first [congruence | rewrite length_zadd by zl; zl | rewrite length_zneg; zl | rewrite length_shift by zl; zl].
Section Crystal.
Variables (dim : nat) (tol atol : Qc) (G : list (list Qc)) (sites : list (list Qc)) (ops : list symop) (sp : nat -> nat).
Hypothesis CR : crystal dim tol G sites ops.
Hypothesis AT : 0 < atol /\ atol <= tol.
Hypothesis SPC : same_spaces dim sites ops sp.
Notation site := (site dim sites).
Notation is_site := (is_site dim sites).
Notation site_cluster := (site_cluster dim sites).
Notation moved := (moved dim).
Notation proper := (proper dim sites).
Notation contains := (contains dim ops).
Notation embeds := (embeds dim ops).

(** ** Operations *)
Lemma shift_zero x : site x -> shift x (repeat 0%Z dim) = x.
Proof. intros H. apply shift_0. apply (site_len CR). auto. Qed.
Lemma shift_site x t : site x -> length t = dim -> site (shift x t).
Proof. apply (site_shift CR). Qed.
Lemma op_site g x : In g ops -> site x -> site (operate g x).
Proof. intros. apply (cr_op CR); auto. Qed.
(** Equations between images of sites can be solved. *)
Lemma solve g h t u : In g ops -> In h ops -> length t = dim -> length u = dim ->
  exists k w, In k ops /\ length w = dim /\ forall x y, site x -> site y -> shift (operate g x) t = shift (operate h y) u -> x = shift (operate k y) w.
Proof using CR.
  intros Hg Hh Lt Lu. destruct (cr_inv CR Hg) as (g' & Hg' & a & La & Ea). cbn beta in Ea.
  destruct (cr_lattice CR Hg' Lt) as (t' & Lt' & Et). destruct (cr_lattice CR Hg' Lu) as (u' & Lu' & Eu).
  destruct (cr_comp CR Hg' Hh) as (k & Hk & b & Lb & Eb). cbn beta in Eb.
  exists k, (zadd (zadd b u') (zadd (zneg t') (zneg a))). split; auto. split; [zl|]. intros x y Hx Hy E. apply (f_equal (operate g')) in E.
  rewrite Et, Eu in E by (apply op_site; auto). rewrite Ea in E by auto. rewrite Eb in E by auto.
  assert (Lx := site_len CR Hx). assert (Lk := site_len CR (op_site Hk Hy)).
  rewrite <- (shift_shift (x := operate k y) (s := zadd b u')) by zl. rewrite <- (shift_shift (x := operate k y) (s := b)) by zl. rewrite <- E.
  rewrite (shift_shift (x := x)) by zl. rewrite shift_shift by zl. symmetry.
  apply vec_ext; [zl|]. intros j _. rewrite comp_shift by zl. rewrite nth_zadd by zl. rewrite !nth_zadd by zl. rewrite !nth_zneg.
  replace (nth j a 0 + nth j t' 0 + (- nth j t' 0 + - nth j a 0))%Z with 0%Z by lia. change (Qc_of_Z 0) with 0. ring.
Qed.
(** Images of images are images. *)
Lemma compose g h t u : In g ops -> In h ops -> length t = dim -> length u = dim ->
  exists k w, In k ops /\ length w = dim /\ forall x, site x -> shift (operate g (shift (operate h x) u)) t = shift (operate k x) w.
Proof using CR.
  intros Hg Hh Lt Lu. destruct (cr_lattice CR Hg Lu) as (u' & Lu' & Eu). destruct (cr_comp CR Hg Hh) as (k & Hk & b & Lb & Eb). cbn beta in Eb.
  exists k, (zadd (zadd b u') t). split; auto. assert (L1 : length (zadd b u') = dim) by (rewrite length_zadd; congruence). split; [rewrite length_zadd; congruence|].
  intros x Hx. rewrite Eu by (apply op_site; auto). rewrite Eb by auto. assert (Lk := site_len CR (op_site Hk Hx)).
  rewrite (shift_shift (x := operate k x) (s := b)) by congruence. apply shift_shift; congruence.
Qed.
(** The identity. *)
Lemma identity : exists e w, In e ops /\ length w = dim /\ forall x, site x -> x = shift (operate e x) w.
Proof using CR.
  destruct (cr_id CR) as (e & He & a & La & Ea). exists e, (zneg a). split; auto. split; [rewrite length_zneg; auto|]. intros x Hx. rewrite Ea by auto. symmetry. apply shift_back. rewrite La. apply (site_len CR). auto.
Qed.
Lemma shift_inj_site x y t : site x -> site y -> length t = dim -> shift x t = shift y t -> x = y.
Proof using CR. intros Hx Hy Lt. apply shift_inj; rewrite Lt; apply (site_len CR); auto. Qed.

(** ** Positions *)
Definition emb (A B : list (list Qc)) (m : list nat) : Prop :=
  length m = length B /\ (forall i, In i m -> (i < length A)%nat) /\
  exists g t, In g ops /\ length t = dim /\ forall i, (i < length B)%nat -> nth (nth i m 0%nat) A [] = shift (operate g (nth i B [])) t.
Lemma emb_iff A B m : embeds A B m <-> emb A B m.
Proof using.
  split; intros (L & H & g & t & Hg & Lt & E); (split; [auto|split; [auto|]]); exists g, t; split; auto; split; auto.
  - intros i Hi. destruct (E i (nth i B [])) as (j & Hj & Ej); [apply nth_error_nth'; auto|]. rewrite (nth_error_nth _ _ 0%nat Hj). apply (nth_error_nth _ _ [] Ej).
  - intros i x Hx. assert (Hi : (i < length B)%nat) by (apply nth_error_Some; congruence). exists (nth i m 0%nat). split; [apply nth_error_nth'; lia|].
    rewrite <- (nth_error_nth _ _ [] Hx). rewrite <- E by auto. apply nth_error_nth'. apply H. apply nth_In. lia.
Qed.
Lemma nth_site A i : (forall x, In x A -> site x) -> (i < length A)%nat -> site (nth i A []).
Proof using. intros H Hi. apply H. apply nth_In. auto. Qed.
Lemma nth_lt A (m : list nat) i : (forall i, In i m -> (i < length (A : list (list Qc)))%nat) -> (i < length m)%nat -> (nth i m 0 < length A)%nat.
Proof using. intros H Hi. apply H. apply nth_In. auto. Qed.
Lemma contains_iff A B : contains A B <-> exists m, emb A B m.
Proof using.
  split.
  - intros (g & t & Hg & Lt & I). destruct (@positions _ [] A _ I) as (m & Lm & H & E). rewrite map_length in Lm. exists m. split; auto. split; auto. exists g, t. split; auto. split; auto.
    intros i Hi. change (rows A m = map (fun x => shift (operate g x) t) B) in E. rewrite <- row_nth by lia. rewrite E. rewrite (nth_indep _ [] (shift (operate g []) t)) by (rewrite map_length; auto). apply (map_nth (fun x => shift (operate g x) t)).
  - intros (m & L & H & g & t & Hg & Lt & E). exists g, t. split; auto. split; auto. intros x Hx. apply in_map_iff in Hx as (y & <- & Hy). apply (In_nth _ _ []) in Hy as (i & Hi & <-). rewrite <- E by auto.
    apply nth_In. apply nth_lt; auto. lia.
Qed.

(** ** Clusters of an orbit *)
Lemma in_order b P c : proper b -> orbit_parts dim tol ops b = Some P -> In c (o_clusters P) ->
  exists g t, In g ops /\ length t = dim /\ c_coords c = map (fun x => shift (operate g x) t) (c_coords b).
Proof using CR.
  intros PB E Hc. unfold orbit_parts in E. destruct (equiv_clusters dim tol ops b) as [cs|] eqn:Ec; [|discriminate]. cbn [option_bind] in E.
  destruct (symops_loop dim tol b ops) as [ss|]; [|discriminate]. cbn [option_bind] in E. destruct (_ =? _)%nat; [|discriminate]. injection E as <-. cbn [o_clusters] in Hc.
  destruct (@equiv_loop_ok dim tol G sites ops CR b PB ops [b]) as (cs' & E1 & _ & _ & _ & E5 & _); [apply incl_refl|intros x [<- |[]]; auto| |].
  { intros [|[|i]] [|[|j]] x y; simpl; intros; try discriminate; auto. }
  unfold equiv_clusters in Ec. rewrite Ec in E1. injection E1 as <-. assert (SB := proper_coords CR PB). destruct (E5 c Hc) as [[<-|[]]|(g & Hg & ->)].
  - destruct identity as (e & w & He & Lw & Ee). exists e, w. split; auto. split; auto. transitivity (map (fun x => x) (c_coords b)); [symmetry; apply map_id|]. apply map_ext_in. intros x Hx. apply Ee. apply SB. auto.
  - destruct (img_ok CR PB Hg) as (Ei & _ & _). assert (SI := sc_image CR Hg SB). destruct (C57_normal (sc_points CR SI)) as (c' & t & Ec' & Lt & Ecc & _). rewrite Ei in Ec'. injection Ec' as <-.
    exists g, t. split; auto. split; auto. rewrite Ecc. rewrite map_shift_op. auto.
Qed.
Lemma base_in b P : proper b -> orbit_parts dim tol ops b = Some P -> In b (o_clusters P).
Proof using CR.
  intros PB E. unfold orbit_parts in E. destruct (equiv_clusters dim tol ops b) as [cs|] eqn:Ec; [|discriminate]. cbn [option_bind] in E.
  destruct (symops_loop dim tol b ops) as [ss|]; [|discriminate]. cbn [option_bind] in E. destruct (_ =? _)%nat; [|discriminate]. injection E as <-. cbn [o_clusters].
  destruct (@equiv_loop_ok dim tol G sites ops CR b PB ops [b]) as (cs' & E1 & E2 & _); [apply incl_refl|intros x [<- |[]]; auto| |].
  { intros [|[|i]] [|[|j]] x y; simpl; intros; try discriminate; auto. }
  unfold equiv_clusters in Ec. rewrite Ec in E1. injection E1 as <-. apply E2. left. auto.
Qed.

(** ** is_sub_orbit *)
Lemma sub_cluster_ok A m : site_cluster A -> m <> [] -> NoDup m -> (forall i, In i m -> (i < length A)%nat) -> site_cluster (rows A m).
Proof using.
  intros (N & D & H) Nm Dm I. split; [destruct m; [congruence|discriminate]|]. split; [apply nodup_rows; auto|]. intros x Hx. apply in_map_iff in Hx as (i & <- & Hi). apply H. apply nth_In. auto.
Qed.
Lemma is_sub_orbit_ok o s : proper (g_base o) -> proper (g_base s) ->
  exists b, is_sub_orbit dim tol ops o s = Some b /\ (b = true <-> (size s < size o)%nat /\ contains (c_coords (g_base o)) (c_coords (g_base s))).
Proof using CR.
  intros PO PS. unfold is_sub_orbit, size. set (A := c_coords (g_base o)). set (B := c_coords (g_base s)). assert (SA : site_cluster A) by apply (proper_coords CR PO). assert (SB : site_cluster B) by apply (proper_coords CR PS).
  destruct (Nat.leb_spec (length A) (length B)) as [L|L]; [exists false; split; auto; split; [discriminate|lia]|].
  destruct (parts_ok CR PS) as (P & EP & C1 & _ & C3 & C4 & _). rewrite EP. cbn [option_bind].
  assert (NB : (0 < length B)%nat) by (destruct SB as [N _]; destruct B; [congruence|simpl; lia]).
  assert (OK : forall inds, In inds (combinations (seq 0 (length A)) (length B)) -> site_cluster (rows A inds)).
  { intros inds Hi. apply sub_cluster_ok; auto.
    - apply comb_len in Hi. destruct inds; [simpl in Hi; lia|discriminate].
    - apply (comb_nodup (seq_NoDup _ _) Hi).
    - intros i Hx. apply (comb_incl Hi) in Hx. apply in_seq in Hx. lia. }
  destruct (@opt_map_all _ _ (fun inds => mk_cluster dim (rows A inds)) (combinations (seq 0 (length A)) (length B))) as (cs & Ecs).
  { intros inds Hi. destruct (mk_proper CR (OK _ Hi)) as (c & -> & _). discriminate. }
  rewrite Ecs. cbn [option_bind]. eexists. split; [reflexivity|]. rewrite existsb_exists. split.
  - intros (c & Hc & M). split; auto. apply In_nth_error in Hc as (n & Hn). assert (Hl : exists inds, nth_error (combinations (seq 0 (length A)) (length B)) n = Some inds).
    { destruct (nth_error (combinations (seq 0 (length A)) (length B)) n) eqn:En; eauto. apply nth_error_None in En. rewrite <- (opt_map_length _ _ Ecs) in En. apply nth_error_None in En. congruence. }
    destruct Hl as (inds & Hi). destruct (opt_map_nth _ _ _ Ecs Hi) as (c' & Ec & Hn'). rewrite Hn in Hn'. injection Hn' as <-. assert (Hin := nth_error_In _ _ Hi). assert (SR := OK _ Hin).
    apply (mem_moved CR) in M as (e & He & Me); [|exists (rows A inds); auto|auto]. destruct (C3 e He) as (g & Hg & Mg). destruct (mk_coords CR SR Ec) as [Sc Mc].
    assert (SI : forall x, In x (map (operate g) B) -> site x) by (apply (image_sites CR Hg); apply SB).
    assert (M : moved (rows A inds) (map (operate g) B)).
    { apply (moved_trans CR (B := c_coords c) SI); [apply (moved_sym CR) with (2 := Mc); apply SR|]. apply (moved_trans CR (B := c_coords e) SI); auto. apply (moved_sym CR) with (2 := Me). apply Sc. }
    destruct M as (t & Lt & Pt). exists g, t. split; auto. split; auto. rewrite map_shift_op. intros x Hx. apply (Permutation_in _ (Permutation_sym Pt)) in Hx.
    apply in_map_iff in Hx as (i & <- & Hx). apply nth_In. apply (comb_incl Hin) in Hx. apply in_seq in Hx. lia.
  - intros [_ (g & t & Hg & Lt & I)]. rewrite map_shift_op in I. fold A B in I. set (B' := translate t (map (operate g) B)) in *.
    assert (SB' : site_cluster B') by (apply (sc_translate CR); auto; apply (sc_image CR); auto).
    destruct (@positions _ [] A B' I) as (m & Lm & Hm & Em). change (rows A m = B') in Em.
    assert (LB' : length B' = length B) by (unfold B', translate; rewrite !map_length; auto).
    destruct (@comb_perm _ Nat.eq_dec (seq 0 (length A)) m) as (inds & Hin & Pi).
    { apply (@nodup_map_inv _ _ (fun i => nth i A [])). fold (rows A m). rewrite Em. apply SB'. }
    { intros i Hi. apply in_seq. specialize (Hm i Hi). lia. }
    rewrite Lm, LB' in Hin. assert (SR := OK _ Hin). apply In_nth_error in Hin as (n & Hn). destruct (opt_map_nth _ _ _ Ecs Hn) as (c & Ec & Hc). exists c. split; [eapply nth_error_In; eauto|].
    apply (mem_moved CR); [exists (rows A inds); auto|auto|]. destruct (C4 g Hg) as (e & He & Me). exists e. split; auto. destruct (mk_coords CR SR Ec) as [Sc Mc].
    apply (moved_sym CR); [apply (proper_coords CR (C1 e He))|]. apply (moved_trans CR) with (B := rows A inds); auto; [apply (proper_coords CR (C1 e He))|].
    apply (moved_trans CR) with (B := map (operate g) B); [apply (proper_coords CR (C1 e He))| |apply (moved_sym CR) with (2 := Me); apply (image_sites CR Hg); apply SB].
    exists t. split; auto. fold B'. rewrite <- Em. unfold rows. apply Permutation_map. auto.
Qed.

(** ** sub_orbit_mappings *)
Lemma atol_close x y : site x -> site y -> (close atol x y = true <-> x = y).
Proof using CR AT.
  intros Hx Hy. rewrite (@close_iff atol dim) by (apply (site_len CR); auto). destruct AT as [A0 A1]. split.
  - intros W. apply (close_eq CR); auto. intros j Hj. destruct (W j Hj) as [W1 W2]. split; qclra.
  - intros <- j _. split; qclra.
Qed.
Lemma subset_iff cs C : (forall x, In x cs -> site x) -> (forall x, In x C -> site x) -> (coord_subset atol cs C = true <-> incl cs C).
Proof using CR AT.
  intros H1 H2. unfold coord_subset. rewrite forallb_forall. split.
  - intros H x Hx. apply H in Hx as Hy. apply existsb_exists in Hy as (y & Hy & E). apply atol_close in E; auto. congruence.
  - intros H x Hx. apply existsb_exists. exists x. split; auto. apply atol_close; auto.
Qed.
Lemma mapping_exact C cs : (forall x, In x C -> site x) -> NoDup C -> incl cs C ->
  exists m, coord_mapping tol cs C = Some m /\ length m = length cs /\ (forall i, In i m -> (i < length C)%nat) /\ forall i, (i < length cs)%nat -> nth (nth i m 0%nat) C [] = nth i cs [].
Proof using CR.
  intros HC D. induction cs as [|x cs IH]; intros I.
  - exists []. split; auto. split; auto. split; [intros i []|]. intros i Hi. simpl in Hi. lia.
  - destruct IH as (m & E & L & B & H); [intros y Hy; apply I; right; auto|]. destruct (matches_one CR (x := x) (C := C)) as (j & Ej & Nj); auto; [apply HC; apply I; left; auto|apply I; left; auto|].
    exists (j :: m). unfold coord_mapping in *. cbn [opt_map]. rewrite Ej. rewrite E. split; auto. split; [simpl; auto|]. split.
    + intros i [<-|Hi]; auto. apply nth_error_Some. congruence.
    + intros [|i] Hi; simpl in *; [apply nth_error_nth; auto|]. apply H. lia.
Qed.
Section Pair.
Variables (o s : gorbit) (PO : parts) (PS : parts).
Notation A := (c_coords (g_base o)).
Notation B := (c_coords (g_base s)).
Hypothesis MO : orbit_made dim sites o.
Hypothesis MS : orbit_made dim sites s.
Hypothesis EO : orbit_parts dim tol ops (g_base o) = Some PO.
Hypothesis ES : orbit_parts dim tol ops (g_base s) = Some PS.
Lemma pO : proper (g_base o).
Proof using MO. apply MO. Qed.
Lemma pS : proper (g_base s).
Proof using MS. apply MS. Qed.
Lemma sA : site_cluster A.
Proof using CR MO. apply (proper_coords CR pO). Qed.
Lemma sB : site_cluster B.
Proof using CR MS. apply (proper_coords CR pS). Qed.
Lemma A_site i : (i < length A)%nat -> site (nth i A []).
Proof using CR MO. intros H. apply sA. apply nth_In. auto. Qed.
Lemma B_site i : (i < length B)%nat -> site (nth i B []).
Proof using CR MS. intros H. apply sB. apply nth_In. auto. Qed.
Lemma nth_image g t L i : (i < length L)%nat -> nth i (map (fun x => shift (operate g x) t) L) [] = shift (operate g (nth i L [])) t.
Proof using. intros H. rewrite (nth_indep _ [] (shift (operate g []) t)) by (rewrite map_length; auto). apply (map_nth (fun x => shift (operate g x) t)). Qed.
Lemma image_cluster g t L : In g ops -> length t = dim -> site_cluster L -> site_cluster (map (fun x => shift (operate g x) t) L).
Proof using CR. intros Hg Lt SL. rewrite map_shift_op. apply (sc_translate CR); auto. apply (sc_image CR); auto. Qed.
Lemma recentre_int cl inds : exists r, length r = dim /\ recentre dim cl s inds = map Qc_of_Z r.
Proof using CR MS.
  destruct (centroid_facts CR pS) as [Lc _]. exists (map qround (qvsub (average dim (rows (c_coords cl) inds)) (c_centroid (g_base s)))). split.
  - rewrite map_length. unfold qvsub. rewrite length_qmap2; rewrite length_average; auto.
  - unfold recentre. rewrite map_map. auto.
Qed.
(** What one turn of the loop adds. *)
Lemma one_ok cl inds sub r : In cl (o_clusters PO) -> In sub (o_clusters PS) -> length r = dim -> recentre dim cl s inds = map Qc_of_Z r ->
  exists l, one_mapping dim tol atol cl s inds sub = Some l /\ (forall m, In m l -> incl (translate r (c_coords sub)) (c_coords cl)) /\
    (incl (translate r (c_coords sub)) (c_coords cl) -> exists m, l = [m]) /\
    forall m, In m l -> length m = length (c_coords sub) /\ (forall i, In i m -> (i < length (c_coords cl))%nat) /\
      forall i, (i < length (c_coords sub))%nat -> nth (nth i m 0%nat) (c_coords cl) [] = shift (nth i (c_coords sub) []) r.
Proof using CR AT MO MS EO ES.
  intros Hc Hs Lr Er. destruct (in_order pO EO Hc) as (g & t & Hg & Lt & Ec). destruct (in_order pS ES Hs) as (h & u & Hh & Lu & Es).
  assert (SC : site_cluster (c_coords cl)) by (rewrite Ec; apply image_cluster; auto; apply sA). assert (SS : site_cluster (c_coords sub)) by (rewrite Es; apply image_cluster; auto; apply sB).
  unfold one_mapping. rewrite Er. change (map (fun x => qvadd x (map Qc_of_Z r)) (c_coords sub)) with (translate r (c_coords sub)).
  assert (ST := sc_translate CR SS Lr). destruct (coord_subset atol (translate r (c_coords sub)) (c_coords cl)) eqn:Eb.
  - apply subset_iff in Eb; [|apply ST|apply SC]. destruct (mapping_exact (proj2 (proj2 SC)) (proj1 (proj2 SC)) Eb) as (m & -> & Lm & Hm & Em). cbn [option_bind]. exists [m].
    split; auto. split; auto. split; eauto. intros m' [<-|[]]. unfold translate in Lm, Em. rewrite map_length in Lm, Em. split; auto. split; auto. intros i Hi. rewrite Em by auto.
    rewrite (nth_indep _ [] (shift [] r)) by (rewrite map_length; auto). apply (map_nth (fun x => shift x r)).
  - exists []. split; auto. split; [intros m []|]. split; [|intros m []]. intros I. apply subset_iff in I; [congruence|apply ST|apply SC].
Qed.
(** Every mapping gives positions of an image of the sub-orbit's base cluster. *)
Lemma one_sound cl inds sub l m : In cl (o_clusters PO) -> In sub (o_clusters PS) -> one_mapping dim tol atol cl s inds sub = Some l -> In m l -> emb A B m.
Proof using CR AT MO MS EO ES.
  intros Hc Hs E Hm. destruct (recentre_int cl inds) as (r & Lr & Er). destruct (one_ok Hc Hs Lr Er) as (l' & E' & _ & _ & H). rewrite E in E'. injection E' as <-.
  destruct (H m Hm) as (Lm & Im & Em). destruct (in_order pO EO Hc) as (g & t & Hg & Lt & Ec). destruct (in_order pS ES Hs) as (h & u & Hh & Lu & Es).
  assert (LA : length (c_coords cl) = length A) by (rewrite Ec; apply map_length). assert (LB : length (c_coords sub) = length B) by (rewrite Es; apply map_length).
  split; [congruence|]. split; [rewrite <- LA; auto|]. destruct (solve Hg Hh (t := t) (u := zadd u r) Lt) as (k & w & Hk & Lw & Ek); [zl|]. exists k, w. split; auto. split; auto.
  intros i Hi. assert (Hj : (nth i m 0 < length A)%nat) by (rewrite <- LA; apply Im; apply nth_In; lia). apply Ek; [apply A_site; auto|apply B_site; auto|].
  rewrite <- (shift_shift (x := operate h (nth i B []))); [|rewrite Lu; apply (site_len CR); apply op_site; auto; apply B_site; auto|zl].
  rewrite <- !nth_image by auto. rewrite <- Ec, <- Es. apply Em. lia.
Qed.
Lemma kind_A i : (i < length A)%nat -> is_site (nth i (g_kinds o) 0%nat) (nth i A []).
Proof using MO.
  destruct MO as [_ F]. revert i. induction F as [|k x ks xs H F IH]; intros i Hi; simpl in Hi; [lia|]. destruct i as [|i]; simpl; auto. apply IH. lia.
Qed.
Lemma kind_B i : (i < length B)%nat -> is_site (nth i (g_kinds s) 0%nat) (nth i B []).
Proof using MS.
  destruct MS as [_ F]. revert i. induction F as [|k x ks xs H F IH]; intros i Hi; simpl in Hi; [lia|]. destruct i as [|i]; simpl; auto. apply IH. lia.
Qed.
(** Every embedding is found, up to a symmetry of the base cluster. *)
Lemma complete m : emb A B m -> exists p cl inds sub l, In p (o_perms PO) /\ In cl (o_clusters PO) /\ In inds (indsets sp o s) /\ In sub (o_clusters PS) /\
  one_mapping dim tol atol cl s inds sub = Some l /\ In (act p m) l.
Proof using CR AT SPC MO MS EO ES.
  intros (Lm & Im & k & t & Hk & Lt & Em). destruct (cr_inv CR Hk) as (h & Hh & a & La & Ea). cbn beta in Ea. destruct (cr_lattice CR Hh Lt) as (t' & Lt' & Et).
  assert (HM : forall i, (i < length B)%nat -> (nth i m 0 < length A)%nat) by (intros i Hi; apply Im; apply nth_In; lia).
  assert (H1 : forall i, (i < length B)%nat -> operate h (nth (nth i m 0%nat) A []) = shift (nth i B []) (zadd a t')).
  { intros i Hi. rewrite Em by auto. assert (S := B_site Hi). rewrite Et by (apply op_site; auto). rewrite Ea by auto. apply shift_shift; [rewrite La; apply (site_len CR); auto|congruence]. }
  destruct (parts_ok CR pO) as (P' & EP & C1 & _ & _ & C4 & _ & _ & C7 & _). rewrite EO in EP. injection EP as <-.
  destruct (C4 h Hh) as (cl & Hcl & w & Lw & Pw). destruct (in_order pO EO Hcl) as (g & v & Hg & Lv & Ec).
  assert (SC : site_cluster (c_coords cl)) by (rewrite Ec; apply image_cluster; auto; apply sA). rewrite <- map_shift_op in Pw.
  assert (LC : length (c_coords cl) = length A) by (rewrite Ec; apply map_length).
  destruct (@perm_of _ [] _ _ (proj1 (proj2 SC)) (Permutation_sym Pw)) as (p & Pp & Ep). rewrite map_length in Pp, Ep.
  assert (Ep' : forall i, (i < length A)%nat -> shift (operate h (nth i A [])) w = nth (nth i p 0%nat) (c_coords cl) []) by (intros i Hi; rewrite <- Ep by auto; rewrite nth_image; auto).
  assert (Lp : forall i, (i < length A)%nat -> (nth i p 0 < length A)%nat) by (intros i Hi; apply Pp; apply nth_In; rewrite (proj1 Pp); auto).
  assert (Hp : In p (o_perms PO)).
  { apply C7. destruct (solve Hh Hg Lw Lv) as (q & z & Hq & Lz & Eq). exists q. split; auto. split; auto. exists z. split; auto. intros i Hi. apply Eq; [apply A_site; auto|apply A_site; apply Lp; auto|].
    rewrite Ep' by auto. rewrite Ec. apply nth_image. auto. }
  set (r := zadd (zadd a t') w). assert (Lr : length r = dim) by (unfold r; zl).
  set (m' := act p m). assert (Lm' : length m' = length B) by (unfold m', act; rewrite map_length; auto).
  assert (NA : forall i, (i < length B)%nat -> nth i m' 0%nat = nth (nth i m 0%nat) p 0%nat) by (intros i Hi; apply nth_act; lia).
  assert (Hm' : forall i, (i < length B)%nat -> (nth i m' 0 < length A)%nat) by (intros i Hi; rewrite NA by auto; apply Lp; auto).
  assert (H2 : forall i, (i < length B)%nat -> nth (nth i m' 0%nat) (c_coords cl) [] = shift (nth i B []) r).
  { intros i Hi. rewrite NA by auto. rewrite <- Ep' by auto. rewrite H1 by auto. assert (S := B_site Hi). apply shift_shift; [|zl]. rewrite (site_len CR S). zl. }
  assert (RT : rows (c_coords cl) m' = translate r B).
  { apply (nth_ext _ _ [] []); [unfold rows, translate; rewrite !map_length; auto|]. intros i Hi. unfold rows in Hi. rewrite map_length in Hi. rewrite row_nth by auto. rewrite H2 by lia.
    unfold translate. symmetry. rewrite (nth_indep _ [] (shift [] r)) by (rewrite map_length; lia). apply (map_nth (fun x => shift x r)). }
  assert (ST := sc_translate CR sB Lr). assert (Dm : NoDup m') by (apply (@nodup_map_inv _ _ (fun i => nth i (c_coords cl) [])); fold (rows (c_coords cl) m'); rewrite RT; apply ST).
  assert (LKA := Forall2_length (proj2 MO)). assert (LKB := Forall2_length (proj2 MS)).
  destruct (@comb_perm _ Nat.eq_dec (filter (fun i => existsb (Nat.eqb (sp (nth i (g_kinds o) 0%nat))) (map sp (g_kinds s))) (seq 0 (length (g_kinds o)))) m') as (inds & Hin & Pin); auto.
  { intros j Hj. apply (In_nth _ _ 0%nat) in Hj as (i & Hi & <-). rewrite Lm' in Hi. apply filter_In. split; [apply in_seq; specialize (Hm' i Hi); lia|]. apply existsb_exists.
    exists (sp (nth i (g_kinds s) 0%nat)). split; [apply in_map; apply nth_In; lia|]. apply Nat.eqb_eq. apply (SPC Hg (x := nth (nth i m' 0%nat) A [])); [apply kind_A; auto|].
    assert (E := H2 i Hi). rewrite Ec, nth_image in E by auto. assert (S := B_site Hi). assert (S' := op_site Hg (A_site (Hm' i Hi))).
    replace (operate g (nth (nth i m' 0%nat) A [])) with (shift (nth i B []) (zadd r (zneg v))); [apply (is_site_shift CR); [apply kind_B; auto|zl]|].
    rewrite <- shift_shift; [|rewrite Lr; apply (site_len CR); auto|zl]. rewrite <- E. apply shift_back. rewrite Lv. apply (site_len CR). auto. }
  rewrite Lm', <- LKB in Hin. change (In inds (indsets sp o s)) in Hin.
  assert (Er : recentre dim cl s inds = map Qc_of_Z r).
  { unfold recentre. destruct (centroid_facts CR pS) as [Lc Cc]. assert (LQ : length (qvsub (average dim (rows (c_coords cl) inds)) (c_centroid (g_base s))) = dim) by (unfold qvsub; rewrite length_qmap2; rewrite length_average; auto).
    apply vec_ext; [rewrite !map_length; congruence|]. intros j Hj. rewrite map_length, LQ in Hj.
    rewrite (nth_indep _ 0 (Qc_of_Z (qround 0))) by (rewrite map_length, LQ; auto). rewrite (map_nth (fun x => Qc_of_Z (qround x))). rewrite nth_of_Z. f_equal.
    rewrite nth_qvsub by (rewrite length_average; auto). destruct (Cc j Hj) as (_ & _ & ->). rewrite !nth_average by auto.
    assert (PR : Permutation (rows (c_coords cl) inds) (translate r B)) by (rewrite <- RT; apply Permutation_map; auto).
    rewrite (Permutation_length PR). rewrite (qsum_perm (Permutation_map (fun x => comp x j) PR)). rewrite (sum_translate CR) by (auto; apply sB).
    unfold translate. rewrite map_length. match goal with |- qround ?X = _ => replace X with (Qc_of_Z (nth j r 0%Z)) end; [apply qround_unique; assert (0 < Qc_frac 1 2)%Qc by reflexivity; split; qclra|].
    field. apply Qc_of_nat_nz. destruct sB as [N _]. destruct B; [congruence|discriminate]. }
  assert (Hb := base_in pS ES). destruct (one_ok Hcl Hb Lr Er) as (l & El & _ & H3 & H4). exists p, cl, inds, (g_base s), l. repeat (split; [solve [auto]|]).
  destruct H3 as (m2 & ->). { rewrite <- RT. intros x Hx. apply in_map_iff in Hx as (i & <- & Hi). apply nth_In. apply (In_nth _ _ 0%nat) in Hi as (i' & Hi' & <-). rewrite LC. apply Hm'. lia. }
  left. destruct (H4 m2 (or_introl eq_refl)) as (L2 & I2 & E2). apply (nth_ext _ _ 0%nat 0%nat); [fold m'; lia|]. intros i Hi. fold m'. rewrite L2 in Hi.
  pose proof (proj1 (proj2 SC)) as DC. rewrite NoDup_nth with (d := []) in DC. apply DC; [apply I2; apply nth_In; lia|rewrite LC; apply Hm'; auto|]. rewrite E2, H2; auto.
Qed.
Lemma mappings_ok : exists ms, sub_orbit_mappings dim tol atol ops sp o s = Some ms /\ (forall m, In m ms -> emb A B m) /\
  (forall m, emb A B m -> exists p, In p (o_perms PO) /\ In (act p m) ms).
Proof using CR AT SPC MO MS EO ES.
  unfold sub_orbit_mappings. rewrite EO, ES. cbn [option_bind].
  set (f := fun q : cluster * (list nat * cluster) => one_mapping dim tol atol (fst q) s (fst (snd q)) (snd (snd q))). set (L := list_prod _ _).
  assert (HL : forall q, In q L -> In (fst q) (o_clusters PO) /\ In (snd (snd q)) (o_clusters PS)). { intros [c [i e]] H. apply in_prod_iff in H as [H1 H]. apply in_prod_iff in H as [_ H2]. auto. }
  destruct (@opt_map_all _ _ f L) as (ls & El).
  { intros q Hq. apply HL in Hq as [H1 H2]. destruct (recentre_int (fst q) (fst (snd q))) as (r & Lr & Er). destruct (one_ok H1 H2 Lr Er) as (l & E & _). unfold f. rewrite E. discriminate. }
  rewrite El. cbn [option_bind].
  assert (S : forall m, In m (concat ls) -> emb A B m).
  { intros m H. apply in_concat in H as (l & Hl & H). apply In_nth_error in Hl as (n & Hn). destruct (nth_error L n) as [q|] eqn:Eq; [|apply nth_error_None in Eq; rewrite <- (opt_map_length _ _ El) in Eq; apply nth_error_None in Eq; congruence].
    destruct (opt_map_nth _ _ _ El Eq) as (l' & E & Hn'). rewrite Hn in Hn'. injection Hn' as <-. destruct (HL q (nth_error_In _ _ Eq)). eapply one_sound; eauto. }
  assert (C : forall m, emb A B m -> exists p, In p (o_perms PO) /\ In (act p m) (concat ls)).
  { intros m H. destruct (complete H) as (p & cl & inds & sub & l & Hp & Hc & Hi & Hs & E & Hl). exists p. split; auto. apply in_concat.
    assert (Hq : In (cl, (inds, sub)) L) by (apply in_prod; auto; apply in_prod; auto). apply In_nth_error in Hq as (n & Hn). destruct (opt_map_nth _ _ _ El Hn) as (l' & E' & Hn').
    unfold f in E'. cbn [fst snd] in E'. rewrite E in E'. injection E' as <-. exists l. split; auto. eapply nth_error_In; eauto. }
  destruct (concat ls) as [|m0 l0] eqn:EC.
  - destruct (is_sub_orbit_ok pO pS) as (b & -> & Hb). cbn [option_bind]. destruct b.
    + destruct Hb as [Hb _]. destruct (Hb eq_refl) as [_ H]. apply contains_iff in H as (m & H). destruct (C m H) as (p & _ & []).
    + exists []. auto.
  - exists (unique_rows (m0 :: l0)). split; [auto|]. split.
    + intros m1 H1. apply S. rewrite <- EC, <- unique_rows_in, EC. exact H1.
    + intros m2 H2. destruct (C m2 H2) as (p & Hp & I). exists p. split; auto. rewrite unique_rows_in. exact I.
Qed.
End Pair.
End Crystal.
