(** C96: sub-orbits and the orbit hierarchy; C97: sub-functions and the function hierarchy. *)
From Verif Require Import LibProofs SublatticeProofs OrbitProps HierarchyProps OrbitGenProps.
From Verif Require Export SubOrbitsSpec SubOrbitsProofs.
From Coq Require Import Lia Permutation.
Set Implicit Arguments.
Unset Strict Implicit.
Local Open Scope Qc_scope.

(** ** C96: sub-orbits *)
(** An orbit is a sub-orbit of another iff its clusters are smaller and a symmetry image of its base cluster is part of the other's base cluster. *)
Theorem C96_sub : forall dim tol G sites ops o s, crystal dim tol G sites ops -> orbit_made dim sites o -> orbit_made dim sites s ->
  exists b, is_sub_orbit dim tol ops o s = Some b /\ (b = true <-> (size s < size o)%nat /\ contains dim ops (c_coords (g_base o)) (c_coords (g_base s))).
Proof. intros dim tol G sites ops o s CR MO MS. apply (is_sub_orbit_ok CR); [apply MO|apply MS]. Qed.
Print Assumptions C96_sub.

(** The answer does not depend on which clusters represent the orbits. *)
Theorem C96_choice : forall dim tol G sites ops o o' s s', crystal dim tol G sites ops -> orbit_made dim sites o -> orbit_made dim sites o' -> orbit_made dim sites s -> orbit_made dim sites s' ->
  related dim ops (c_coords (g_base o)) (c_coords (g_base o')) -> related dim ops (c_coords (g_base s)) (c_coords (g_base s')) ->
  is_sub_orbit dim tol ops o s = is_sub_orbit dim tol ops o' s'.
Proof.
  intros dim tol G sites ops o o' s s' CR MO MO' MS MS' RO RS. destruct (C96_sub CR MO MS) as (b & -> & Hb). destruct (C96_sub CR MO' MS') as (b' & -> & Hb'). f_equal.
  assert (SITE : forall x, orbit_made dim sites x -> forall y, In y (c_coords (g_base x)) -> site dim sites y) by (intros x Mx; apply (proper_coords CR); apply Mx).
  assert (W : forall u u' v v', orbit_made dim sites u -> orbit_made dim sites u' -> orbit_made dim sites v -> orbit_made dim sites v' -> related dim ops (c_coords (g_base u)) (c_coords (g_base u')) -> related dim ops (c_coords (g_base v)) (c_coords (g_base v')) ->
    contains dim ops (c_coords (g_base u)) (c_coords (g_base v)) -> contains dim ops (c_coords (g_base u')) (c_coords (g_base v'))).
  { intros u u' v v' Mu Mu' Mv Mv' Ru Rv (g & t & Hg & Lt & I). apply (related_sym CR) in Ru; eauto.
    destruct Ru as (h & w & Hh & Lw & P). destruct Rv as (k & z & Hk & Lz & Q).
    destruct (compose CR Hg Hk Lt Lz) as (g1 & t1 & Hg1 & Lt1 & E1). destruct (compose CR Hh Hg1 Lw Lt1) as (g2 & t2 & Hg2 & Lt2 & E2).
    exists g2, t2. split; auto. split; auto. intros x Hx. apply in_map_iff in Hx as (y & <- & Hy). assert (Sy := SITE v' Mv' y Hy). rewrite <- E2, <- E1 by auto.
    apply (Permutation_in _ (Permutation_sym P)). apply (in_map (fun x => shift (operate h x) w)). apply I. apply (in_map (fun x => shift (operate g x) t)).
    apply (Permutation_in _ (Permutation_sym Q)). apply (in_map (fun x => shift (operate k x) z)). auto. }
  assert (LO := related_len RO). assert (LS := related_len RS). unfold size in *.
  assert (b = true <-> b' = true); [|destruct b, b'; intuition congruence]. rewrite Hb, Hb', LO, LS. split; intros [L C]; split; auto.
  - apply (W o o' s s'); auto.
  - apply (W o' o s' s); auto; apply (related_sym CR); eauto.
Qed.
Print Assumptions C96_choice.

(** *** The dictionary of orbits *)
Lemma fget_some k (D : forbits) os : fget k D = Some os -> In (k, os) D.
Proof.
  unfold fget. destruct (find _ D) as [[k' os']|] eqn:E; [|discriminate]. intros H. injection H as <-. apply find_some in E as [I H]. cbn [fst] in H. apply Nat.eqb_eq in H. subst k'. auto.
Qed.
Lemma fget_in k (D : forbits) os : NoDup (map fst D) -> In (k, os) D -> fget k D = Some os.
Proof.
  unfold fget. induction D as [|[k' os'] D IH]; intros N I; [destruct I|]. inversion N as [|? ? H N']; subst. cbn [find fst]. destruct (Nat.eqb_spec k' k) as [->|Ne].
  - destruct I as [E|I]; [injection E as ->; auto|]. exfalso. apply H. cbn [fst]. apply (in_map fst) in I. auto.
  - destruct I as [E|I]; [congruence|]. apply IH; auto.
Qed.
Lemma down_in sz st k : In k (down sz st) <-> (st < k < sz)%nat.
Proof. unfold down. rewrite <- in_rev, in_seq. lia. Qed.
Lemma down_nodup sz st : NoDup (down sz st).
Proof. unfold down. apply NoDup_rev. apply seq_NoDup. Qed.
Lemma filter_opt_ok {A} (f : A -> option bool) (g : A -> bool) l : (forall x, In x l -> f x = Some (g x)) -> filter_opt f l = Some (filter g l).
Proof.
  induction l as [|x l IH]; intros H; simpl; auto. rewrite H by (left; auto). cbn [option_bind]. rewrite IH by (intros; apply H; right; auto). cbn [option_bind]. destruct (g x); auto.
Qed.
Lemma stop_asked sz level min_size k : min_size_works sz level min_size -> ((stop_size sz level min_size < k < sz)%nat <-> asked_size sz level min_size k).
Proof.
  unfold min_size_works, asked_size, stop_size. intros W. destruct level as [l|].
  - destruct (Z.ltb_spec l 0) as [H|H]; cbn [Datatypes.orb]; [|destruct (Z.ltb_spec (Z.of_nat sz - l - 1) 0) as [H'|H']; [|destruct (Z.ltb_spec (Z.of_nat sz - l) min_size) as [M|M]]]; (split; [intros K; repeat split; intros; lia|intros (K1 & K2 & K3 & K4); try specialize (K4 H); lia]).
  - lia.
Qed.
Lemma all_in (D : forbits) o : In o (all_forbits D) <-> exists k os, In (k, os) D /\ In o os.
Proof.
  unfold all_forbits. rewrite in_flat_map. split.
  - intros ([k os] & H & I). exists k, os. auto.
  - intros (k & os & H & I). exists (k, os). auto.
Qed.
Lemma nodup_part {A B} (D : list (A * list B)) k os : NoDup (flat_map snd D) -> In (k, os) D -> NoDup os.
Proof.
  induction D as [|[k' os'] D IH]; intros N I; [destruct I|]. cbn [flat_map snd] in N. destruct I as [E|I].
  - injection E as -> ->. clear IH. induction os as [|x os IH]; [constructor|]. inversion N; subst. constructor; auto. rewrite in_app_iff in *. tauto.
  - apply IH; auto. clear IH. induction os' as [|x os' IH']; auto. inversion N; auto.
Qed.
Lemma nodup_forbits dim tol sites ops D : subspace_made dim tol sites ops D -> NoDup (all_forbits D).
Proof.
  intros SM. apply NoDup_nth_error. intros i j Hi E. destruct (nth_error (all_forbits D) i) as [o|] eqn:Ei; [|apply nth_error_None in Ei; lia].
  pose proof (sm_id SM Ei). symmetry in E. pose proof (sm_id SM E). lia.
Qed.
Lemma id_pos dim tol sites ops D o : subspace_made dim tol sites ops D -> In o (all_forbits D) -> exists k, f_id o = S k /\ nth_error (all_forbits D) k = Some o.
Proof. intros SM H. apply In_nth_error in H as (k & Hk). exists k. split; auto. apply (sm_id SM Hk). Qed.
Lemma id_inj dim tol sites ops D o o' : subspace_made dim tol sites ops D -> In o (all_forbits D) -> In o' (all_forbits D) -> f_id o = f_id o' -> o = o'.
Proof.
  intros SM H H' E. destruct (id_pos SM H) as (k & Ek & Nk). destruct (id_pos SM H') as (k' & Ek' & Nk'). assert (k = k') by congruence. subst. congruence.
Qed.

Section Sub.
Variables (dim : nat) (tol : Qc) (G : list (list Qc)) (sites : list (list Qc)) (ops : list symop) (D : forbits).
Hypothesis CR : crystal dim tol G sites ops.
Hypothesis SM : subspace_made dim tol sites ops D.
Definition sub_bool (o s : forbit) : bool := match is_sub_orbit dim tol ops (f_geo o) (f_geo s) with Some b => b | None => false end.
Notation all := (all_forbits D).
Lemma sub_bool_ok o s : In o all -> In s all ->
  is_sub_orbit dim tol ops (f_geo o) (f_geo s) = Some (sub_bool o s) /\ (sub_bool o s = true <-> (size (f_geo s) < size (f_geo o))%nat /\ contains dim ops (c_coords (g_base (f_geo o))) (c_coords (g_base (f_geo s)))).
Proof using CR SM. intros Ho Hs. unfold sub_bool. destruct (C96_sub CR (sm_orbit SM Ho) (sm_orbit SM Hs)) as (b & -> & Hb). auto. Qed.
Notation one_size o := (fun s => let? os := fget s D in filter_opt (fun x => is_sub_orbit dim tol ops (f_geo o) (f_geo x)) os).
Lemma one_size_ok o k os : In o all -> In (k, os) D -> (one_size o) k = Some (filter (sub_bool o) os).
Proof using CR SM.
  intros Ho I. cbn beta. rewrite (fget_in (sm_sizes SM) I). cbn [option_bind]. apply filter_opt_ok. intros x Hx. apply (sub_bool_ok Ho). apply all_in. eauto.
Qed.
Lemma one_size_inv o k l : In o all -> (one_size o) k = Some l -> exists os, In (k, os) D /\ l = filter (sub_bool o) os.
Proof using CR SM.
  intros Ho H. cbn beta in H. destruct (fget k D) as [os|] eqn:E; [|discriminate]. apply fget_some in E. exists os. split; auto. pose proof (one_size_ok Ho E) as H'. cbn beta in H'. rewrite (fget_in (sm_sizes SM) E) in H'. congruence.
Qed.
Lemma sizes_spec o ks : In o all -> forall ls, NoDup ks -> opt_map (one_size o) ks = Some ls ->
  NoDup (concat ls) /\ forall s, In s (concat ls) <-> In s all /\ In (size (f_geo s)) ks /\ sub_bool o s = true.
Proof using CR SM.
  intros Ho. induction ks as [|k ks IH]; intros ls N E; cbn [opt_map] in E.
  - injection E as <-. split; [constructor|]. intros s. simpl. tauto.
  - destruct ((one_size o) k) as [l|] eqn:El; [|discriminate]. destruct (opt_map (one_size o) ks) as [ls'|] eqn:Els; [|discriminate]. injection E as <-. inversion N as [|? ? Hk N']; subst.
    destruct (IH ls' N' eq_refl) as [D1 H1]. destruct (one_size_inv Ho El) as (os & I & ->). assert (SZ : forall x, In x os -> size (f_geo x) = k) by (intros x; apply (sm_size SM I)).
    cbn [concat]. split.
    + apply NoDup_app_intro; auto; [apply NoDup_filter; apply (nodup_part (nodup_forbits SM) I)|]. intros x Hx Hx'. apply filter_In in Hx as [Hx _]. apply H1 in Hx' as (_ & Hx' & _). rewrite (SZ x Hx) in Hx'. auto.
    + intros s. rewrite in_app_iff, H1, filter_In. split.
      * intros [[Hs B]|(Hs & Ks & B)]; [|split; auto; split; auto; right; auto]. split; [apply all_in; eauto|]. split; auto. left. symmetry. auto.
      * intros (Hs & [Ek|Ks] & B); [|right; auto]. left. split; auto. apply all_in in Hs as (k' & os' & I' & Hs). assert (k' = k) by (rewrite <- (sm_size SM I' Hs); auto). subst k'.
        assert (os' = os) by (apply (fget_in (sm_sizes SM)) in I; apply (fget_in (sm_sizes SM)) in I'; congruence). subst os'. auto.
Qed.
Lemma get_sub_spec o level min_size subs : In o all -> get_sub_orbits dim tol ops D (f_id o) level min_size = Some subs ->
  NoDup subs /\ forall s, In s subs <-> In s all /\ (stop_size (size (f_geo o)) level min_size < size (f_geo s) < size (f_geo o))%nat /\ contains dim ops (c_coords (g_base (f_geo o))) (c_coords (g_base (f_geo s))).
Proof using CR SM.
  intros Ho E. destruct (id_pos SM Ho) as (k & Ek & Nk). unfold get_sub_orbits in E. rewrite Ek, Nk in E. cbn [option_bind] in E.
  destruct (opt_map _ (down _ _)) as [ls|] eqn:Els; [|discriminate]. cbn [option_bind] in E. injection E as <-. destruct (sizes_spec Ho (down_nodup _ _) Els) as [N H]. split; auto.
  intros s. rewrite H, down_in. split.
  - intros (Hs & L & B). split; auto. split; auto. apply (sub_bool_ok Ho Hs). auto.
  - intros (Hs & L & B). split; auto. split; auto. apply (sub_bool_ok Ho Hs). split; auto. lia.
Qed.
Lemma get_sub_total o level min_size : In o all -> (forall k, (stop_size (size (f_geo o)) level min_size < k < size (f_geo o))%nat -> exists os, In (k, os) D) ->
  exists subs, get_sub_orbits dim tol ops D (f_id o) level min_size = Some subs.
Proof using CR SM.
  intros Ho H. destruct (id_pos SM Ho) as (k & Ek & Nk). unfold get_sub_orbits. rewrite Ek, Nk. cbn [option_bind].
  destruct (@opt_map_all _ _ (one_size o) (down (size (f_geo o)) (stop_size (size (f_geo o)) level min_size))) as (ls & Els).
  { intros s Hs. apply down_in in Hs. destruct (H s Hs) as (os & I). rewrite (one_size_ok Ho I). discriminate. }
  rewrite Els. cbn [option_bind]. eauto.
Qed.
End Sub.

(** The sub-orbits of an orbit are those of the subspace with a size that was asked for whose clusters are inside its own, once each;
    provided that the minimal size is one or the level stops the search above size zero, and that there are orbits of every size that is searched. *)
Theorem C96_suborbits_partial : forall dim tol G sites ops D o level min_size, crystal dim tol G sites ops -> subspace_made dim tol sites ops D -> In o (all_forbits D) ->
  min_size_works (size (f_geo o)) level min_size -> (forall k, asked_size (size (f_geo o)) level min_size k -> exists os, In (k, os) D) ->
  exists subs, get_sub_orbits dim tol ops D (f_id o) level min_size = Some subs /\ NoDup subs /\
    forall s, In s subs <-> In s (all_forbits D) /\ asked_size (size (f_geo o)) level min_size (size (f_geo s)) /\ contains dim ops (c_coords (g_base (f_geo o))) (c_coords (g_base (f_geo s))).
Proof.
  intros dim tol G sites ops D o level min_size CR SM Ho W K. destruct (@get_sub_total dim tol G sites ops D CR SM o level min_size Ho) as (subs & E); [intros k Hk; apply K; apply (stop_asked k W); auto|].
  exists subs. split; auto. destruct (get_sub_spec CR SM Ho E) as [N H]. split; auto. intros s. rewrite H, (stop_asked _ W). tauto.
Qed.
Print Assumptions C96_suborbits_partial.

(** The orbit hierarchy lists, for the id of every orbit, the ids of these orbits. *)
Theorem C96_hierarchy_partial : forall dim tol G sites ops D level min_size, crystal dim tol G sites ops -> subspace_made dim tol sites ops D ->
  (forall o, In o (all_forbits D) -> min_size_works (size (f_geo o)) level min_size) ->
  (forall o k, In o (all_forbits D) -> asked_size (size (f_geo o)) level min_size k -> exists os, In (k, os) D) ->
  exists h, orbit_hierarchy dim tol ops D level min_size = Some h /\ length h = S (length (all_forbits D)) /\ nth 0 h [] = [] /\
    forall i j, In j (nth i h []) <-> exists o s, In o (all_forbits D) /\ In s (all_forbits D) /\ f_id o = i /\ f_id s = j /\
      asked_size (size (f_geo o)) level min_size (size (f_geo s)) /\ contains dim ops (c_coords (g_base (f_geo o))) (c_coords (g_base (f_geo s))).
Proof.
  intros dim tol G sites ops D level min_size CR SM W K. unfold orbit_hierarchy.
  destruct (@opt_map_all _ _ (fun o => let? l := get_sub_orbits dim tol ops D (f_id o) level min_size in Some (map f_id l)) (all_forbits D)) as (h & E).
  { intros o Ho. destruct (C96_suborbits_partial CR SM Ho (W o Ho) (fun k => K o k Ho)) as (subs & -> & _). discriminate. }
  rewrite E. cbn [option_bind]. exists ([] :: h). split; auto. split; [simpl; rewrite (opt_map_length _ _ E); auto|]. split; auto.
  assert (ROW : forall k o, nth_error (all_forbits D) k = Some o -> forall j, In j (nth k h []) <-> exists s, In s (all_forbits D) /\ f_id s = j /\
    asked_size (size (f_geo o)) level min_size (size (f_geo s)) /\ contains dim ops (c_coords (g_base (f_geo o))) (c_coords (g_base (f_geo s)))).
  { intros k o Hk j. assert (Ho := nth_error_In _ _ Hk). destruct (opt_map_nth _ _ _ E Hk) as (r & Er & Hr). rewrite (nth_error_nth _ _ [] Hr).
    destruct (C96_suborbits_partial CR SM Ho (W o Ho) (fun k => K o k Ho)) as (subs & Es & _ & H). rewrite Es in Er. cbn [option_bind] in Er. injection Er as <-.
    rewrite in_map_iff. split.
    - intros (s & Ej & Hs). apply H in Hs as (Hs & A & C). exists s. auto.
    - intros (s & Hs & Ej & A & C). exists s. split; auto. apply H. auto. }
  intros i j. destruct i as [|k].
  - split; [intros []|]. intros (o & s & Ho & _ & Ei & _). destruct (id_pos SM Ho) as (k & Ek & _). congruence.
  - cbn [nth]. split.
    + intros I. destruct (nth_error (all_forbits D) k) as [o|] eqn:Hk.
      * destruct (proj1 (ROW k o Hk j) I) as (s & Hs & Ej & A & C). exists o, s. split; [eapply nth_error_In; eauto|]. split; auto. split; auto. apply (sm_id SM Hk).
      * exfalso. apply nth_error_None in Hk. rewrite nth_overflow in I; [destruct I|]. rewrite (opt_map_length _ _ E). auto.
    + intros (o & s & Ho & Hs & Ei & Ej & A & C). destruct (id_pos SM Ho) as (k' & Ek & Nk). assert (k' = k) by congruence. subst k'. apply (ROW k o Nk). exists s. auto.
Qed.
Print Assumptions C96_hierarchy_partial.

(** *** A point, a pair and a triplet of the simple cubic lattice with two functions per site *)
Definition cube_point : list (list Qc) := [[0 + qz 0; 0 + qz 0; 0 + qz 0]].
Definition tern (A : list (list Qc)) : forbit :=
  match mk_cluster 3 A with
  | Some b => mkF (mkG b (repeat 0%nat (length A)))
      (match orbit_parts 3 tol6 both b with
       | Some P => match gen_combos (repeat [0; 1]%nat (length A)) (o_perms P) with Some cs => cs | None => [] end
       | None => []
       end) 0 0
  | None => mkF (mkG (mkCluster [] [] []) []) [] 0 0
  end.
Definition numbered (o : forbit) (i b : nat) : forbit := mkF (f_geo o) (f_combos o) i b.
Definition cube_D : forbits := [(1%nat, [numbered (tern cube_point) 1 1]); (2%nat, [numbered (tern cube_pair) 2 3]); (3%nat, [numbered (tern cube_ell) 3 6])].
(** The pair removed. *)
Definition cube_D' : forbits := [(1%nat, [numbered (tern cube_point) 1 1]); (3%nat, [numbered (tern cube_ell) 2 3])].
Lemma cube_clusters A : In A [cube_point; cube_pair; cube_ell] -> site_cluster 3 cube_sites A /\ Forall2 (is_site 3 cube_sites) (repeat 0%nat (length A)) A.
Proof.
  assert (S : forall A, A <> [] -> NoDup A -> (forall x, In x A -> exists a b c, x = [0 + qz a; 0 + qz b; 0 + qz c]) -> site_cluster 3 cube_sites A).
  { intros X NA ND H. split; auto. split; auto. intros x Hx. exists 0%nat. apply lat_site. split; auto. }
  intros H. split.
  - apply S.
    + destruct H as [<- |[<- |[<- |[]]]]; discriminate.
    + destruct H as [<- |[<- |[<- |[]]]]; repeat constructor; intros H; repeat (destruct H as [E|H]; [apply (f_equal (map this)) in E; vm_compute in E; discriminate|]); destruct H.
    + destruct H as [<- |[<- |[<- |[]]]]; intros x H; repeat (destruct H as [<- |H]; [eexists; eexists; eexists; reflexivity|]); destruct H.
  - destruct H as [<- |[<- |[<- |[]]]]; repeat constructor; apply lat_site; split; auto; eexists; eexists; eexists; reflexivity.
Qed.
Lemma tern_made A i b : In A [cube_point; cube_pair; cube_ell] ->
  size (f_geo (numbered (tern A) i b)) = length A /\ orbit_made 3 cube_sites (f_geo (numbered (tern A) i b)) /\ combos_made 3 tol6 both (numbered (tern A) i b).
Proof.
  intros H. destruct (cube_clusters H) as [S F]. destruct (mk_orbit_ok cube_crystal S F) as (o & t & E & OK & Lt & Ec & Ek). unfold mk_orbit in E. rewrite repeat_length, Nat.eqb_refl in E.
  unfold numbered, tern. destruct (mk_cluster 3 A) as [c|] eqn:EA; [|discriminate]. cbn [option_bind] in E. injection E as <-. cbn [f_geo f_combos g_base g_kinds] in *. unfold size. cbn [g_base].
  assert (L : length (c_coords c) = length A) by (rewrite Ec; apply map_length). split; [auto|]. split; [split; [exists A; auto|]; cbn [g_kinds g_base]; apply (oo_kinds OK)|].
  destruct (parts_ok cube_crystal (oo_proper OK)) as (P & EP & _ & _ & _ & _ & _ & _ & _ & PG). cbn [g_base] in EP, PG. rewrite EP.
  assert (SB : sym_bits (repeat [0; 1]%nat (length A)) (o_perms P)).
  { intros p x y Hp Hxy. assert (Pp := pg_perm PG _ Hp). assert (x < length A)%nat by (rewrite <- L, <- (proj1 Pp); apply nth_error_Some; congruence). assert (y < length A)%nat by (rewrite <- L; apply Pp; eapply nth_error_In; eauto).
    rewrite !(nth_error_repeat) by auto. auto. }
  destruct (C35_partition (n := length (c_coords c)) (bits := repeat [0; 1]%nat (length A)) (ps := o_perms P)) as (cs & Ecs & _); auto; [rewrite repeat_length; auto|].
  exists (repeat [0; 1]%nat (length A)), P, cs. cbn [f_geo g_base f_combos]. rewrite Ecs. unfold size. cbn [g_base]. rewrite repeat_length. repeat (split; auto). apply incl_refl.
Qed.
Lemma cube_made : subspace_made 3 tol6 cube_sites both cube_D /\ subspace_made 3 tol6 cube_sites both cube_D'.
Proof.
  assert (M : forall o, In o (all_forbits cube_D ++ all_forbits cube_D') -> orbit_made 3 cube_sites (f_geo o) /\ combos_made 3 tol6 both o).
  { intros o H. simpl in H. repeat (destruct H as [<- |H]; [split; apply tern_made; simpl; auto|]). destruct H. }
  assert (C2 : length (f_combos (tern cube_point)) = 2%nat /\ length (f_combos (tern cube_pair)) = 3%nat /\ length (f_combos (tern cube_ell)) = 8%nat) by (split; [|split]; vm_compute; reflexivity). destruct C2 as (C1 & C2 & C3).
  split; constructor.
  - repeat constructor; simpl; intuition lia.
  - intros k os o H Ho. destruct H as [E|[E|[E|[]]]]; injection E as <- <-; destruct Ho as [<- |[]]; match goal with |- size (f_geo (numbered (tern ?A) ?i ?b)) = _ => apply (@tern_made A i b ltac:(simpl; auto)) end.
  - intros o H. apply M. apply in_or_app. auto.
  - intros o H. apply M. apply in_or_app. auto.
  - intros [|[|[|i]]] o H; simpl in H; try (injection H as <-; reflexivity). destruct i; discriminate.
  - intros l1 o l2 H. unfold cube_D, all_forbits in H. cbn [flat_map snd app] in H. destruct l1 as [|a [|b [|c [|d l1]]]]; cbn [app] in H; injection H; intros; subst; cbn [map list_sum fold_right f_bit f_combos numbered]; rewrite ?C1, ?C2, ?C3; auto; try discriminate.
  - repeat constructor; simpl; intuition lia.
  - intros k os o H Ho. destruct H as [E|[E|[]]]; injection E as <- <-; destruct Ho as [<- |[]]; match goal with |- size (f_geo (numbered (tern ?A) ?i ?b)) = _ => apply (@tern_made A i b ltac:(simpl; auto)) end.
  - intros o H. apply M. apply in_or_app. auto.
  - intros o H. apply M. apply in_or_app. auto.
  - intros [|[|i]] o H; simpl in H; try (injection H as <-; reflexivity). destruct i; discriminate.
  - intros l1 o l2 H. unfold cube_D', all_forbits in H. cbn [flat_map snd app] in H. destruct l1 as [|a [|b [|d l1]]]; cbn [app] in H; injection H; intros; subst; cbn [map list_sum fold_right f_bit f_combos numbered]; rewrite ?C1, ?C2, ?C3; auto; try discriminate.
Qed.

(** A minimal size is ignored when the level is too large, or absent: the point is listed for the pair although size two is asked for. *)
Theorem C96_min_size_refuted : exists D o s, crystal 3 tol6 cubeG cube_sites both /\ subspace_made 3 tol6 cube_sites both D /\ In o (all_forbits D) /\ size (f_geo s) = 1%nat /\
  (forall level k, asked_size (size (f_geo o)) level 2 k -> exists os, In (k, os) D) /\
  forall level, level = None \/ level = Some 2%Z -> get_sub_orbits 3 tol6 both D (f_id o) level 2 = Some [s].
Proof.
  exists cube_D, (numbered (tern cube_pair) 2 3), (numbered (tern cube_point) 1 1). split; [apply cube_crystal|]. split; [apply cube_made|]. split; [right; left; auto|]. split; [reflexivity|]. split.
  - intros level k (H1 & H2 & H3 & _). change (size (f_geo (numbered (tern cube_pair) 2 3))) with 2%nat in H2. lia.
  - intros level [-> | ->]; vm_compute; reflexivity.
Qed.
Print Assumptions C96_min_size_refuted.

(** When all the pairs were removed the hierarchy of a subspace with a triplet raises. *)
Theorem C96_missing_refuted : exists D, crystal 3 tol6 cubeG cube_sites both /\ subspace_made 3 tol6 cube_sites both D /\ (forall o, In o (all_forbits D) -> min_size_works (size (f_geo o)) (Some 1%Z) 1) /\
  orbit_hierarchy 3 tol6 both D (Some 1%Z) 1 = None.
Proof.
  exists cube_D'. split; [apply cube_crystal|]. split; [apply cube_made|]. split; [intros o Ho; left; lia|]. vm_compute. reflexivity.
Qed.
Print Assumptions C96_missing_refuted.

(** The hypotheses hold for the cubic example, where the pair and the point are inside the triplet. *)
Example C96_case : crystal 3 tol6 cubeG cube_sites both /\ subspace_made 3 tol6 cube_sites both cube_D /\
  (forall o, In o (all_forbits cube_D) -> min_size_works (size (f_geo o)) (Some 1%Z) 1) /\
  (forall o k, In o (all_forbits cube_D) -> asked_size (size (f_geo o)) (Some 1%Z) 1 k -> exists os, In (k, os) cube_D) /\
  orbit_hierarchy 3 tol6 both cube_D (Some 1%Z) 1 = Some [[]; []; [1]; [2]]%nat /\ orbit_hierarchy 3 tol6 both cube_D None 1 = Some [[]; []; [1]; [2; 1]]%nat.
Proof.
  split; [apply cube_crystal|]. split; [apply cube_made|]. split; [intros o Ho; left; lia|]. split.
  - intros o k Ho (K1 & K2 & _). assert (size (f_geo o) <= 3)%nat. { simpl in Ho. repeat (destruct Ho as [<- |Ho]; [vm_compute; lia|]). destruct Ho. }
    assert (k = 1 \/ k = 2)%nat as [-> | ->] by lia; eexists; unfold cube_D; simpl; eauto.
  - split; vm_compute; reflexivity.
Qed.

(** ** C97: sub-functions *)
(** The site mappings between an orbit and a sub-orbit: RuntimeError is never raised; each of them gives positions of the base cluster that hold an image of the
    sub-orbit's base cluster; and every such choice of positions is listed after a symmetry of the base cluster. *)
Theorem C97_mappings : forall dim tol atol G sites ops sp o s P, crystal dim tol G sites ops -> 0 < atol /\ atol <= tol -> same_spaces dim sites ops sp ->
  orbit_made dim sites o -> orbit_made dim sites s -> orbit_parts dim tol ops (g_base o) = Some P ->
  exists ms, sub_orbit_mappings dim tol atol ops sp o s = Some ms /\
    (forall m, In m ms -> embeds dim ops (c_coords (g_base o)) (c_coords (g_base s)) m) /\
    (forall m, embeds dim ops (c_coords (g_base o)) (c_coords (g_base s)) m -> exists p, In p (o_perms P) /\ In (map (fun i => nth i p 0%nat) m) ms).
Proof.
  intros dim tol atol G sites ops sp o s P CR AT SPC MO MS EO. destruct (parts_ok CR (proj1 MS)) as (PS & ES & _).
  destruct (mappings_ok CR AT SPC MO MS EO ES) as (ms & E & H1 & H2). exists ms. split; auto. split.
  - intros m Hm. apply emb_iff. auto.
  - intros m Hm. apply emb_iff in Hm. apply H2. auto.
Qed.
Print Assumptions C97_mappings.

Section Factor.
Variables (dim : nat) (tol atol : Qc) (G : list (list Qc)) (sites : list (list Qc)) (ops : list symop) (sp : nat -> nat).
Hypothesis CR : crystal dim tol G sites ops.
Hypothesis AT : 0 < atol /\ atol <= tol.
Hypothesis SPC : same_spaces dim sites ops sp.
(** What is known of a group of bit combinations. *)
Lemma group_ok o grp : orbit_made dim sites (f_geo o) -> combos_made dim tol ops o -> In grp (f_combos o) ->
  exists P, orbit_parts dim tol ops (g_base (f_geo o)) = Some P /\ perm_group (size (f_geo o)) (o_perms P) /\ grp <> [] /\ (forall a, In a grp -> length a = size (f_geo o)) /\
    forall a b, In a grp -> (In b grp <-> exists p, In p (o_perms P) /\ b = act a p).
Proof using CR.
  intros MO (bits & P & cs & EP & LB & SB & EC & I) Hg. destruct (parts_ok CR (proj1 MO)) as (P' & EP' & _ & _ & _ & _ & _ & _ & _ & PG). rewrite EP in EP'. injection EP' as <-.
  destruct (C35_partition PG SB LB) as (cs' & EC' & _ & H1 & H2 & H3). rewrite EC in EC'. injection EC' as <-. apply I in Hg. exists P. split; auto. split; auto. split; auto.
  assert (LG : forall a, In a grp -> length a = size (f_geo o)). { intros a Ha. rewrite <- LB. apply cart_len. apply H1. apply in_concat. eauto. }
  split; auto. intros a b Ha. rewrite (H3 grp a b Hg Ha). split; intros (p & Hp & E); exists p; split; auto.
  - rewrite (@permute_act (size (f_geo o))) in E; [congruence|auto|]. intros i. apply (pg_perm PG _ Hp).
  - rewrite (@permute_act (size (f_geo o))); [congruence|auto|]. intros i. apply (pg_perm PG _ Hp).
Qed.
(** Positions after a symmetry of the sub-orbit's base cluster. *)
Lemma emb_pre o s PS m r : orbit_made dim sites o -> orbit_made dim sites s -> orbit_parts dim tol ops (g_base s) = Some PS -> In r (o_perms PS) ->
  emb dim ops (c_coords (g_base o)) (c_coords (g_base s)) m -> emb dim ops (c_coords (g_base o)) (c_coords (g_base s)) (act m r).
Proof using CR.
  intros MO MS ES Hr (Lm & Im & k & t & Hk & Lt & Em). destruct (parts_ok CR (proj1 MS)) as (P' & EP & _ & _ & _ & _ & _ & _ & C7 & _). rewrite ES in EP. injection EP as <-.
  apply C7 in Hr as (g & Hg & Pr & u & Lu & Eu). destruct (identity CR) as (e & w & He & Lw & Ee). destruct (solve CR Hg He Lu Lw) as (q & z & Hq & Lz & Eq). destruct (compose CR Hk Hq Lt Lz) as (k' & w' & Hk' & Lw' & Ek').
  assert (RL : forall i, (i < length (c_coords (g_base s)))%nat -> (nth i r 0 < length (c_coords (g_base s)))%nat) by (intros i Hi; apply Pr; apply nth_In; rewrite (proj1 Pr); auto).
  assert (SB : forall i, (i < length (c_coords (g_base s)))%nat -> site dim sites (nth i (c_coords (g_base s)) [])) by (intros i Hi; apply (proper_coords CR (proj1 MS)); apply nth_In; auto).
  split; [unfold act; rewrite map_length; apply Pr|]. split.
  - intros i Hi. unfold act in Hi. apply in_map_iff in Hi as (j & <- & Hj). apply Im. apply nth_In. rewrite Lm. apply Pr. auto.
  - exists k', w'. split; auto. split; auto. intros i Hi. rewrite nth_act by (rewrite (proj1 Pr); auto). rewrite Em by auto. rewrite <- Ek' by auto.
    f_equal. f_equal. apply Eq; auto. rewrite <- Eu by auto. apply Ee. auto.
Qed.
Lemma perm_left n p q : is_perm n p -> is_perm n q -> act p q = seq 0 n -> act q p = seq 0 n.
Proof using.
  intros (Lp & Dp & Ip) (Lq & Dq & Iq) E. apply (nth_ext _ _ 0%nat 0%nat); [unfold act; rewrite map_length, seq_length; auto|]. intros j Hj. unfold act in Hj. rewrite map_length in Hj.
  rewrite nth_act by auto. assert (Hp : (nth j p 0 < n)%nat) by (apply Ip; apply nth_In; auto). rewrite seq_nth by lia. simpl.
  assert (Hq : (nth (nth j p 0%nat) q 0 < n)%nat) by (apply Iq; apply nth_In; lia). rewrite NoDup_nth with (d := 0%nat) in Dp. apply Dp; try lia.
  rewrite <- nth_act by lia. rewrite E. rewrite seq_nth by auto. auto.
Qed.
Lemma covers_ok o s combo grp c0 ms : orbit_made dim sites (f_geo o) -> orbit_made dim sites (f_geo s) -> combos_made dim tol ops o -> combos_made dim tol ops s ->
  In combo (f_combos o) -> In (c0 :: grp) (f_combos s) -> sub_orbit_mappings dim tol atol ops sp (f_geo o) (f_geo s) = Some ms ->
  (covers combo ms c0 = true <-> factor dim ops (c_coords (g_base (f_geo o))) (c_coords (g_base (f_geo s))) combo (c0 :: grp)).
Proof using CR AT SPC.
  intros MO MS KO KS HO HS EM. destruct (group_ok MO KO HO) as (PO & EO & GO & _ & LO & CO). destruct (group_ok MS KS HS) as (PS & ES & GS & _ & LS & CS).
  destruct (mappings_ok CR AT SPC MO MS EO ES) as (ms' & EM' & M1 & M2). rewrite EM in EM'. injection EM' as <-.
  set (A := c_coords (g_base (f_geo o))) in *. set (B := c_coords (g_base (f_geo s))) in *.
  unfold covers. rewrite existsb_exists. split.
  - intros (c & Hc & H). apply existsb_exists in H as (m & Hm & H). apply row_eqb_eq in H. apply M1 in Hm as Hmm. exists c, c0, m. split; auto. split; [left; auto|]. split; [apply emb_iff; auto|].
    intros i j Hj. rewrite H. rewrite nth_error_map, Hj. cbn [option_map]. symmetry. apply nth_error_nth'. rewrite (LO c Hc). destruct Hmm as (_ & I & _). apply I. eapply nth_error_In; eauto.
  - intros (f & h & m & Hf & Hh & Hm & E). apply emb_iff in Hm. assert (EH : h = act f m).
    { destruct Hm as (Lm & Im & _). apply (nth_ext _ _ 0%nat 0%nat); [unfold act; rewrite map_length, (LS h Hh); auto|]. intros i Hi. rewrite (LS h Hh) in Hi. change (i < length B)%nat in Hi. rewrite nth_act by lia.
      assert (Hj : nth_error m i = Some (nth i m 0%nat)) by (apply nth_error_nth'; lia). specialize (E i _ Hj). rewrite (nth_error_nth' f 0%nat) in E by (rewrite (LO f Hf); apply Im; apply nth_In; lia). apply (nth_error_nth _ _ 0%nat E). }
    destruct (proj1 (CS h c0 Hh) (or_introl eq_refl)) as (r & Hr & E0). assert (Hm' := emb_pre MO MS ES Hr Hm). destruct (M2 _ Hm') as (p & Hp & Hi).
    destruct (pg_inv GO p Hp) as (q & Hq & Eq). assert (Pp := pg_perm GO _ Hp). assert (Pq := pg_perm GO _ Hq). assert (Pr := pg_perm GS _ Hr).
    rewrite (@permute_act (size (f_geo o))) in Eq; [|apply Pp|apply Pq]. injection Eq as Eq. apply (perm_left Pp Pq) in Eq.
    exists (act f q). split; [apply (CO f); eauto|]. apply existsb_exists. exists (act p (act m r)). split; auto. apply row_eqb_eq.
    change (c0 = act (act f q) (act p (act m r))). destruct Hm' as (Lm' & Im' & _). destruct Hm as (Lm & Im & _).
    assert (LP : forall j, In j (act m r) -> (j < length p)%nat) by (intros j Hj; rewrite (proj1 Pp); apply Im'; auto).
    rewrite act_act; [|intros j Hj; unfold act in Hj at 1; apply in_map_iff in Hj as (x & <- & Hx); rewrite (proj1 Pq); apply Pp; apply nth_In; auto].
    rewrite <- (@act_act q p (act m r) LP), Eq. replace (act (seq 0 (size (f_geo o))) (act m r)) with (act m r).
    + rewrite E0, EH. apply act_act. intros j Hj. rewrite Lm. apply Pr. auto.
    + symmetry. transitivity (map (fun x => x) (act m r)); [|apply map_id]. apply map_ext_in. intros x Hx. rewrite seq_nth; auto.
Qed.
End Factor.

(** *** Ids of functions *)
Lemma nth_repeats {A} (f : A -> nat) (g : A -> nat) : forall (l : list A) l1 o l2 a, l = l1 ++ o :: l2 -> (a < g o)%nat ->
  nth_error (flat_map (fun x => repeat (f x) (g x)) l) (list_sum (map g l1) + a) = Some (f o).
Proof.
  intros l l1 o l2 a -> H. rewrite flat_map_app. induction l1 as [|x l1 IH]; cbn [flat_map map app].
  - change (list_sum []) with 0%nat. cbn [plus]. rewrite nth_error_app1 by (rewrite repeat_length; auto). apply nth_error_repeat. auto.
  - rewrite <- app_assoc. change (list_sum (g x :: map g l1)) with (g x + list_sum (map g l1))%nat. rewrite nth_error_app2 by (rewrite repeat_length; lia). rewrite repeat_length. replace (g x + list_sum (map g l1) + a - g x)%nat with (list_sum (map g l1) + a)%nat by lia. apply IH.
Qed.
Lemma repeats_split {A} (g : A -> nat) : forall (l : list A) n, (n < list_sum (map g l))%nat -> exists l1 o l2 a, l = l1 ++ o :: l2 /\ n = (list_sum (map g l1) + a)%nat /\ (a < g o)%nat.
Proof.
  induction l as [|x l IH]; intros n H; [change (list_sum (map g [])) with 0%nat in H; lia|]. change (list_sum (map g (x :: l))) with (g x + list_sum (map g l))%nat in H. destruct (Nat.lt_ge_cases n (g x)) as [L|L].
  - exists [], x, l, n. auto.
  - destruct (IH (n - g x)%nat) as (l1 & o & l2 & a & -> & E & Ha); [lia|]. exists (x :: l1), o, l2, a. split; auto. split; auto. change (list_sum (map g (x :: l1))) with (g x + list_sum (map g l1))%nat. lia.
Qed.
Lemma length_repeats {A} (f : A -> nat) (g : A -> nat) (l : list A) : length (flat_map (fun x => repeat (f x) (g x)) l) = list_sum (map g l).
Proof. induction l as [|x l IH]; auto. cbn [flat_map map]. rewrite app_length, repeat_length, IH. auto. Qed.
Lemma nth_error_combine {A B} (a : list A) : forall (b : list B) i, nth_error (combine a b) i = match nth_error a i, nth_error b i with Some x, Some y => Some (x, y) | _, _ => None end.
Proof. induction a as [|x a IH]; intros [|y b] [|i]; simpl; auto. destruct (nth_error a i); auto. Qed.
(** Two functions with the same id are the same function of the same orbit. *)
Lemma fun_unique {A} (g : A -> nat) : forall (l1 l1' : list A) o o' l2 l2' a a', l1 ++ o :: l2 = l1' ++ o' :: l2' -> (a < g o)%nat -> (a' < g o')%nat ->
  (list_sum (map g l1) + a = list_sum (map g l1') + a')%nat -> l1 = l1' /\ o = o' /\ a = a'.
Proof.
  induction l1 as [|x l1 IH]; intros [|x' l1'] o o' l2 l2' a a' E Ha Ha' S; cbn [app] in E; injection E as E1 E2.
  - subst. auto.
  - subst. change (list_sum (map g (x' :: l1'))) with (g x' + list_sum (map g l1'))%nat in S. change (list_sum (map g [])) with 0%nat in S. lia.
  - subst. change (list_sum (map g (o' :: l1))) with (g o' + list_sum (map g l1))%nat in S. change (list_sum (map g [])) with 0%nat in S. lia.
  - subst. change (list_sum (map g (x' :: l1))) with (g x' + list_sum (map g l1))%nat in S. change (list_sum (map g (x' :: l1'))) with (g x' + list_sum (map g l1'))%nat in S.
    destruct (IH l1' o o' l2 l2' a a') as (-> & -> & ->); auto. lia.
Qed.
Notation ncombos := (fun x => length (f_combos x)).

Section Functions.
Variables (dim : nat) (tol atol : Qc) (G : list (list Qc)) (sites : list (list Qc)) (ops : list symop) (sp : nat -> nat) (D : forbits).
Hypothesis CR : crystal dim tol G sites ops.
Hypothesis AT : 0 < atol /\ atol <= tol.
Hypothesis SPC : same_spaces dim sites ops sp.
Hypothesis SM : subspace_made dim tol sites ops D.
Notation all := (all_forbits D).
(** [i] is the id of the functions [F] of the orbit [o]. *)
Definition is_function (i : nat) (o : forbit) (F : list (list nat)) : Prop := In o all /\ exists a, nth_error (f_combos o) a = Some F /\ i = (f_bit o + a)%nat.
Lemma split_all o : In o all -> exists l1 l2, all = l1 ++ o :: l2 /\ f_bit o = S (list_sum (map ncombos l1)).
Proof using SM. intros H. apply in_split in H as (l1 & l2 & E). exists l1, l2. split; auto. apply (sm_bit SM E). Qed.
Lemma fun_inj i o F o' F' : is_function i o F -> is_function i o' F' -> o = o' /\ F = F'.
Proof using SM.
  intros (Ho & a & Ha & Ea) (Ho' & a' & Ha' & Ea'). destruct (split_all Ho) as (l1 & l2 & E & B). destruct (split_all Ho') as (l1' & l2' & E' & B').
  destruct (@fun_unique _ ncombos l1 l1' o o' l2 l2' a a') as (_ & -> & ->); [congruence| | |lia|].
  - apply nth_error_Some. congruence.
  - apply nth_error_Some. congruence.
  - split; auto. congruence.
Qed.
Lemma fun_total i : (1 <= i < length (f_orbit_ids D))%nat <-> exists o F, is_function i o F.
Proof using SM.
  unfold f_orbit_ids. cbn [length]. rewrite length_repeats. split.
  - intros H. destruct (@repeats_split _ ncombos all (i - 1)) as (l1 & o & l2 & a & E & Ei & Ha); [lia|]. destruct (nth_error (f_combos o) a) as [F|] eqn:EF; [|apply nth_error_None in EF; lia].
    exists o, F. split; [rewrite E; apply in_elt|]. exists a. split; auto. rewrite (sm_bit SM E). lia.
  - intros (o & F & Ho & a & Ha & ->). destruct (split_all Ho) as (l1 & l2 & E & B). assert (a < ncombos o)%nat by (apply nth_error_Some; congruence). rewrite B, E, map_app, list_sum_app. change (list_sum (map ncombos (o :: l2))) with (ncombos o + list_sum (map ncombos l2))%nat. lia.
Qed.
Lemma fun_lookup i o F : is_function i o F -> nth_error (f_orbit_ids D) i = Some (f_id o) /\ nth_error all (f_id o - 1) = Some o /\ nth_error (f_combos o) (i - f_bit o) = Some F /\ (i =? 0)%nat = false.
Proof using SM.
  intros (Ho & a & Ha & ->). destruct (split_all Ho) as (l1 & l2 & E & B). assert (La : (a < ncombos o)%nat) by (apply nth_error_Some; congruence). destruct (id_pos SM Ho) as (k & Ek & Nk). split; [|split; [|split]].
  - unfold f_orbit_ids. rewrite B. cbn [plus nth_error]. apply (@nth_repeats _ f_id ncombos _ l1 o l2 a E La).
  - rewrite Ek. replace (S k - 1)%nat with k by lia. auto.
  - replace (f_bit o + a - f_bit o)%nat with a by lia. auto.
  - apply Nat.eqb_neq. lia.
Qed.
(** The functions of one sub-orbit. *)
Lemma one_sub o s combo : In o all -> In s all -> In combo (f_combos o) ->
  exists ids, sub_functions dim tol atol ops sp o s combo = Some ids /\ NoDup ids /\ forall j, In j ids <-> exists H, is_function j s H /\ factor dim ops (c_coords (g_base (f_geo o))) (c_coords (g_base (f_geo s))) combo H.
Proof using CR AT SPC SM.
  intros Ho Hs Hc. assert (MO := sm_orbit SM Ho). assert (MS := sm_orbit SM Hs). assert (KO := sm_combos SM Ho). assert (KS := sm_combos SM Hs). destruct (parts_ok CR (proj1 MO)) as (PO & EO & _). destruct (parts_ok CR (proj1 MS)) as (PS & ES & _).
  destruct (mappings_ok CR AT SPC MO MS EO ES) as (ms & EM & _). unfold sub_functions. rewrite EM. cbn [option_bind].
  set (f := fun g : list (list nat) => match g with [] => None | c0 :: _ => Some (covers combo ms c0) end).
  assert (TF : forall g, In g (f_combos s) -> exists b, f g = Some b /\ (b = true <-> factor dim ops (c_coords (g_base (f_geo o))) (c_coords (g_base (f_geo s))) combo g)).
  { intros g Hg. destruct (group_ok CR MS KS Hg) as (_ & _ & _ & N & _). destruct g as [|c0 grp]; [congruence|]. exists (covers combo ms c0). split; auto. apply (covers_ok CR AT SPC MO MS KO KS Hc Hg EM). }
  destruct (@opt_map_all _ _ f (f_combos s)) as (hs & EH); [intros g Hg; destruct (TF g Hg) as (b & -> & _); discriminate|]. rewrite EH. cbn [option_bind]. eexists. split; [reflexivity|].
  assert (LH := opt_map_length _ _ EH). assert (SPL : forall j b, In (j, b) (combine (seq (f_bit s) (length (f_combos s))) hs) <-> exists a, nth_error hs a = Some b /\ j = (f_bit s + a)%nat).
  { intros j b. split.
    - intros I. apply In_nth_error in I as (a & Ea). exists a. rewrite nth_error_combine in Ea. destruct (nth_error (seq _ _) a) as [x|] eqn:Ex; [|discriminate]. destruct (nth_error hs a) as [y|] eqn:Ey; [|discriminate]. injection Ea as -> ->. split; auto.
      assert (a < length (seq (f_bit s) (length (f_combos s))))%nat by (apply nth_error_Some; congruence). rewrite seq_length in *. apply nth_error_nth with (d := 0%nat) in Ex. rewrite seq_nth in Ex; auto.
    - intros (a & Ea & ->). assert (La : (a < length hs)%nat) by (apply nth_error_Some; congruence). apply (nth_error_In _ a). rewrite nth_error_combine. rewrite Ea. rewrite (nth_error_nth' _ 0%nat) by (rewrite seq_length; lia). rewrite seq_nth by lia. auto. }
  split.
  - clear. generalize (f_bit s) (length (f_combos s)) hs. clear. intros b n. revert b. induction n as [|n IH]; intros b [|h hs]; cbn [seq combine filter map]; try constructor.
    assert (NB : ~ In b (map fst (filter snd (combine (seq (S b) n) hs)))). { intros I. apply in_map_iff in I as ([x y] & E & I). cbn [fst] in E. subst x. apply filter_In in I as [I _]. apply in_combine_l in I. apply in_seq in I. lia. }
    destruct h; cbn [snd map fst]; [constructor; auto|auto].
  - intros j. rewrite in_map_iff. split.
    + intros ([j' b] & E & I). cbn [fst] in E. subst j'. apply filter_In in I as [I B]. cbn [snd] in B. subst b. apply SPL in I as (a & Ea & ->).
      destruct (nth_error (f_combos s) a) as [g|] eqn:Eg; [|apply nth_error_None in Eg; assert (a < length hs)%nat by (apply nth_error_Some; congruence); lia].
      destruct (opt_map_nth _ _ _ EH Eg) as (b & Eb & Ea'). rewrite Ea in Ea'. injection Ea' as <-. destruct (TF g (nth_error_In _ _ Eg)) as (b & Eb' & Hb). rewrite Eb in Eb'. injection Eb' as <-.
      exists g. split; [split; auto; exists a; auto|]. apply Hb. auto.
    + intros (g & (_ & a & Ea & ->) & F). destruct (opt_map_nth _ _ _ EH Ea) as (b & Eb & Hb). destruct (TF g (nth_error_In _ _ Ea)) as (b' & Eb' & Hb'). rewrite Eb in Eb'. injection Eb' as <-. apply Hb' in F. subst b.
      exists ((f_bit s + a)%nat, true). split; auto. apply filter_In. split; auto. apply SPL. exists a. auto.
Qed.
Lemma subs_lists o combo subs : In o all -> In combo (f_combos o) -> NoDup subs -> (forall s, In s subs -> In s all) ->
  exists ls, opt_map (fun s => sub_functions dim tol atol ops sp o s combo) subs = Some ls /\ NoDup (concat ls) /\
    forall j, In j (concat ls) <-> exists s H, In s subs /\ is_function j s H /\ factor dim ops (c_coords (g_base (f_geo o))) (c_coords (g_base (f_geo s))) combo H.
Proof using CR AT SPC SM.
  intros Ho Hc. induction subs as [|s subs IH]; intros N I.
  - exists []. split; auto. split; [constructor|]. intros j. split; [intros []|]. intros (s & H & [] & _).
  - inversion N as [|? ? Hs N']; subst. destruct IH as (ls & E & N2 & J); auto; [intros x Hx; apply I; right; auto|]. destruct (one_sub Ho (I s (or_introl eq_refl)) Hc) as (ids & Ei & Ni & Ji).
    exists (ids :: ls). cbn [opt_map]. rewrite Ei. rewrite E. split; auto. cbn [concat]. split.
    + apply NoDup_app_intro; auto. intros x Hx Hx'. apply Ji in Hx as (H & F & _). apply J in Hx' as (s' & H' & Hs' & F' & _). destruct (fun_inj F F') as [-> _]. auto.
    + intros j. rewrite in_app_iff, Ji, J. split.
      * intros [(H & F & X)|(s' & H & Hs' & F & X)]; [exists s, H; split; auto; left; auto|exists s', H; split; auto; right; auto].
      * intros (s' & H & [<- |Hs'] & F & X); [left; exists H; auto|right; exists s', H; auto].
Qed.
End Functions.

(** The sub-functions of a function are the functions of the sub-orbits that are factors of it, once each. *)
Theorem C97_functions : forall dim tol atol G sites ops sp D level min_size i o F subs, crystal dim tol G sites ops -> 0 < atol /\ atol <= tol -> same_spaces dim sites ops sp ->
  subspace_made dim tol sites ops D -> is_function D i o F -> get_sub_orbits dim tol ops D (f_id o) level min_size = Some subs ->
  exists ids, get_sub_function_ids dim tol atol ops sp D i level min_size = Some ids /\ NoDup ids /\
    forall j, In j ids <-> exists s H, In s subs /\ is_function D j s H /\ factor dim ops (c_coords (g_base (f_geo o))) (c_coords (g_base (f_geo s))) F H.
Proof.
  intros dim tol atol G sites ops sp D level min_size i o F subs CR AT SPC SM IF ES. destruct (fun_lookup SM IF) as (E1 & E2 & E3 & E4). assert (Ho : In o (all_forbits D)) by apply IF. assert (HF : In F (f_combos o)) by (eapply nth_error_In; eauto).
  destruct (get_sub_spec CR SM Ho ES) as [N H]. destruct (subs_lists CR AT SPC SM Ho HF N) as (ls & E & N2 & J); [intros s Hs; apply H in Hs; apply Hs|].
  exists (concat ls). unfold get_sub_function_ids. rewrite E4, E1. cbn [option_bind]. rewrite E2. cbn [option_bind]. rewrite E3. cbn [option_bind]. rewrite ES. cbn [option_bind]. rewrite E. auto.
Qed.
Print Assumptions C97_functions.

(** The function hierarchy lists the sub-functions of every function by id, and the inverted one the functions that a function is a factor of. *)
Theorem C97_hierarchy : forall dim tol atol G sites ops sp D level min_size, crystal dim tol G sites ops -> 0 < atol /\ atol <= tol -> same_spaces dim sites ops sp ->
  subspace_made dim tol sites ops D -> (forall o, In o (all_forbits D) -> get_sub_orbits dim tol ops D (f_id o) level min_size <> None) ->
  exists h inv, function_hierarchy dim tol atol ops sp D level min_size false = Some h /\ function_hierarchy dim tol atol ops sp D level min_size true = Some inv /\
    length h = length (f_orbit_ids D) /\ length inv = length h /\
    (forall i j, In j (nth i h []) <-> exists o F s H subs, is_function D i o F /\ is_function D j s H /\ get_sub_orbits dim tol ops D (f_id o) level min_size = Some subs /\ In s subs /\
      factor dim ops (c_coords (g_base (f_geo o))) (c_coords (g_base (f_geo s))) F H) /\
    (forall i j, In i (nth j inv []) <-> In j (nth i h [])).
Proof.
  intros dim tol atol G sites ops sp D level min_size CR AT SPC SM GS. unfold function_hierarchy.
  assert (ROW : forall i, (i < length (f_orbit_ids D))%nat -> exists r, get_sub_function_ids dim tol atol ops sp D i level min_size = Some r /\
    forall j, In j r <-> exists o F s H subs, is_function D i o F /\ is_function D j s H /\ get_sub_orbits dim tol ops D (f_id o) level min_size = Some subs /\ In s subs /\
      factor dim ops (c_coords (g_base (f_geo o))) (c_coords (g_base (f_geo s))) F H).
  { intros [|i] Hi.
    - exists []. split; auto. intros j. split; [intros []|]. intros (o & F & s & H & subs & IF & _). destruct (fun_lookup SM IF) as (_ & _ & _ & X). discriminate.
    - destruct (proj1 (fun_total SM (S i))) as (o & F & IF); [lia|]. destruct (get_sub_orbits dim tol ops D (f_id o) level min_size) as [subs|] eqn:ES; [|exfalso; apply (GS o); auto; apply IF].
      destruct (C97_functions CR AT SPC SM IF ES) as (r & Er & _ & J). exists r. split; auto. intros j. rewrite J. split.
      + intros (s & H & Hs & F' & X). exists o, F, s, H, subs. auto.
      + intros (o' & F' & s & H & subs' & IF' & IH & ES' & Hs & X). destruct (fun_inj SM IF IF') as [<- <-]. rewrite ES in ES'. injection ES' as <-. exists s, H. auto. }
  destruct (@opt_map_all _ _ (fun i => get_sub_function_ids dim tol atol ops sp D i level min_size) (seq 0 (length (f_orbit_ids D)))) as (h & E).
  { intros i Hi. apply in_seq in Hi. destruct (ROW i) as (r & -> & _); [lia|discriminate]. }
  rewrite E. cbn [option_bind]. assert (LH := opt_map_length _ _ E). rewrite seq_length in LH.
  assert (J : forall i j, In j (nth i h []) <-> exists o F s H subs, is_function D i o F /\ is_function D j s H /\ get_sub_orbits dim tol ops D (f_id o) level min_size = Some subs /\ In s subs /\
      factor dim ops (c_coords (g_base (f_geo o))) (c_coords (g_base (f_geo s))) F H).
  { intros i j. destruct (Nat.lt_ge_cases i (length (f_orbit_ids D))) as [L|L].
    - destruct (ROW i L) as (r & Er & HJ). rewrite <- HJ. assert (Hs : nth_error (seq 0 (length (f_orbit_ids D))) i = Some i) by (rewrite (nth_error_nth' _ 0%nat) by (rewrite seq_length; auto); rewrite seq_nth; auto).
      destruct (opt_map_nth _ _ _ E Hs) as (r' & Er' & Hr). rewrite Er in Er'. injection Er' as <-. rewrite (nth_error_nth _ _ [] Hr). tauto.
    - rewrite nth_overflow by lia. split; [intros []|]. intros (o & F & s & H & subs & IF & _). assert (X : exists o F, is_function D i o F) by eauto. apply (fun_total SM) in X. lia. }
  destruct (@C38_invert h) as (inv & EI & LI & HI & _).
  { intros i v Hv. apply J in Hv as (_ & _ & s & H & _ & _ & IF & _). assert (X : exists o F, is_function D v o F) by eauto. apply (fun_total SM) in X. lia. }
  exists h, inv. split; auto.
Qed.
Print Assumptions C97_hierarchy.

(** In the cubic example the factors of the functions of the triplet are those of the pair (ids 3 to 5), and those of the point (1 and 2). *)
Example C97_case : crystal 3 tol6 cubeG cube_sites both /\ 0 < Qc_frac 1 100000000 /\ Qc_frac 1 100000000 <= tol6 /\ same_spaces 3 cube_sites both (fun _ => 0%nat) /\ subspace_made 3 tol6 cube_sites both cube_D /\
  (forall o, In o (all_forbits cube_D) -> get_sub_orbits 3 tol6 both cube_D (f_id o) None 1 <> None) /\
  function_hierarchy 3 tol6 (Qc_frac 1 100000000) both (fun _ => 0%nat) cube_D None 1 false =
    Some [[]; []; []; [1]; [1; 2]; [2]; [3; 1]; [3; 1; 2]; [4; 1; 2]; [4; 1; 2]; [4; 1; 2]; [4; 1; 2]; [5; 1; 2]; [5; 2]]%nat.
Proof.
  split; [apply cube_crystal|]. split; [reflexivity|]. split; [discriminate|]. split; [intros g x i j _ _ _; auto|]. split; [apply cube_made|]. split.
  - intros o Ho. simpl in Ho. repeat (destruct Ho as [<- |Ho]; [vm_compute; discriminate|]). destruct Ho.
  - vm_compute. reflexivity.
Qed.
