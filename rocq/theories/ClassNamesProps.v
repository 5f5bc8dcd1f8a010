(** C60: names of classes. *)
From Verif Require Import LibProofs.
From Verif Require Export ClassNames.
From Coq Require Import String List.
Import ListNotations.
Set Implicit Arguments.
Unset Strict Implicit.
Open Scope nat_scope.
Open Scope list_scope.

(** ** Specification *)
(** A capitalised word: an upper case letter, then no upper case letter and no dash. *)
Definition word (w : str) : Prop := exists c r, w = c :: r /\ is_upper c = true /\ Forall (fun x => is_upper x = false /\ x <> dash) r.
(** A name in camel caps. *)
Definition camel (n : str) : Prop := exists ws, Forall word ws /\ n = concat ws.
(** A group of words: all capitalised, or all but the first. *)
Definition spell_group (g : bool * list str) : str :=
  match snd g with
  | [] => []
  | w :: ws => (if fst g then match w with [] => [] | c :: r => to_lower c :: r end else w) ++ concat ws
  end.
(** Groups separated by dashes. *)
Definition spell (gs : list (bool * list str)) : str := join_dash (map spell_group gs).

(** ** Characters *)
Lemma all_chars (P : ascii -> bool) : forallb P (map ascii_of_nat (seq 0 256)) = true -> forall c, P c = true.
Proof.
  intros H c. rewrite forallb_forall in H. apply H. apply in_map_iff. exists (nat_of_ascii c). split; [apply ascii_nat_embedding|]. apply in_seq. pose proof (nat_ascii_bounded c). lia.
Qed.
Lemma upper_letter c : is_upper c = true -> is_letter c = true.
Proof. intros H. unfold is_letter. rewrite H. auto. Qed.
Lemma upper_fixed c : is_upper c = true -> to_upper c = c.
Proof.
  intros H. pose proof (all_chars (P := fun c => implb (is_upper c) (Ascii.eqb (to_upper c) c)) ltac:(vm_compute; reflexivity) c) as G. cbv beta in G. rewrite H in G. cbn [implb] in G. apply Ascii.eqb_eq in G. auto.
Qed.
Lemma letter_upper c : is_letter c = true -> is_upper (to_upper c) = true.
Proof.
  intros H. pose proof (all_chars (P := fun c => implb (is_letter c) (is_upper (to_upper c))) ltac:(vm_compute; reflexivity) c) as G. cbv beta in G. rewrite H in G. auto.
Qed.
Lemma lower_fixed c : is_upper c = false -> to_lower c = c.
Proof. intros H. unfold to_lower. rewrite H. auto. Qed.
Lemma lower_not_upper c : is_upper (to_lower c) = false.
Proof. pose proof (all_chars (P := fun c => negb (is_upper (to_lower c))) ltac:(vm_compute; reflexivity) c) as G. cbv beta in G. apply negb_true_iff in G. auto. Qed.
Lemma lower_upper c : is_upper c = true -> to_upper (to_lower c) = c /\ is_letter (to_lower c) = true /\ to_lower c <> dash.
Proof.
  intros H. pose proof (all_chars (P := fun c => implb (is_upper c) (Ascii.eqb (to_upper (to_lower c)) c && (is_letter (to_lower c) && negb (Ascii.eqb (to_lower c) dash)))) ltac:(vm_compute; reflexivity) c) as G. cbv beta in G. rewrite H in G. cbn [implb] in G. rewrite !andb_true_iff in G. destruct G as (A & B & C). apply Ascii.eqb_eq in A. apply negb_true_iff in C. apply Ascii.eqb_neq in C. auto.
Qed.
Lemma letter_not_dash c : is_letter c = true -> c <> dash.
Proof. intros H ->. discriminate. Qed.

(** ** Pieces *)
(** What the regular expression matches. *)
Definition piece (start : ascii -> bool) (w : str) : Prop := exists c r, w = c :: r /\ start c = true /\ Forall (fun x => is_upper x = false) r.
Lemma find_all_pieces start : (forall c, is_upper c = true -> start c = true) -> forall s cur, match cur with Some w => piece start w | None => True end -> Forall (piece start) (find_all start cur s).
Proof.
  intros SU. induction s as [|c s IH]; intros cur H; cbn [find_all].
  - destruct cur; repeat constructor; auto.
  - destruct cur as [w|].
    + destruct (is_upper c) eqn:E.
      * constructor; auto. apply IH. rewrite (SU c E). exists c, []. auto.
      * apply IH. destruct H as (a & r & -> & A & B). exists a, (r ++ [c]). split; auto. split; auto. apply Forall_app. auto.
    + destruct (start c) eqn:E; apply IH; auto. exists c, []. auto.
Qed.
Lemma find_all_chars start s : forall cur w x, In w (find_all start cur s) -> In x w -> match cur with Some v => In x v | None => False end \/ In x s.
Proof.
  induction s as [|c s IH]; intros cur w x H G; cbn [find_all] in H.
  - destruct cur; [destruct H as [<- | []]; auto|destruct H].
  - destruct cur as [v|].
    + destruct (is_upper c).
      * destruct H as [<- | H]; auto. destruct (IH _ _ _ H G) as [K|K]; [|right; right; auto]. destruct (start c); [|destruct K]. destruct K as [<- | []]. right. left. auto.
      * destruct (IH _ _ _ H G) as [K|K]; [|right; right; auto]. apply in_app_or in K. destruct K as [K | [<- | []]]; [auto|right; left; auto].
    + destruct (start c).
      * destruct (IH _ _ _ H G) as [K|K]; [|right; right; auto]. destruct K as [<- | []]. right. left. auto.
      * destruct (IH _ _ _ H G) as [[]|K]. right. right. auto.
Qed.
Lemma find_all_rest start r : Forall (fun x => is_upper x = false) r -> forall w t, find_all start (Some w) (r ++ t) = find_all start (Some (w ++ r)) t.
Proof.
  induction 1 as [|x r E H IH]; intros w t; [rewrite app_nil_r; auto|]. cbn [app find_all]. rewrite E, IH, <- app_assoc. auto.
Qed.
Lemma find_all_upper start ps : (forall c, is_upper c = true -> start c = true) -> Forall (piece is_upper) ps -> forall w, find_all start (Some w) (concat ps) = w :: ps.
Proof.
  intros SU H. induction H as [|p ps (c & r & -> & U & R) H IH]; intros w; auto. cbn [concat]. cbn [app find_all]. rewrite U, (SU c U). f_equal. rewrite find_all_rest by auto. apply IH.
Qed.
Lemma find_all_concat start c r ps : (forall c, is_upper c = true -> start c = true) -> start c = true -> Forall (fun x => is_upper x = false) r -> Forall (piece is_upper) ps ->
  find_all start None ((c :: r) ++ concat ps) = (c :: r) :: ps.
Proof. intros SU SC R H. cbn [app find_all]. rewrite SC, find_all_rest by auto. apply find_all_upper; auto. Qed.
Lemma find_all_words start ps : (forall c, is_upper c = true -> start c = true) -> Forall (piece is_upper) ps -> find_all start None (concat ps) = ps.
Proof. intros SU H. destruct ps as [|p ps]; auto. inversion H as [|? ? (c & r & -> & U & R) H1]; subst. cbn [concat]. apply find_all_concat; auto. Qed.
Lemma capitalize_piece w : piece is_upper w -> capitalize w = w.
Proof.
  intros (c & r & -> & U & R). cbn [capitalize]. rewrite upper_fixed by auto. f_equal. induction R as [|x r E R IH]; auto. cbn [map]. rewrite IH, lower_fixed by auto. auto.
Qed.
Lemma capitalize_is_piece w : piece is_letter w -> piece is_upper (capitalize w).
Proof.
  intros (c & r & -> & U & R). exists (to_upper c), (map to_lower r). split; auto. split; [apply letter_upper; auto|]. apply Forall_forall. intros x Hx. apply in_map_iff in Hx. destruct Hx as (y & <- & _). apply lower_not_upper.
Qed.
Lemma word_piece w : word w -> piece is_upper w.
Proof. intros (c & r & -> & U & R). exists c, r. split; auto. split; auto. eapply Forall_impl; [|exact R]. intros x Hx. apply Hx. Qed.
Lemma words_pieces ws : Forall word ws -> Forall (piece is_upper) ws.
Proof. apply Forall_impl, word_piece. Qed.

(** ** Splitting *)
Lemma split_none s : ~ In dash s -> forall cur, split_dash cur s = [cur ++ s].
Proof.
  induction s as [|c s IH]; intros H cur; cbn [split_dash]; [rewrite app_nil_r; auto|]. destruct (Ascii.eqb_spec c dash) as [->|N]; [exfalso; apply H; left; auto|]. rewrite IH by (intros C; apply H; right; auto). rewrite <- app_assoc. auto.
Qed.
Lemma split_app s : ~ In dash s -> forall cur t, split_dash cur (s ++ dash :: t) = (cur ++ s) :: split_dash [] t.
Proof.
  induction s as [|c s IH]; intros H cur t; [cbn [app split_dash]; rewrite Ascii.eqb_refl, app_nil_r; auto|]. cbn [app split_dash]. destruct (Ascii.eqb_spec c dash) as [->|N]; [exfalso; apply H; left; auto|]. rewrite IH by (intros C; apply H; right; auto). rewrite <- app_assoc. auto.
Qed.
Lemma split_join l : l <> [] -> Forall (fun s => ~ In dash s) l -> split_dash [] (join_dash l) = l.
Proof.
  intros N H. induction H as [|s l D H IH]; [congruence|]. destruct l as [|t l]; cbn [join_dash]; [rewrite split_none by auto; auto|]. rewrite split_app by auto. cbn [app]. f_equal. apply IH. discriminate.
Qed.
Lemma split_no_dash s : forall cur p, ~ In dash cur -> In p (split_dash cur s) -> ~ In dash p.
Proof.
  induction s as [|c s IH]; intros cur p N H; cbn [split_dash] in H; [destruct H as [<- | []]; auto|]. destruct (Ascii.eqb_spec c dash) as [->|E]; [destruct H as [<- | H]; auto; apply (IH [] p); auto|]. apply (IH (cur ++ [c]) p); auto. intros C. apply in_app_or in C. destruct C as [C | [C | []]]; [auto|congruence].
Qed.
Lemma word_no_dash w : word w -> ~ In dash w.
Proof. intros (c & r & -> & U & R) [-> | H]; [discriminate|]. rewrite Forall_forall in R. destruct (R dash H) as (_ & C). auto. Qed.
Lemma words_no_dash ws : Forall word ws -> ~ In dash (concat ws).
Proof. intros H C. apply in_concat in C. destruct C as (w & Hw & Hd). rewrite Forall_forall in H. apply (word_no_dash (H w Hw) Hd). Qed.

(** ** The claims *)
(** The result is always a name in camel caps, and normalising it again changes nothing. *)
Theorem C60_idempotent s : camel (class_name_from_str s) /\ class_name_from_str (class_name_from_str s) = class_name_from_str s.
Proof.
  set (ps := map capitalize (flat_map (find_all is_letter None) (split_dash [] s))).
  assert (W : Forall word ps).
  { apply Forall_forall. intros w Hw. apply in_map_iff in Hw. destruct Hw as (v & <- & Hv). apply in_flat_map in Hv. destruct Hv as (sub & Hs & Hv). assert (ND : ~ In dash v). { intros C. destruct (find_all_chars Hv C) as [[]|C2]. apply (split_no_dash (cur := []) (s := s) (p := sub)); auto. }
    pose proof (find_all_pieces upper_letter sub (cur := None) I) as F. rewrite Forall_forall in F. destruct (F v Hv) as (c & r & -> & L & R). exists (to_upper c), (map to_lower r). split; auto. split; [apply letter_upper; auto|]. apply Forall_forall. intros x Hx. apply in_map_iff in Hx. destruct Hx as (y & <- & Hy). split; [apply lower_not_upper|]. rewrite Forall_forall in R. rewrite lower_fixed by auto. intros ->. apply ND. right. auto. }
  change (class_name_from_str s) with (concat ps). split; [exists ps; auto|]. unfold class_name_from_str. rewrite split_none by (apply words_no_dash; auto). cbn [app flat_map]. rewrite app_nil_r, find_all_words by (auto using upper_letter, words_pieces). f_equal. rewrite <- (map_id ps) at 2. apply map_ext_in. intros w Hw. apply capitalize_piece, word_piece. rewrite Forall_forall in W. auto.
Qed.
(** Words written capitalised or, after a dash or at the start, with a small first letter, with dashes or without, give the name. *)
Theorem C60_spelling gs : Forall (fun g => Forall word (snd g)) gs -> class_name_from_str (spell gs) = concat (concat (map snd gs)).
Proof.
  intros H. destruct gs as [|g0 gs0] eqn:EG; [reflexivity|]. rewrite <- EG in *. assert (N : map spell_group gs <> []) by (rewrite EG; discriminate). clear EG g0 gs0.
  unfold class_name_from_str, spell. rewrite split_join; auto.
  - clear N. induction H as [|[low ws] gs W H IH]; auto. cbn [map flat_map concat snd] in *. rewrite map_app, !concat_app, IH. f_equal. clear IH H gs. destruct ws as [|w ws]; [reflexivity|]. inversion W as [|? ? W1 W2]; subst. pose proof (words_pieces W2) as P2. destruct W1 as (c & r & -> & U & R). assert (R' : Forall (fun x => is_upper x = false) r) by (eapply Forall_impl; [|exact R]; intros x Hx; apply Hx).
    assert (M : map capitalize ws = ws) by (rewrite <- (map_id ws) at 2; apply map_ext_in; intros w Hw; apply capitalize_piece; rewrite Forall_forall in P2; auto).
    assert (C0 : capitalize (c :: r) = c :: r) by (apply capitalize_piece; exists c, r; auto).
    unfold spell_group. cbn [snd fst]. destruct (lower_upper U) as (A & B & _). destruct low; rewrite find_all_concat; auto using upper_letter; cbn [map concat]; rewrite M; f_equal; auto. cbn [capitalize] in *. rewrite A. injection C0 as _ C1. rewrite C1. auto.
  - apply Forall_forall. intros s Hs. apply in_map_iff in Hs. destruct Hs as ([low ws] & <- & Hg). rewrite Forall_forall in H. specialize (H _ Hg). cbn [snd] in H. unfold spell_group. cbn [snd fst]. destruct ws as [|w ws]; [intros []|]. inversion H as [|? ? W1 W2]; subst. intros C. apply in_app_or in C. destruct C as [C|C]; [|apply (words_no_dash W2 C)]. destruct low; [|apply (word_no_dash W1 C)]. destruct W1 as (c & r & -> & U & R). destruct (lower_upper U) as (_ & _ & D). destruct C as [C|C]; [congruence|]. rewrite Forall_forall in R. destruct (R _ C); auto.
Qed.
(** A name in camel caps names itself. *)
Theorem C60_name n : camel n -> class_name_from_str n = n.
Proof.
  intros (ws & W & ->). pose proof (@C60_spelling [(false, ws)]) as H. unfold spell in H. cbn [map snd join_dash concat] in H. rewrite app_nil_r in H. assert (E : spell_group (false, ws) = concat ws) by (unfold spell_group; destruct ws; auto). rewrite E in H. apply H. repeat constructor. auto.
Qed.
(** The printed list of names: each is understood as the name it was made of, if it is split (and names are in camel caps). *)
Theorem C60_listed base low : (forall n c, In (n, c) (get_subclasses base) -> camel n) -> map class_name_from_str (get_subclasses_str base low true) = map fst (get_subclasses base).
Proof.
  intros H. unfold get_subclasses_str. set (names := map fst (get_subclasses base)). assert (CN : Forall camel names) by (apply Forall_forall; intros n Hn; apply in_map_iff in Hn; destruct Hn as ([k c] & <- & Hc); apply (H k c); auto). clearbody names. clear H base.
  assert (G : forall ws : list str, Forall word ws -> class_name_from_str (join_dash ws) = concat ws /\ class_name_from_str (lower (join_dash ws)) = concat ws).
  { intros ws W. assert (S1 : forall b : bool, map snd (map (fun w => (b, [w])) ws) = map (fun w : str => [w]) ws) by (intros b; rewrite map_map; auto). assert (S2 : concat (map (fun w : str => [w]) ws) = ws) by (clear; induction ws; simpl; congruence).
    assert (S3 : forall b : bool, Forall (fun g => Forall word (snd g)) (map (fun w => (b, [w])) ws)) by (intros b; apply Forall_forall; intros g Hg; apply in_map_iff in Hg; destruct Hg as (w & <- & Hw); repeat constructor; rewrite Forall_forall in W; auto).
    split.
    - rewrite <- S2 at 2. rewrite <- (S1 false), <- (C60_spelling (S3 false)). f_equal. unfold spell. rewrite map_map. f_equal. rewrite <- (map_id ws) at 1. apply map_ext. intros w. unfold spell_group. cbn [snd fst concat]. rewrite app_nil_r. auto.
    - rewrite <- S2 at 2. rewrite <- (S1 true), <- (C60_spelling (S3 true)). f_equal. unfold spell. rewrite map_map. clear S1 S2 S3. induction W as [|w ws W1 W IH]; auto. assert (L : lower w = spell_group (true, [w])). { destruct W1 as (c & r & -> & U & R). unfold spell_group. cbn [snd fst concat lower map]. rewrite app_nil_r. f_equal. induction R as [|x r (E & _) R IHr]; auto. cbn [map]. rewrite IHr, lower_fixed; auto. }
      destruct ws as [|v ws]; cbn [map join_dash] in *; [auto|]. unfold lower in *. rewrite map_app, L. f_equal. cbn [map]. f_equal. exact IH. }
  destruct low; rewrite ?map_map.
  - rewrite <- (map_id names) at 2. apply map_ext_in. intros n Hn. rewrite Forall_forall in CN. destruct (CN n Hn) as (ws & W & ->). rewrite find_all_words by (auto using words_pieces). apply (G ws W).
  - rewrite <- (map_id names) at 2. apply map_ext_in. intros n Hn. rewrite Forall_forall in CN. destruct (CN n Hn) as (ws & W & ->). rewrite find_all_words by (auto using words_pieces). apply (G ws W).
Qed.

(** *** Lookup *)
(** [c] is a class below [base]. *)
Inductive below : cls -> cls -> Prop :=
| below_sub n a subs s : In s subs -> below (Cls n a subs) s
| below_deep n a subs s c : In s subs -> below s c -> below (Cls n a subs) c.
Definition concrete (c : cls) : Prop := match c with Cls _ a _ => a = false end.
Lemma cls_induct (P : cls -> Prop) : (forall n a subs, (forall s, In s subs -> P s) -> P (Cls n a subs)) -> forall c, P c.
Proof.
  intros H. fix IH 1. intros [n a subs]. apply H. induction subs as [|s subs IHs]; intros t Ht; [destruct Ht|]. destruct Ht as [<- | Ht]; [apply IH|apply IHs; auto].
Qed.
Lemma str_eqb_spec a b : reflect (a = b) (str_eqb a b).
Proof. unfold str_eqb. destruct (list_eq_dec ascii_dec a b); constructor; auto. Qed.
Lemma dict_set_in {V} k (v : V) x d : In x (dict_set d k v) -> In x d \/ x = (k, v).
Proof. induction d as [|[k' v'] d IH]; cbn [dict_set]; intros H; [destruct H as [<- | []]; auto|]. destruct (str_eqb_spec k k') as [->|]; [destruct H as [<- | H]; [auto|left; right; auto]|]. destruct H as [<- | H]; [left; left; auto|]. destruct (IH H); [left; right; auto|auto]. Qed.
Lemma dict_set_keys {V} k (v : V) n d : In n (map fst (dict_set d k v)) <-> n = k \/ In n (map fst d).
Proof. induction d as [|[k' v'] d IH]; cbn [dict_set map fst]; [simpl; intuition congruence|]. destruct (str_eqb_spec k k') as [->|]; cbn [map fst In]; [intuition congruence|]. rewrite IH. intuition congruence. Qed.
Lemma dict_update_in {V} (e : list (str * V)) : forall x d, In x (dict_update d e) -> In x d \/ In x e.
Proof. unfold dict_update. induction e as [|[k v] e IH]; intros x d H; cbn [fold_left fst snd] in H; auto. apply IH in H. destruct H as [H|H]; [|right; right; auto]. apply dict_set_in in H. destruct H as [H | ->]; [auto|right; left; auto]. Qed.
Lemma dict_update_keys {V} (e : list (str * V)) : forall n d, In n (map fst (dict_update d e)) <-> In n (map fst d) \/ In n (map fst e).
Proof. unfold dict_update. induction e as [|[k v] e IH]; intros n d; cbn [fold_left fst snd map In]; [intuition|]. rewrite IH, dict_set_keys. intuition congruence. Qed.
Lemma dict_get_in {V} k (v : V) d : dict_get d k = Some v -> In (k, v) d.
Proof. induction d as [|[k' v'] d IH]; cbn [dict_get]; [discriminate|]. destruct (str_eqb_spec k k') as [->|]; intros H; [injection H as ->; left; auto|right; auto]. Qed.
Lemma dict_get_key {V} k (d : list (str * V)) : In k (map fst d) -> exists v, dict_get d k = Some v.
Proof. induction d as [|[k' v'] d IH]; cbn [dict_get map fst]; [intros []|]. destruct (str_eqb_spec k k') as [->|N]; [exists v'; auto|]. intros [H|H]; [congruence|auto]. Qed.
Lemma subclasses_in base : (forall n c, In (n, c) (get_subclasses base) -> below base c /\ concrete c /\ cls_name c = n) /\ (forall c, below base c -> concrete c -> In (cls_name c) (map fst (get_subclasses base))).
Proof.
  induction base as [n a subs IH] using cls_induct. cbn [get_subclasses]. set (each := fix each (d : list (str * cls)) (l : list cls) : list (str * cls) := match l with [] => d | s :: l' => let d1 := dict_update d (get_subclasses s) in each (match s with Cls n abstract _ => if abstract then d1 else dict_set d1 n s end) l' end).
  assert (G : forall l d, (forall s, In s l -> In s subs) -> (forall k c, In (k, c) (each d l) -> In (k, c) d \/ (below (Cls n a subs) c /\ concrete c /\ cls_name c = k)) /\
     (forall k, In k (map fst d) -> In k (map fst (each d l))) /\ (forall s c, In s l -> c = s \/ below s c -> concrete c -> In (cls_name c) (map fst (each d l)))).
  { induction l as [|s l IHl]; intros d HS; [cbn [each]; split; [auto|split; [auto|intros s c []]]|]. cbn [each]. destruct s as [ns as_ ss] eqn:ES. rewrite <- ES in *. assert (Hs : In s subs) by (apply HS; left; auto). destruct (IH s Hs) as (S1 & S2).
    set (d2 := if as_ then dict_update d (get_subclasses s) else dict_set (dict_update d (get_subclasses s)) ns s). destruct (IHl d2) as (A & B & C); [intros t Ht; apply HS; right; auto|]. fold d2.
    assert (K : forall k, In k (map fst (dict_update d (get_subclasses s))) -> In k (map fst d2)) by (intros k Hk; unfold d2; destruct as_; auto; apply dict_set_keys; auto).
    split; [|split].
    - intros k c H. apply A in H. destruct H as [H|H]; auto. assert (H2 : In (k, c) (dict_update d (get_subclasses s)) \/ (as_ = false /\ (k, c) = (ns, s))) by (unfold d2 in H; destruct as_; auto; apply dict_set_in in H; tauto). destruct H2 as [H2 | (E1 & E2)].
      + apply dict_update_in in H2. destruct H2 as [H2|H2]; auto. right. destruct (S1 k c H2) as (X & Y). split; auto. apply below_deep with s; auto.
      + injection E2 as -> ->. right. split; [apply below_sub; auto|]. rewrite ES. cbn [concrete cls_name]. auto.
    - intros k Hk. apply B, K, dict_update_keys. auto.
    - intros t c Ht Hc CC. destruct Ht as [<- | Ht]; [|apply (C t c); auto]. apply B. destruct Hc as [-> | Hc].
      + rewrite ES in CC. cbn [concrete] in CC. subst as_. rewrite ES at 1. cbn [cls_name]. unfold d2. apply dict_set_keys. auto.
      + apply K, dict_update_keys. right. apply S2; auto. }
  destruct (G subs []) as (A & _ & C); auto. split; [intros k c H; apply A in H; destruct H as [[]|H]; auto|]. intros c H CC. inversion H as [? ? ? s Hs|? ? ? s c' Hs Hb]; subst; [apply (C c c); auto|apply (C s c); auto].
Qed.
(** The factory makes an instance of a concrete class below the base that has the name; it finds one whenever there is one, and
    reports the name as unknown when there is none. *)
Theorem C60_factory {I} n base (construct : cls -> outcome I) : (forall c, construct c <> RaisesKeyError) ->
  (exists c, below base c /\ concrete c /\ cls_name c = n /\ derived_class_factory n base construct = construct c) \/
  ((forall c, below base c -> concrete c -> cls_name c <> n) /\ derived_class_factory n base construct = RaisesNotImplemented).
Proof.
  intros H. destruct (subclasses_in base) as (A & B). unfold derived_class_factory. destruct (dict_get (get_subclasses base) n) as [c|] eqn:E.
  - left. exists c. apply dict_get_in in E. destruct (A n c E) as (X & Y & Z). split; auto. split; auto. split; auto. specialize (H c). destruct (construct c); auto. congruence.
  - right. split; auto. intros c X Y Z. specialize (B c X Y). rewrite Z in B. destruct (dict_get_key B) as (v & Ev). congruence.
Qed.
(** With different names for different classes, every spelling of a class makes that class. *)
Theorem C60_every_spelling {I} base gs c (construct : cls -> outcome I) : (forall c, construct c <> RaisesKeyError) -> (forall a b, below base a -> below base b -> cls_name a = cls_name b -> a = b) ->
  below base c -> concrete c -> Forall (fun g => Forall word (snd g)) gs -> cls_name c = concat (concat (map snd gs)) ->
  derived_class_factory (class_name_from_str (spell gs)) base construct = construct c.
Proof.
  intros K U X Y W N. rewrite (C60_spelling W), <- N. destruct (C60_factory (cls_name c) base K) as [(c' & X' & Y' & N' & E) | (H & _)]; [rewrite E; f_equal; auto|exfalso; apply (H c X Y); auto].
Qed.

(** ** What fails *)
Definition S_ (s : string) : str := list_ascii_of_string s.
(** Spaces and underscores do not separate words; all capitals and all small letters are not understood. *)
Theorem C60_separators_refuted : class_name_from_str (S_ "the best class") = S_ "The best class" /\ class_name_from_str (S_ "the_best_class") = S_ "The_best_class" /\
  class_name_from_str (S_ "THE-BEST-CLASS") = S_ "THEBESTCLASS" /\ class_name_from_str (S_ "thebestclass") = S_ "Thebestclass".
Proof. repeat split. Qed.
(** An unsplit list in small letters does not name the classes. *)
Theorem C60_unsplit_refuted : exists base, map fst (get_subclasses base) = [S_ "TableFlip"] /\ map class_name_from_str (get_subclasses_str base true false) = [S_ "Tableflip"].
Proof. exists (Cls (S_ "MCUsher") true [Cls (S_ "TableFlip") false []]). split; reflexivity. Qed.
(** A missing key inside a constructor is reported as an unknown class. *)
Theorem C60_key_refuted : exists base n c, dict_get (get_subclasses base) n = Some c /\ forall I (construct : cls -> outcome I), construct c = RaisesKeyError -> derived_class_factory n base construct = RaisesNotImplemented.
Proof.
  exists (Cls (S_ "MCUsher") true [Cls (S_ "Flip") false []]), (S_ "Flip"), (Cls (S_ "Flip") false []). split; [reflexivity|]. intros I construct H. unfold derived_class_factory. replace (dict_get _ _) with (Some (Cls (S_ "Flip") false [])) by reflexivity. rewrite H. auto.
Qed.

(** Spellings of one name, words of one letter, and digits. *)
Definition ex_words : list str := [S_ "The"; S_ "Best"; S_ "Class"].
Lemma ex_words_ok : Forall word ex_words.
Proof. repeat constructor; (eexists; eexists; split; [reflexivity|]; split; [reflexivity|]; repeat constructor; discriminate). Qed.
Example C60_case : map spell [[(false, ex_words)]; [(true, ex_words)]; map (fun w => (true, [w])) ex_words; [(false, [S_ "The"]); (true, [S_ "Best"; S_ "Class"])]] =
    [S_ "TheBestClass"; S_ "theBestClass"; S_ "the-best-class"; S_ "The-bestClass"] /\
  map class_name_from_str [S_ "theBestClass"; S_ "the-best-class"; S_ "The-bestClass"; S_ "--the-best-class-"] = repeat (S_ "TheBestClass") 4 /\
  class_name_from_str (S_ "m-c-usher2d") = S_ "MCUsher2d" /\ class_name_from_str (S_ "2-flip") = S_ "Flip" /\
  let base := Cls (S_ "MCUsher") true [Cls (S_ "Flip") false []; Cls (S_ "Inner") true [Cls (S_ "TableFlip") false []]] in
  map fst (get_subclasses base) = [S_ "Flip"; S_ "TableFlip"] /\ get_subclasses_str base true true = [S_ "flip"; S_ "table-flip"] /\
  derived_class_factory (class_name_from_str (S_ "table-flip")) base (fun c => Made (cls_name c)) = Made (S_ "TableFlip").
Proof. repeat split. Qed.
Print Assumptions C60_idempotent.
Print Assumptions C60_spelling.
Print Assumptions C60_listed.
Print Assumptions C60_factory.
Print Assumptions C60_every_spelling.
