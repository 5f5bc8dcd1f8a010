(** C46: linear constraints on compositions. *)
From Verif Require Import LibProofs SiteTableProofs ClusterProps.
From Verif Require Export Constraints.
Set Implicit Arguments.
Unset Strict Implicit.
Open Scope nat_scope.

(** ** Specification *)
(** Written sides: terms (signs, an optional number, a species, an optional sublattice) and an optional number at the end. *)
Record item := mkItem { it_minus : list bool; it_num : option Qc; it_sp : species; it_sl : option nat }.
Record side := mkSide { sd_items : list item; sd_tail : option (list bool * Qc) }.
Definition sign_words (l : list bool) : list word := map (fun b : bool => if b then WMinus else WPlus) l.
Definition item_words (i : item) : list word := sign_words (it_minus i) ++ match it_num i with Some q => [WNum q] | None => [] end ++ [WSp (it_sp i) (it_sl i)].
Definition side_words (s : side) : list word := concat (map item_words (sd_items s)) ++ match sd_tail s with Some (l, q) => sign_words l ++ [WNum q] | None => [] end.
(** Their value for the numbers [n] of the species, sublattice by sublattice. *)
Definition sign_of (l : list bool) : Qc := if Nat.even (length (filter (fun b => b) l)) then 1%Qc else (- (1))%Qc.
Fixpoint blocks (bits : list (list species)) (n : list Qc) : list (list species * list Qc) :=
  match bits with [] => [] | sps :: bits' => (sps, firstn (length sps) n) :: blocks bits' (skipn (length sps) n) end.
Definition amount_in (sp : species) (b : list species * list Qc) : Qc := qsum (map (fun p => if sp_eqb (fst p) sp then snd p else 0%Qc) (combine (fst b) (snd b))).
Definition amount (bits : list (list species)) (n : list Qc) (sp : species) (sl : option nat) : Qc :=
  match sl with
  | Some k => match nth_error (blocks bits n) k with Some b => amount_in sp b | None => 0%Qc end
  | None => qsum (map (amount_in sp) (blocks bits n))
  end.
Definition factor (i : item) : Qc := (sign_of (it_minus i) * match it_num i with Some q => q | None => 1 end)%Qc.
Definition side_value (bits : list (list species)) (n : list Qc) (s : side) : Qc :=
  (qsum (map (fun i => factor i * amount bits n (it_sp i) (it_sl i)) (sd_items s)) + match sd_tail s with Some (l, q) => sign_of l * q | None => 0 end)%Qc.
Definition related (r : Constraints.relation) (x y : Qc) : Prop := match r with RLe => (x <= y)%Qc | RGe => (y <= x)%Qc | REq => x = y end.
(** Species that the sublattice has, or any. *)
Definition known (bits : list (list species)) (i : item) : Prop :=
  match it_sl i with Some k => exists sps, nth_error bits k = Some sps /\ In (it_sp i) sps | None => exists sps, In sps bits /\ In (it_sp i) sps end.
Definition side_ok (bits : list (list species)) (s : side) : Prop := (forall i, In i (sd_items s) -> known bits i) /\ (sd_items s = [] -> sd_tail s <> None).
(** Numbers that are read as written. *)
Definition numbers (s : side) : list Qc := concat (map (fun i => match it_num i with Some q => [q] | None => [] end) (sd_items s)) ++ match sd_tail s with Some (_, q) => [q] | None => [] end.
Definition exact_numbers (s : side) : Prop := forall q, In q (numbers s) -> read_num q = q.
Definition bits_ok (bits : list (list species)) : Prop := forall sps, In sps bits -> NoDup sps.
Definition num_dims (bits : list (list species)) : nat := list_sum (map (@length species) bits).

(** ** Reading a side *)
Definition sign_lits (l : list bool) : list lit := map (fun b : bool => if b then LMinus else LPlus) l.
Definition item_lits (i : item) : list lit := sign_lits (it_minus i) ++ match it_num i with Some q => [LNum q] | None => [] end ++ [LSp (it_sp i) (it_sl i)].
Definition side_lits (s : side) : list lit := concat (map item_lits (sd_items s)) ++ match sd_tail s with Some (l, q) => sign_lits l ++ [LNum q] | None => [] end.
Lemma opt_map_app {A B} (f : A -> option B) a b x y : opt_map f a = Some x -> opt_map f b = Some y -> opt_map f (a ++ b) = Some (x ++ y).
Proof. revert x. induction a as [|c a IH]; intros x Ha Hb; cbn [opt_map app] in *; [injection Ha as <-; auto|]. destruct (f c); [|discriminate]. cbn [option_bind] in *. destruct (opt_map f a) as [l|]; [|discriminate]. cbn [option_bind] in *. injection Ha as <-. rewrite (IH l); auto. Qed.
Lemma read_signs l : opt_map read_word (sign_words l) = Some (sign_lits l).
Proof. induction l as [|[] l IH]; cbn [sign_words sign_lits map opt_map read_word option_bind]; auto; unfold sign_words in IH; rewrite IH; auto. Qed.
Lemma read_side s : exact_numbers s -> opt_map read_word (side_words s) = Some (side_lits s).
Proof.
  intros E. unfold side_words, side_lits. apply opt_map_app.
  - assert (E' : forall q, In q (concat (map (fun i => match it_num i with Some q => [q] | None => [] end) (sd_items s))) -> read_num q = q) by (intros q Hq; apply E; unfold numbers; apply in_or_app; auto).
    clear E. induction (sd_items s) as [|i l IH]; auto. cbn [map concat] in *. apply opt_map_app; [|apply IH; intros q Hq; apply E', in_or_app; auto]. unfold item_words, item_lits. apply opt_map_app; [apply read_signs|]. destruct (it_num i) as [q|]; auto. cbn [app opt_map read_word option_bind]. rewrite E'; auto. apply in_or_app. simpl. auto.
  - destruct (sd_tail s) as [[l q]|] eqn:T; auto. apply opt_map_app; [apply read_signs|]. cbn [opt_map read_word option_bind]. rewrite E; auto. unfold numbers. rewrite T. apply in_or_app. simpl. auto.
Qed.
(** Literals that end a run of signs. *)
Definition stops (rp : list lit) : Prop := match rp with [] => True | LSp _ _ :: _ => True | _ => False end.
Definition minus_sign (b : bool) (q : Qc) : Qc := if b then (- q)%Qc else q.
Lemma sign_cons b l : sign_of (b :: l) = minus_sign b (sign_of l).
Proof. unfold sign_of. destruct b; cbn [filter length]; auto. rewrite Nat.even_succ, <- Nat.negb_even. destruct (Nat.even _); cbn [negb minus_sign]; ring. Qed.
Lemma sign_rev l : sign_of (rev l) = sign_of l.
Proof. unfold sign_of. replace (length (filter (fun b => b) (rev l))) with (length (filter (fun b => b) l)); auto. induction l as [|b l IH]; auto. simpl. rewrite filter_app, app_length, <- IH. destruct b; simpl; lia. Qed.
Lemma symbols_stop rp : stops rp -> symbols_before rp = (1%Qc, 0).
Proof. destruct rp as [|[]]; simpl; tauto. Qed.
Lemma symbols_signs l rp : stops rp -> symbols_before (sign_lits l ++ rp) = (sign_of l, length l).
Proof. intros S. induction l as [|b l IH]; cbn [sign_lits map app]; [apply symbols_stop; auto|]. unfold sign_lits in IH. rewrite sign_cons. destruct b; cbn [symbols_before]; rewrite IH; auto. Qed.
Lemma rev_signs l : rev (sign_lits l) = sign_lits (rev l).
Proof. unfold sign_lits. rewrite map_rev. auto. Qed.
Lemma count_signs l rp : stops rp -> count_numbers (sign_lits l ++ rp) = 0.
Proof. intros S. destruct l as [|[] l]; cbn [sign_lits map app count_numbers]; auto. destruct rp as [|[]]; simpl in *; tauto. Qed.
Definition packed_item (i : item) : Qc * species * option nat := (factor i, it_sp i, it_sl i).
Lemma nth_error_mid {A} (a : list A) x b : nth_error (a ++ x :: b) (length a) = Some x.
Proof. rewrite nth_error_app2, Nat.sub_diag; auto. Qed.
Lemma firstn_mid {A} (a b : list A) : firstn (length a) (a ++ b) = a.
Proof. rewrite firstn_app, firstn_all, Nat.sub_diag. simpl. apply app_nil_r. Qed.
Lemma pack_none lits a l b : lits = a ++ l :: b -> (forall sp sl, l <> LSp sp sl) -> pack_lit lits (length a) = Some [].
Proof. intros -> N. unfold pack_lit. rewrite nth_error_mid. destruct l; auto. destruct (N sp sl); auto. Qed.
Lemma pack_signs l lits a b : lits = a ++ sign_lits l ++ b -> opt_map (pack_lit lits) (seq (length a) (length l)) = Some (repeat [] (length l)).
Proof.
  revert a. induction l as [|s l IH]; intros a E; cbn [length seq opt_map repeat]; auto. rewrite (pack_none (l := if s then LMinus else LPlus) (b := sign_lits l ++ b) E) by (destruct s; discriminate).
  cbn [option_bind]. specialize (IH (a ++ [if s then LMinus else LPlus])). rewrite app_length in IH. cbn [length] in IH. rewrite Nat.add_1_r in IH. rewrite IH; auto. rewrite E, <- app_assoc. auto.
Qed.
Lemma concat_nils {A} k : concat (repeat (@nil A) k) = [].
Proof. induction k; simpl; auto. Qed.
Lemma pack_item i lits pre post : stops (rev pre) -> lits = pre ++ item_lits i ++ post -> exists ps, opt_map (pack_lit lits) (seq (length pre) (length (item_lits i))) = Some ps /\ concat ps = [packed_item i].
Proof.
  intros S E. unfold item_lits in *. set (nm := match it_num i with Some q => [LNum q] | None => [] end) in *. rewrite !app_length, !seq_app. assert (HL : length (sign_lits (it_minus i)) = length (it_minus i)) by apply map_length. rewrite HL.
  assert (E1 : lits = pre ++ sign_lits (it_minus i) ++ (nm ++ LSp (it_sp i) (it_sl i) :: post)) by (rewrite E, <- !app_assoc; auto).
  assert (H1 := pack_signs E1).
  assert (H2 : opt_map (pack_lit lits) (seq (length pre + length (it_minus i)) (length nm)) = Some (repeat [] (length nm))).
  { unfold nm in *. destruct (it_num i) as [q|]; auto. cbn [length seq opt_map repeat]. pose proof (pack_none (lits := lits) (a := pre ++ sign_lits (it_minus i)) (l := LNum q) (b := LSp (it_sp i) (it_sl i) :: post)) as N. unfold sign_lits in N at 2. rewrite app_length, map_length in N. rewrite N; [auto| |discriminate]. rewrite E1, <- app_assoc. auto. }
  assert (H3 : pack_lit lits (length pre + length (it_minus i) + length nm) = Some [packed_item i]).
  { assert (E2 : lits = (pre ++ sign_lits (it_minus i) ++ nm) ++ LSp (it_sp i) (it_sl i) :: post) by (rewrite E1, <- !app_assoc; auto).
    assert (L2 : length pre + length (it_minus i) + length nm = length (pre ++ sign_lits (it_minus i) ++ nm)) by (rewrite !app_length; unfold sign_lits; rewrite map_length; lia).
    unfold pack_lit. rewrite L2, E2, nth_error_mid, firstn_mid, !rev_app_distr, rev_signs, <- app_assoc.
    assert (NB : number_before (rev nm ++ sign_lits (rev (it_minus i)) ++ rev pre) = Some (match it_num i with Some q => q | None => 1%Qc end, length nm)).
    { unfold number_before, nm. destruct (it_num i) as [q|]; cbn [rev app count_numbers]; rewrite (count_signs _ S); auto. }
    rewrite NB. cbn [option_bind].
    replace (length (pre ++ sign_lits (it_minus i) ++ nm) - length nm) with (length (pre ++ sign_lits (it_minus i))) by (rewrite !app_length; lia).
    replace ((pre ++ sign_lits (it_minus i) ++ nm) ++ LSp (it_sp i) (it_sl i) :: post) with ((pre ++ sign_lits (it_minus i)) ++ nm ++ LSp (it_sp i) (it_sl i) :: post) by (rewrite <- !app_assoc; auto).
    rewrite firstn_mid, rev_app_distr, rev_signs, (symbols_signs _ S), sign_rev. auto. }
  eexists. split.
  - apply opt_map_app; [exact H1|]. apply opt_map_app; [exact H2|]. cbn [length seq opt_map]. rewrite H3. cbn [option_bind]. reflexivity.
  - rewrite !concat_app, !concat_nils. auto.
Qed.
Lemma pack_items items : forall lits pre, stops (rev pre) -> lits = pre ++ concat (map item_lits items) ->
  exists ps, opt_map (pack_lit lits) (seq (length pre) (length (concat (map item_lits items)))) = Some ps /\ concat ps = map packed_item items.
Proof.
  induction items as [|i items IH]; intros lits pre S E; [exists []; auto|]. cbn [map concat] in *. destruct (pack_item S E) as (ps & H1 & H2).
  destruct (IH lits (pre ++ item_lits i)) as (ps' & H3 & H4).
  - unfold item_lits. rewrite !app_assoc, rev_app_distr. exact I.
  - rewrite E, app_assoc. auto.
  - exists (ps ++ ps'). rewrite app_length, seq_app. split; [|rewrite concat_app, H2, H4; auto]. apply opt_map_app; auto. rewrite app_length in H3. auto.
Qed.
Lemma items_stop items : stops (rev (concat (map item_lits items))).
Proof.
  destruct items as [|i items] using rev_ind; [exact I|]. rewrite map_app, concat_app, rev_app_distr. cbn [map concat]. rewrite app_nil_r. unfold item_lits. rewrite !app_assoc, rev_app_distr. exact I.
Qed.
Lemma handle_ok s : (sd_items s = [] -> sd_tail s <> None) -> handle_lits (side_lits s) = Some (map packed_item (sd_items s), match sd_tail s with Some (l, q) => (sign_of l * q)%Qc | None => 0%Qc end).
Proof.
  intros NE. unfold handle_lits, side_lits. pose proof (items_stop (sd_items s)) as ST. destruct (pack_items (items := sd_items s) (lits := concat (map item_lits (sd_items s))) (pre := []) I eq_refl) as (ps & HP & HC). cbn [length] in HP.
  destruct (sd_tail s) as [[l q]|].
  - rewrite !app_assoc, rev_app_distr. cbn [rev app]. rewrite rev_app_distr, rev_signs, (symbols_signs _ ST), sign_rev.
    replace (firstn _ ((concat (map item_lits (sd_items s)) ++ sign_lits l) ++ [LNum q])) with (concat (map item_lits (sd_items s))).
    2:{ rewrite <- app_assoc. symmetry. etransitivity; [|apply firstn_mid]. f_equal. unfold sign_lits. rewrite !app_length, map_length, rev_length. simpl. lia. }
    rewrite HP. cbn [option_bind]. rewrite HC. auto.
  - rewrite app_nil_r. destruct (rev (concat (map item_lits (sd_items s)))) as [|[| | |sp sl] r] eqn:ER; try contradiction.
    + exfalso. apply NE; auto. destruct (sd_items s) as [|i l]; auto. apply (f_equal (@length lit)) in ER. rewrite rev_length in ER. cbn [map concat] in ER. unfold item_lits in ER. rewrite !app_length in ER. simpl in ER. lia.
    + rewrite HP. cbn [option_bind]. rewrite HC. auto.
Qed.

(** ** Adding terms *)
Lemma sp_index_some sp l j : sp_index sp l = Some j -> nth_error l j = Some sp.
Proof. revert j. induction l as [|x l IH]; intros j H; cbn [sp_index] in H; [discriminate|]. destruct (sp_eqb x sp) eqn:E; [apply sp_eqb_eq in E; injection H as <-; subst; auto|]. destruct (sp_index sp l); [|discriminate]. injection H as <-. simpl. auto. Qed.
Lemma sp_index_none sp l : sp_index sp l = None <-> ~ In sp l.
Proof.
  induction l as [|x l IH]; cbn [sp_index In]; [tauto|]. destruct (sp_eqb x sp) eqn:E; [apply sp_eqb_eq in E; subst; split; [discriminate|tauto]|].
  assert (NX : x <> sp) by (intros ->; rewrite (proj2 (sp_eqb_eq sp sp) eq_refl) in E; discriminate). destruct (sp_index sp l) as [j|]; cbn [option_map].
  - split; [discriminate|]. intros H. assert (H1 : ~ In sp l) by tauto. apply IH in H1. discriminate.
  - split; auto. intros _ [H | H]; [congruence|]. apply IH in H; auto.
Qed.
Lemma amount_zero sp sps ns : ~ In sp sps -> amount_in sp (sps, ns) = 0%Qc.
Proof.
  unfold amount_in. cbn [fst snd]. revert ns. induction sps as [|x sps IH]; intros ns N; auto. destruct ns as [|y ns]; auto. cbn [combine map qsum fst snd]. rewrite IH by (simpl in N; tauto). destruct (sp_eqb x sp) eqn:E; [apply sp_eqb_eq in E; subst; simpl in N; tauto|ring].
Qed.
Lemma amount_nth sp sps : NoDup sps -> forall ns j, sp_index sp sps = Some j -> amount_in sp (sps, ns) = nth j ns 0%Qc.
Proof.
  induction 1 as [|x sps N ND IH]; intros ns j H; cbn [sp_index] in H; [discriminate|]. destruct ns as [|y ns]; [destruct j; auto|]. unfold amount_in. cbn [combine map qsum fst snd]. change (qsum _) with (amount_in sp (sps, ns)). destruct (sp_eqb x sp) eqn:E.
  - injection H as <-. apply sp_eqb_eq in E. subst. rewrite amount_zero; auto. simpl. ring.
  - destruct (sp_index sp sps) as [j'|]; [|discriminate]. injection H as <-. rewrite (IH _ j'); auto. simpl. ring.
Qed.
Lemma qdot_add_coef vec d c vec' n : add_coef vec d c = Some vec' -> length n = length vec -> length vec' = length vec /\ qdot vec' n = (qdot vec n + c * nth d n 0)%Qc.
Proof.
  unfold add_coef. revert d vec' n. induction vec as [|x vec IH]; intros d vec' n H L; [destruct d; discriminate|]. destruct n as [|y n]; [discriminate|]. destruct d as [|d]; cbn [nth_error option_bind] in H.
  - injection H as <-. cbn [upd length nth qdot]. split; auto. ring.
  - destruct (nth_error vec d) as [q|] eqn:E; [|discriminate]. cbn [option_bind upd] in H. injection H as <-. destruct (IH d (upd vec d (q + c)%Qc) n) as [L' Q]; [rewrite E; auto|simpl in L; lia|]. cbn [length nth qdot]. split; [lia|]. rewrite Q. ring.
Qed.
Lemma add_coef_some vec d c : d < length vec -> exists vec', add_coef vec d c = Some vec'.
Proof. intros H. unfold add_coef. destruct (nth_error vec d) eqn:E; [eexists; reflexivity|]. apply nth_error_None in E. lia. Qed.
Lemma nth_skipn {A} (l : list A) k j d : nth j (skipn k l) d = nth (k + j) l d.
Proof. revert l. induction k as [|k IH]; intros l; auto. destruct l as [|x l]; simpl; auto. destruct j; auto. Qed.
Lemma nth_firstn_lt {A} (l : list A) k j d : j < k -> nth j (firstn k l) d = nth j l d.
Proof. revert l j. induction k as [|k IH]; intros l j H; [lia|]. destruct l as [|x l]; auto. destruct j; simpl; auto. apply IH. lia. Qed.
Lemma skipn_add {A} (l : list A) a b : skipn a (skipn b l) = skipn (b + a) l.
Proof. revert l. induction b as [|b IH]; intros l; auto. destruct l as [|x l]; simpl; auto. destruct a; auto. Qed.
Lemma sp_index_lt sp l j : sp_index sp l = Some j -> j < length l.
Proof. intros H. apply sp_index_some in H. apply nth_error_Some. rewrite H. discriminate. Qed.
(** A species of every sublattice. *)
Lemma add_everywhere coef sp n bits : bits_ok bits -> forall o vec, o + num_dims bits <= length vec -> length n = length vec ->
  exists vec', fold_left (fun v p => let? v' := v in match sp_index sp (fst p) with Some j => let? d := nth_error (snd p) j in add_coef v' d coef | None => Some v' end)
    (combine bits (dim_ids_from o (map (@length species) bits))) (Some vec) = Some vec' /\ length vec' = length vec /\
    qdot vec' n = (qdot vec n + coef * qsum (map (amount_in sp) (blocks bits (skipn o n))))%Qc.
Proof.
  intros OK. induction bits as [|sps bits IH]; intros o vec B L; cbn [map dim_ids_from combine fold_left blocks qsum].
  - exists vec. repeat split; auto. ring.
  - unfold num_dims in B. cbn [map] in B. change (list_sum (length sps :: map (@length species) bits)) with (length sps + num_dims bits) in B. cbn [option_bind fst snd].
    assert (OK' : bits_ok bits) by (intros x Hx; apply OK; right; auto). assert (ND : NoDup sps) by (apply OK; left; auto).
    destruct (sp_index sp sps) as [j|] eqn:SI.
    + pose proof (sp_index_lt SI) as LT. rewrite nth_error_seq. destruct (Nat.ltb_spec j (length sps)) as [_|]; [|lia]. cbn [option_bind].
      destruct (@add_coef_some vec (o + j) coef) as [v1 H1]; [lia|]. rewrite H1. destruct (qdot_add_coef H1 L) as [L1 Q1].
      destruct (IH OK' (o + length sps) v1) as (v2 & H2 & L2 & Q2); [lia|lia|]. exists v2. split; [exact H2|]. split; [lia|]. rewrite Q2, Q1, (amount_nth ND _ SI), nth_firstn_lt, nth_skipn, skipn_add by auto. ring.
    + destruct (IH OK' (o + length sps) vec) as (v2 & H2 & L2 & Q2); [lia|lia|]. exists v2. split; [exact H2|]. split; auto. rewrite Q2, amount_zero, skipn_add by (apply sp_index_none; auto). ring.
Qed.
(** A species of one sublattice. *)
Lemma dims_at bits : forall o n k sps, nth_error bits k = Some sps -> exists o', nth_error (dim_ids_from o (map (@length species) bits)) k = Some (seq o' (length sps)) /\
  o' + length sps <= o + num_dims bits /\ nth_error (blocks bits (skipn o n)) k = Some (sps, firstn (length sps) (skipn o' n)).
Proof.
  induction bits as [|x bits IH]; intros o n k sps H; [destruct k; discriminate|]. unfold num_dims. cbn [map]. change (list_sum (length x :: map (@length species) bits)) with (length x + num_dims bits). destruct k as [|k]; cbn [nth_error dim_ids_from blocks] in *.
  - injection H as ->. exists o. repeat split; auto; lia.
  - destruct (IH (o + length x) n k sps H) as (o' & A & B & C). exists o'. rewrite skipn_add. repeat split; auto; lia.
Qed.
Lemma add_packed_ok bits vec n i c : bits_ok bits -> known bits i -> length vec = num_dims bits -> length n = length vec ->
  exists vec', add_packed bits vec (c, it_sp i, it_sl i) = Some vec' /\ length vec' = length vec /\ qdot vec' n = (qdot vec n + c * amount bits n (it_sp i) (it_sl i))%Qc.
Proof.
  intros OK K LV LN. unfold add_packed, amount, known, get_dim_ids_by_sublattice in *. destruct (it_sl i) as [k|].
  - destruct K as (sps & E & I). rewrite E. cbn [option_bind]. destruct (sp_index (it_sp i) sps) as [j|] eqn:SI; [|apply sp_index_none in SI; tauto]. cbn [option_bind]. pose proof (sp_index_lt SI) as LT.
    destruct (dims_at 0 n E) as (o & A & B & C). rewrite A. cbn [option_bind]. rewrite nth_error_seq. destruct (Nat.ltb_spec j (length sps)) as [_|]; [|lia]. cbn [option_bind].
    destruct (@add_coef_some vec (o + j) c) as [v1 H1]; [lia|]. exists v1. destruct (qdot_add_coef H1 LN) as [L1 Q1]. split; auto. split; auto. rewrite Q1. cbn [skipn] in C. rewrite C, (amount_nth (OK _ (nth_error_In _ _ E)) _ SI), nth_firstn_lt, nth_skipn by auto. auto.
  - destruct K as (sps & E & I). destruct (existsb _ bits) eqn:X.
    + destruct (@add_everywhere c (it_sp i) n bits OK 0 vec) as (v & H & L & Q); [lia|auto|]. exists v. auto.
    + exfalso. assert (existsb (fun sps => match sp_index (it_sp i) sps with Some _ => true | None => false end) bits = true); [|congruence]. apply existsb_exists. exists sps. split; auto. destruct (sp_index (it_sp i) sps) eqn:SI; auto. apply sp_index_none in SI. tauto.
Qed.
Lemma add_all_ok bits n f items : bits_ok bits -> (forall i, In i items -> known bits i) -> forall vec, length vec = num_dims bits -> length n = length vec ->
  exists vec', add_all bits (map (fun i => (f i, it_sp i, it_sl i)) items) (Some vec) = Some vec' /\ length vec' = length vec /\
    qdot vec' n = (qdot vec n + qsum (map (fun i => f i * amount bits n (it_sp i) (it_sl i)) items))%Qc.
Proof.
  intros OK. unfold add_all. induction items as [|i items IH]; intros K vec LV LN; cbn [map fold_left qsum].
  - exists vec. repeat split; auto. ring.
  - cbn [option_bind]. destruct (@add_packed_ok bits vec n i (f i)) as (v & H & L & Q); auto; [apply K; left; auto|]. rewrite H. destruct (IH (fun i Hi => K i (or_intror Hi)) v) as (v' & H' & L' & Q'); [lia|lia|]. exists v'. split; auto. split; [lia|]. rewrite Q', Q. ring.
Qed.
(** An unknown species. *)
Lemma add_packed_unknown bits vec i c : ~ known bits i -> add_packed bits vec (c, it_sp i, it_sl i) = None.
Proof.
  unfold add_packed, known. intros K. destruct (it_sl i) as [k|].
  - destruct (nth_error bits k) as [sps|]; auto. cbn [option_bind]. destruct (sp_index (it_sp i) sps) as [j|] eqn:SI; auto. exfalso. apply K. exists sps. split; auto. apply sp_index_some in SI. apply nth_error_In in SI. auto.
  - destruct (existsb _ bits) eqn:X; auto. exfalso. apply K. apply existsb_exists in X. destruct X as (sps & I & H). destruct (sp_index (it_sp i) sps) as [j|] eqn:SI; [|discriminate]. exists sps. split; auto. apply sp_index_some in SI. apply nth_error_In in SI. auto.
Qed.
Lemma add_all_none bits ts : add_all bits ts None = None.
Proof. unfold add_all. induction ts; simpl; auto. Qed.
Lemma add_all_unknown bits f items i : In i items -> ~ known bits i -> forall vec, add_all bits (map (fun i => (f i, it_sp i, it_sl i)) items) vec = None.
Proof.
  intros I K. induction items as [|j items IH]; intros vec; [destruct I|]. unfold add_all. cbn [map fold_left]. destruct I as [-> | I].
  - destruct vec as [v|]; cbn [option_bind]; [rewrite add_packed_unknown by auto|]; apply add_all_none.
  - apply IH; auto.
Qed.

(** ** The separator *)
Lemma side_no_rel s i w : nth_error (side_words s) i = Some w -> is_rel w = false.
Proof.
  intros H. apply nth_error_In in H. assert (SW : forall l, In w (sign_words l) -> is_rel w = false) by (intros l Hl; apply in_map_iff in Hl; destruct Hl as ([] & <- & _); auto).
  unfold side_words in H. apply in_app_or in H. destruct H as [H | H].
  - apply in_concat in H. destruct H as (x & Hx & H). apply in_map_iff in Hx. destruct Hx as (it & <- & _). unfold item_words in H. apply in_app_or in H. destruct H as [H | H]; [apply (SW _ H)|]. apply in_app_or in H. destruct H as [H | [<- | []]]; auto. destruct (it_num it); [|destruct H]. destruct H as [<- | []]; auto.
  - destruct (sd_tail s) as [[l q]|]; [|destruct H]. apply in_app_or in H. destruct H as [H | [<- | []]]; [apply (SW _ H)|auto].
Qed.
Lemma side_nonempty s : (sd_items s = [] -> sd_tail s <> None) -> 1 <= length (side_words s).
Proof.
  intros NE. unfold side_words. destruct (sd_items s) as [|i l].
  - destruct (sd_tail s) as [[l q]|]; [|destruct NE; auto]. rewrite !app_length. simpl. lia.
  - cbn [map concat]. unfold item_words. rewrite !app_length. simpl. lia.
Qed.
Lemma filter_none {A} (f : A -> bool) l : (forall x, In x l -> f x = false) -> filter f l = [].
Proof. induction l as [|x l IH]; intros H; auto. simpl. rewrite H by (left; auto). apply IH. intros y Hy. apply H. right. auto. Qed.
Lemma separator_ok a r b : 1 <= length a -> 1 <= length b -> (forall i w, nth_error a i = Some w -> is_rel w = false) -> (forall i w, nth_error b i = Some w -> is_rel w = false) -> separator (a ++ WRel r :: b) = Some (a, r, b).
Proof.
  intros LA LB HA HB. unfold separator. set (ws := a ++ WRel r :: b). assert (LW : length ws = length a + 1 + length b) by (unfold ws; rewrite app_length; simpl; lia).
  replace (length ws - 2) with ((length a - 1) + S (length b - 1)) by lia. rewrite seq_app, filter_app. replace (1 + (length a - 1)) with (length a) by lia. cbn [seq filter]. assert (M : nth_error ws (length a) = Some (WRel r)) by apply nth_error_mid.
  rewrite M. cbn [is_rel]. rewrite filter_none.
  2:{ intros x Hx. apply in_seq in Hx. unfold ws. rewrite nth_error_app1 by lia. destruct (nth_error a x) eqn:E; auto. apply (HA _ _ E). }
  rewrite filter_none.
  2:{ intros x Hx. apply in_seq in Hx. unfold ws. rewrite nth_error_app2 by lia. replace (x - length a) with (S (x - length a - 1)) by lia. cbn [nth_error]. destruct (nth_error b (x - length a - 1)) eqn:E; auto. apply (HB _ _ E). }
  cbn [app rev]. rewrite M. unfold ws. rewrite firstn_mid. do 2 f_equal. change (a ++ WRel r :: b) with (a ++ [WRel r] ++ b). rewrite app_assoc, skipn_app. replace (length (a ++ [WRel r])) with (S (length a)) by (rewrite app_length; simpl; lia). rewrite Nat.sub_diag, skipn_all2 by (rewrite app_length; simpl; lia). auto.
Qed.

(** ** C46: the inequality of a string *)
Lemma qdot_zero_vec k n : qdot (repeat 0%Qc k) n = 0%Qc.
Proof. revert n. induction k as [|k IH]; intros [|y n]; cbn [repeat qdot]; auto. rewrite IH. ring. Qed.
Lemma handle_words bits s : side_ok bits s \/ (sd_items s = [] -> sd_tail s <> None) -> exact_numbers s -> handle_side (side_words s) = Some (map packed_item (sd_items s), match sd_tail s with Some (l, q) => (sign_of l * q)%Qc | None => 0%Qc end).
Proof. intros H E. unfold handle_side. rewrite (read_side E). cbn [option_bind]. apply handle_ok. destruct H as [[_ H] | H]; auto. Qed.
Lemma negate_packed items : map negate (map packed_item items) = map (fun i => ((- factor i)%Qc, it_sp i, it_sl i)) items.
Proof. rewrite map_map. auto. Qed.
Lemma qsum_negated {A} (f g : A -> Qc) l : qsum (map (fun i => - f i * g i)%Qc l) = (- qsum (map (fun i => f i * g i) l))%Qc.
Proof. induction l as [|x l IH]; cbn [map qsum]; [ring|]. rewrite IH. ring. Qed.
Definition written (L : side) (r : Constraints.relation) (R : side) : list word := side_words L ++ WRel r :: side_words R.
Lemma convert_ok bits L r R : bits_ok bits -> side_ok bits L -> side_ok bits R -> exact_numbers L -> exact_numbers R ->
  exists vec right, convert_constraint (written L r R) bits = Some (vec, right, r) /\ length vec = num_dims bits /\
    forall n, length n = num_dims bits -> (qdot vec n - right = side_value bits n L - side_value bits n R)%Qc.
Proof.
  intros OK HL HR EL ER. unfold convert_constraint, written. rewrite separator_ok; try apply side_nonempty; try apply HL; try apply HR; try (intros i w; apply side_no_rel). cbn [option_bind].
  rewrite (handle_words (or_introl HL) EL). cbn [option_bind]. rewrite (handle_words (or_introl HR) ER). cbn [option_bind]. rewrite negate_packed. change (list_sum (map (@length species) bits)) with (num_dims bits).
  set (z := repeat 0%Qc (num_dims bits)). assert (LZ : length z = num_dims bits) by apply repeat_length.
  destruct (@add_all_ok bits z factor (sd_items L) OK (proj1 HL) z LZ eq_refl) as (v & H1 & L1 & _). unfold packed_item in *. rewrite H1. cbn [option_bind].
  assert (L1' : length v = num_dims bits) by lia. destruct (@add_all_ok bits v (fun i => - factor i)%Qc (sd_items R) OK (proj1 HR) v L1' eq_refl) as (v' & H2 & L2 & _). rewrite H2. cbn [option_bind].
  do 2 eexists. split; [reflexivity|]. split; [lia|]. intros n LN.
  assert (LN1 : length n = length z) by lia. assert (LN2 : length n = length v) by lia.
  destruct (@add_all_ok bits n factor (sd_items L) OK (proj1 HL) z LZ LN1) as (w & G1 & _ & Q1). rewrite H1 in G1. injection G1 as <-.
  destruct (@add_all_ok bits n (fun i => - factor i)%Qc (sd_items R) OK (proj1 HR) v L1' LN2) as (w & G2 & _ & Q2). rewrite H2 in G2. injection G2 as <-.
  rewrite Q2, Q1, qsum_negated. unfold z, side_value. rewrite qdot_zero_vec. destruct (sd_tail L) as [[l q]|]; destruct (sd_tail R) as [[l' q']|]; ring.
Qed.
Lemma related_shift r a b x y : (a - b = x - y)%Qc -> (related r a b <-> related r x y).
Proof.
  intros E. assert (E' : (a = b + (x - y))%Qc) by (rewrite <- E; ring). subst a. destruct r; cbn [related]; split; intros H.
  1-4: qclra.
  - assert (x - y = 0)%Qc by (transitivity ((b + (x - y)) - b)%Qc; [ring|rewrite H; ring]). transitivity ((x - y) + y)%Qc; [ring|]. rewrite H0. ring.
  - rewrite H. ring.
Qed.
(** The numbers of a composition satisfy the returned inequality just when they satisfy the written one. *)
Theorem C46_string_partial bits L r R : bits_ok bits -> side_ok bits L -> side_ok bits R -> exact_numbers L -> exact_numbers R ->
  exists vec right, convert_constraint (written L r R) bits = Some (vec, right, r) /\ length vec = num_dims bits /\
    forall n, length n = num_dims bits -> (related r (qdot vec n) right <-> related r (side_value bits n L) (side_value bits n R)).
Proof. intros OK HL HR EL ER. destruct (convert_ok r OK HL HR EL ER) as (v & b & H & LV & Q). exists v, b. split; auto. split; auto. intros n LN. apply related_shift; auto. Qed.

(** A species that is not there is refused, and nothing else. *)
Lemma known_dec bits i : {known bits i} + {~ known bits i}.
Proof.
  unfold known. assert (D : forall sps, {In (it_sp i) sps} + {~ In (it_sp i) sps}) by (intros sps; destruct (sp_index (it_sp i) sps) eqn:E; [left; apply sp_index_some in E; apply nth_error_In in E; auto|right; apply sp_index_none; auto]).
  destruct (it_sl i) as [k|].
  - destruct (nth_error bits k) as [sps|]; [|right; intros (s & H & _); discriminate]. destruct (D sps); [left; eauto|right; intros (s & H & I); injection H as <-; auto].
  - destruct (Exists_dec (fun sps => In (it_sp i) sps) bits D) as [E | E]; [left; apply Exists_exists in E; destruct E as (x & ? & ?); eauto|right; intros (s & H & I); apply E, Exists_exists; eauto].
Qed.
Theorem C46_refusal bits L r R : bits_ok bits -> (sd_items L = [] -> sd_tail L <> None) -> (sd_items R = [] -> sd_tail R <> None) -> exact_numbers L -> exact_numbers R ->
  (convert_constraint (written L r R) bits = None <-> exists i, In i (sd_items L ++ sd_items R) /\ ~ known bits i).
Proof.
  intros OK NL NR EL ER. split.
  - intros H. destruct (Exists_dec (fun i => ~ known bits i) (sd_items L ++ sd_items R)) as [E | E].
    + intros x. destruct (known_dec bits x); auto.
    + apply Exists_exists in E. destruct E as (x & ? & ?). eauto.
    + exfalso. assert (K : forall i, In i (sd_items L ++ sd_items R) -> known bits i) by (intros i Hi; destruct (known_dec bits i); auto; exfalso; apply E, Exists_exists; eauto).
      destruct (@convert_ok bits L r R) as (v & b & H' & _); auto; try (split; auto; intros; apply K, in_or_app; auto). congruence.
  - intros (i & Hi & K). unfold convert_constraint, written. rewrite separator_ok; try (apply side_nonempty; auto); try (intros ? w; apply side_no_rel). cbn [option_bind].
    rewrite (handle_words (bits := bits) (or_intror NL) EL). cbn [option_bind]. rewrite (handle_words (bits := bits) (or_intror NR) ER). cbn [option_bind]. rewrite negate_packed. unfold packed_item. apply in_app_or in Hi. destruct Hi as [Hi | Hi].
    + rewrite (add_all_unknown factor Hi K). auto.
    + destruct (add_all bits _ (Some _)) as [v|]; auto. cbn [option_bind]. rewrite (add_all_unknown (fun i => - factor i)%Qc Hi K). auto.
Qed.

(** Numbers that are read as written: integers and those away from an integer. *)
Theorem C46_numbers q : ((exists z, q = Qc_of_Z z) \/ (forall z, Qc_frac 1 100000000 + Qc_frac 1 100000 * Cluster.qabs (Qc_of_Z z) < Cluster.qabs (q - Qc_of_Z z))%Qc) -> read_num q = q.
Proof.
  intros [[z ->] | H]; unfold read_num.
  - rewrite (qround_unique (z := z)); [destruct (Qcleb _ _); auto|]. assert (0 < Qc_frac 1 2)%Qc by reflexivity. split; qclra.
  - specialize (H (qround q)). destruct (Qcleb_spec (Cluster.qabs (q - Qc_of_Z (qround q))) (Qc_frac 1 100000000 + Qc_frac 1 100000 * Cluster.qabs (Qc_of_Z (qround q)))%Qc) as [L|]; auto. destruct (Qcle_not_lt _ _ L H).
Qed.

(** ** The descriptor *)
(** Constraints as they are stated. *)
Inductive stated := STuple (vec : list Qc) (b : Qc) (r : Constraints.relation) | SText (L : side) (r : Constraints.relation) (R : side).
Definition entry_of (st : stated) : entry := match st with STuple v b r => Tuple v b (Some r) | SText L r R => Text (written L r R) end.
Definition stated_ok (bits : list (list species)) (st : stated) : Prop :=
  match st with STuple v _ _ => length v = num_dims bits | SText L _ R => side_ok bits L /\ side_ok bits R /\ exact_numbers L /\ exact_numbers R end.
Definition stated_holds (bits : list (list species)) (n : list Qc) (st : stated) : Prop :=
  match st with STuple v b r => related r (qdot v n) b | SText L r R => related r (side_value bits n L) (side_value bits n R) end.
(** What the stored lists demand. *)
Definition rows_hold (c : constraint_lists) (n : list Qc) : Prop :=
  (forall p, In p (cl_eq c) -> qdot (fst p) n = snd p) /\ (forall p, In p (cl_leq c) -> qdot (fst p) n <= snd p)%Qc.
Lemma qdot_opp v n : qdot (map Qcopp v) n = (- qdot v n)%Qc.
Proof. revert n. induction v as [|x v IH]; intros [|y n]; cbn [map qdot]; try ring. rewrite IH. ring. Qed.
Lemma rows_add c v b r n : rows_hold (add_entry c (v, b, Some r)) n <-> rows_hold c n /\ related r (qdot v n) b.
Proof.
  unfold rows_hold, add_entry. destruct r; cbn [cl_eq cl_leq related]; split.
  - intros [A B]. repeat split; auto; [intros p Hp; apply B, in_or_app; auto|]. apply (B (v, b)), in_or_app. simpl. auto.
  - intros [[A B] H]. split; auto. intros p Hp. apply in_app_or in Hp. destruct Hp as [Hp | [<- | []]]; auto.
  - intros [A B]. repeat split; auto; [intros p Hp; apply B, in_or_app; auto|]. assert (H : (qdot (map Qcopp v) n <= - b)%Qc) by (apply (B (map Qcopp v, - b)%Qc), in_or_app; simpl; auto). rewrite qdot_opp in H. qclra.
  - intros [[A B] H]. split; auto. intros p Hp. apply in_app_or in Hp. destruct Hp as [Hp | [<- | []]]; auto. cbn [fst snd]. rewrite qdot_opp. qclra.
  - intros [A B]. repeat split; auto; [intros p Hp; apply A, in_or_app; auto|]. apply (A (v, b)), in_or_app. simpl. auto.
  - intros [[A B] H]. split; auto. intros p Hp. apply in_app_or in Hp. destruct Hp as [Hp | [<- | []]]; auto.
Qed.
Lemma rows_added rs n : forall c, (forall e, In e rs -> exists v b r, e = (v, b, Some r)) ->
  (rows_hold (fold_left add_entry rs c) n <-> rows_hold c n /\ forall v b r, In (v, b, Some r) rs -> related r (qdot v n) b).
Proof.
  induction rs as [|e rs IH]; intros c H; cbn [fold_left]; [split; [intros A; split; auto; intros ? ? ? []|tauto]|].
  destruct (H e (or_introl eq_refl)) as (v & b & r & ->). rewrite IH by (intros e He; apply H; right; auto). rewrite rows_add. split.
  - intros [[A B] D]. split; auto. intros v' b' r' [E | I]; [injection E as <- <- <-; auto|apply D; auto].
  - intros [A B]. split; [split; auto; apply B; left; auto|]. intros v' b' r' I. apply B. right. auto.
Qed.
Theorem C46_manager_partial bits sts : bits_ok bits -> (forall st, In st sts -> stated_ok bits st) ->
  exists c, assign bits None (Some (map entry_of sts)) = Some (Some c) /\ forall n, length n = num_dims bits -> (rows_hold c n <-> forall st, In st sts -> stated_holds bits n st).
Proof.
  intros OK H. unfold assign, read_entries.
  assert (R : exists rs, opt_map (read_entry bits) (map entry_of sts) = Some rs /\ (forall e, In e rs -> exists v b r, e = (v, b, Some r)) /\
    forall n, length n = num_dims bits -> ((forall v b r, In (v, b, Some r) rs -> related r (qdot v n) b) <-> forall st, In st sts -> stated_holds bits n st)).
  { induction sts as [|st sts IH]; [exists []; split; [auto|split; [intros e []|intros n _; split; [intros _ ? []|intros _ ? ? ? []]]]|].
    destruct IH as (rs & E & K & Q); [intros x Hx; apply H; right; auto|].
    assert (S : exists v b r, read_entry bits (entry_of st) = Some (v, b, Some r) /\ forall n, length n = num_dims bits -> (related r (qdot v n) b <-> stated_holds bits n st)).
    { specialize (H st (or_introl eq_refl)). destruct st as [v b r | L r R]; cbn [entry_of read_entry stated_ok stated_holds] in *; [exists v, b, r; split; auto; intros; tauto|]. destruct H as (HL & HR & EL & ER). destruct (@C46_string_partial bits L r R) as (v & b & HC & _ & HQ); auto. rewrite HC. cbn [option_bind]. exists v, b, r. split; auto. }
    destruct S as (v & b & r & ES & QS). exists ((v, b, Some r) :: rs). cbn [map opt_map]. rewrite ES. cbn [option_bind]. rewrite E. split; auto. split; [intros e [<- | He]; eauto|].
    intros n LN. specialize (Q n LN). specialize (QS n LN). split.
    - intros A st' [<- | I]; [apply QS, A; left; auto|apply Q; auto]. intros v' b' r' I'. apply A. right. auto.
    - intros A v' b' r' [X | I]; [injection X as <- <- <-; apply QS, A; left; auto|]. apply (proj2 Q); [intros st' I'; apply A; right; auto|auto]. }
  destruct R as (rs & E & K & Q). rewrite E. cbn [option_bind]. eexists. split; [reflexivity|]. intros n LN. rewrite rows_added by auto. rewrite <- (Q n LN). unfold rows_hold. simpl. split; [intros [_ A]; auto|]. intros A. split; auto. split; intros p [].
Qed.
(** ** What does not hold *)
(** A number away from the end of a side disappears: "3 + 2 A <= 5" bounds 2 A by 5. *)
Theorem C46_lost_number_refuted : exists bits w b, bits_ok bits /\ convert_constraint [WNum (Qc_frac 3 1); WPlus; WNum (Qc_frac 2 1); WSp (Sp 0) None; WRel RLe; WNum (Qc_frac 5 1)] bits = Some (w, b, RLe) /\
  (qdot w [Qc_frac 2 1; 0%Qc] <= b)%Qc /\ ~ (Qc_frac 3 1 + Qc_frac 2 1 * amount bits [Qc_frac 2 1; 0%Qc] (Sp 0) None <= Qc_frac 5 1)%Qc.
Proof.
  exists [[Sp 0; Vac]]. do 2 eexists. split; [intros sps [<- | []]; repeat constructor; simpl; intuition discriminate|]. split; [vm_compute; reflexivity|]. split; [vm_compute; discriminate|vm_compute; intros H; apply H; reflexivity].
Qed.
(** A number close to an integer is rounded: "A >= 50000.5" accepts 50000. *)
Theorem C46_rounding_refuted : exists bits w b, bits_ok bits /\ convert_constraint (written (mkSide [mkItem [] None (Sp 0) None] None) RGe (mkSide [] (Some ([], Qc_frac 100001 2)))) bits = Some (w, b, RGe) /\
  (b <= qdot w [Qc_frac 50000 1; 0%Qc])%Qc /\ ~ (Qc_frac 100001 2 <= amount bits [Qc_frac 50000 1; 0%Qc] (Sp 0) None)%Qc.
Proof.
  exists [[Sp 0; Vac]]. do 2 eexists. split; [intros sps [<- | []]; repeat constructor; simpl; intuition discriminate|]. split; [vm_compute; reflexivity|]. split; [vm_compute; discriminate|vm_compute; intros H; apply H; reflexivity].
Qed.
(** A tuple with a label that is no relation, and a second assignment, are silently ignored. *)
Theorem C46_label_refuted bits v b es : assign bits None (Some (Tuple v b None :: es)) = assign bits None (Some es).
Proof. unfold assign, read_entries. cbn [opt_map read_entry option_bind]. destruct (opt_map (read_entry bits) es); auto. Qed.
Theorem C46_second_refuted bits c es c' : assign bits None (Some es) = Some (Some c') -> assign bits (Some c) (Some es) = Some (Some c).
Proof. unfold assign. destruct (read_entries bits es); [auto|discriminate]. Qed.

(** "2 A(0) - B + 1 <= - 3 A(1) + 4" on two sublattices. *)
Definition case_L : side := mkSide [mkItem [] (Some (Qc_frac 2 1)) (Sp 0) (Some 0); mkItem [true] None (Sp 1) None] (Some ([false], 1%Qc)).
Definition case_R : side := mkSide [mkItem [true] (Some (Qc_frac 3 1)) (Sp 0) (Some 1)] (Some ([false], Qc_frac 4 1)).
Definition case_bits : list (list species) := [[Sp 0; Sp 1]; [Sp 1; Sp 0; Vac]].
Example C46_case : bits_ok case_bits /\ stated_ok case_bits (SText case_L RLe case_R) /\ stated_ok case_bits (STuple [1; 0; 0; 1; 0]%Qc 1%Qc REq) /\
  match convert_constraint (written case_L RLe case_R) case_bits with Some (v, b, r) => v = [Qc_frac 2 1; - (1); - (1); Qc_frac 3 1; 0]%Qc /\ b = Qc_frac 3 1 /\ r = RLe | None => False end /\
  side_value case_bits [1; 1; Qc_frac 2 1; 1; 0]%Qc case_L = 0%Qc /\ side_value case_bits [1; 1; Qc_frac 2 1; 1; 0]%Qc case_R = 1%Qc /\
  (exists i, In i (sd_items case_L ++ sd_items (mkSide [mkItem [] None (Sp 0) (Some 2)] None)) /\ ~ known case_bits i).
Proof.
  split; [intros sps [<- | [<- | []]]; repeat constructor; simpl; intuition discriminate|].
  assert (N : forall p, read_num (Qc_frac (Zpos p) 1) = Qc_frac (Zpos p) 1) by (intros p; apply C46_numbers; left; exists (Zpos p); apply Qc_is_canon; reflexivity).
  assert (N1 : read_num 1%Qc = 1%Qc) by (vm_compute; apply Qc_is_canon; reflexivity).
  split; [|split; [reflexivity|]].
  - unfold stated_ok, side_ok, exact_numbers. split; [|split; [|split]].
    + split; [|discriminate]. intros i [<- | [<- | []]]; exists [Sp 0; Sp 1]; simpl; auto.
    + split; [|discriminate]. intros i [<- | []]; exists [Sp 1; Sp 0; Vac]; simpl; auto.
    + intros q [<- | [<- | []]]; auto.
    + intros q [<- | [<- | []]]; auto.
  - split; [vm_compute; repeat split; repeat f_equal; try (apply Qc_is_canon; reflexivity)|]. split; [apply Qc_is_canon; vm_compute; reflexivity|]. split; [apply Qc_is_canon; vm_compute; reflexivity|].
    exists (mkItem [] None (Sp 0) (Some 2)). split; [apply in_or_app; right; left; auto|]. intros (sps & H & _). discriminate.
Qed.
Print Assumptions C46_string_partial.
Print Assumptions C46_refusal.
Print Assumptions C46_manager_partial.
Print Assumptions C46_numbers.
Print Assumptions C46_lost_number_refuted.
Print Assumptions C46_rounding_refuted.
Print Assumptions C46_second_refuted.
