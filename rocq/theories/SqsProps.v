(** C53: the search for special quasi-random structures. *)
From Verif Require Import LibProofs DomainProofs SublatticeProofs ContainerSpec ContainerProofs.
From Verif Require Export Sqs.
From Coq Require Import Sorted Permutation.
Set Implicit Arguments.
Unset Strict Implicit.
Open Scope nat_scope.

Section Sqs.
Variables (T : Type) (score : T -> Qc).

(** ** Specification *)
(** The elements that are better than everything before them. *)
Fixpoint better_than_before (pre l : list T) : list T :=
  match l with
  | [] => []
  | x :: l' => (if forallb (fun u => Qcltb (score x) (score u)) pre then [x] else []) ++ better_than_before (pre ++ [x]) l'
  end.
Definition last_ones (k : nat) (l : list T) : list T := skipn (length l - k) l.
(** Everything the search looked at, in order. *)
Definition seen (runs : list (T * list T)) : list T := concat (map snd runs).
(** There is a temperature, and either steps are taken or there is only one temperature. *)
Definition runs_ok (runs : list (T * list T)) : Prop := match runs with [] => False | r :: runs' => snd r <> [] \/ runs' = [] end.

(** ** Last elements *)
Lemma last_ones_length k l : length (last_ones k l) = Nat.min k (length l).
Proof. unfold last_ones. rewrite skipn_length. lia. Qed.
Lemma skipn_skipn_add {A} a : forall b (l : list A), skipn a (skipn b l) = skipn (b + a) l.
Proof. intros b. induction b as [|b IH]; intros l; auto. destruct l as [|x l]; [destruct a; auto|]. cbn [skipn Nat.add]. apply IH. Qed.
Lemma last_ones_app k l r : last_ones k (last_ones k l ++ r) = last_ones k (l ++ r).
Proof.
  unfold last_ones. rewrite !app_length, !skipn_app, skipn_skipn_add, skipn_length. f_equal; [|f_equal; lia].
  destruct (le_lt_dec k (length l + length r)); [|f_equal; lia]. destruct (le_lt_dec k (length l)); [f_equal; lia|f_equal; lia].
Qed.
Lemma opt_map_skipn {A B} (f : A -> option B) j : forall l r, opt_map f l = Some r -> opt_map f (skipn j l) = Some (skipn j r).
Proof.
  induction j as [|j IH]; intros l r H; auto. destruct l as [|x l]; cbn [opt_map] in H; [injection H as <-; auto|]. destruct (f x); [|discriminate]. cbn [option_bind] in H. destruct (opt_map f l) as [r'|] eqn:E; [|discriminate]. cbn [option_bind] in H. injection H as <-. cbn [skipn]. auto.
Qed.
Lemma opt_map_app1 {A B} (f : A -> option B) l r x y : opt_map f l = Some r -> f x = Some y -> opt_map f (l ++ [x]) = Some (r ++ [y]).
Proof.
  revert r. induction l as [|a l IH]; intros r H E; cbn [opt_map app] in *; [injection H as <-; rewrite E; auto|]. destruct (f a); [|discriminate]. cbn [option_bind] in *. destruct (opt_map f l) as [r'|]; [|discriminate]. cbn [option_bind] in H. injection H as <-. rewrite (IH r' eq_refl E). auto.
Qed.
Lemma opt_map_same {A B} (f g : A -> option B) l : (forall x, In x l -> f x = g x) -> opt_map f l = opt_map g l.
Proof. induction l as [|a l IH]; intros H; auto. cbn [opt_map]. rewrite (H a) by (left; auto). rewrite IH; auto. intros x Hx. apply H. right. auto. Qed.

(** ** The search *)
Definition best_of (best : option Qc) (pre : list T) : Prop := forall t, improves (score t) best = forallb (fun u => Qcltb (score t) (score u)) pre.
Lemma better_app pre : forall l m, better_than_before pre (l ++ m) = better_than_before pre l ++ better_than_before (pre ++ l) m.
Proof.
  intros l. revert pre. induction l as [|x l IH]; intros pre m; cbn [app better_than_before]; [rewrite app_nil_r; auto|]. rewrite IH, <- app_assoc, <- app_assoc. auto.
Qed.
Lemma best_of_step best pre v : best_of best pre -> best_of (if improves (score v) best then Some (score v) else best) (pre ++ [v]).
Proof.
  intros H t. rewrite forallb_app. cbn [forallb]. rewrite andb_true_r. destruct (improves (score v) best) eqn:E; cbn [improves].
  - rewrite H in E. rewrite forallb_forall in E. destruct (Qcltb_spec (score t) (score v)) as [L|L]; [|rewrite andb_false_r; auto]. rewrite andb_true_r. symmetry. apply forallb_forall. intros u Hu. specialize (E u Hu). destruct (Qcltb_spec (score v) (score u)) as [L2|]; [|discriminate]. destruct (Qcltb_spec (score t) (score u)) as [|N]; auto. exfalso. apply N. apply Qclt_trans with (score v); auto.
  - rewrite H. destruct (forallb _ pre) eqn:F; auto. cbn [andb]. destruct (Qcltb_spec (score t) (score v)) as [|L]; auto. exfalso. apply Qcnot_lt_le in L. rewrite H in E. apply not_true_iff_false in E. apply E. apply forallb_forall. intros u Hu. rewrite forallb_forall in F. specialize (F u Hu). destruct (Qcltb_spec (score t) (score u)) as [L2|]; [|discriminate]. destruct (Qcltb_spec (score v) (score u)) as [|N]; auto. exfalso. apply N. apply Qcle_lt_trans with (score t); auto.
Qed.
(** The state of the search after [pre], when the list started as [old]. *)
Definition state_ok (maxlen : nat) (old pre : list T) (st : search T) : Prop :=
  best_of (s_best st) pre /\ (forall x, In x (s_deque st) -> x < length (s_store st)) /\
  opt_map (nth_error (s_store st)) (s_deque st) = Some (last_ones maxlen (old ++ better_than_before [] pre)).
Lemma push_in m d x y : In y (push m d x) -> In y d \/ y = x.
Proof.
  unfold push. intros H. assert (G : In y (d ++ [x])). { revert H. generalize (length (d ++ [x]) - m). generalize (d ++ [x]). clear. intros l j. revert l. induction j as [|j IH]; intros [|a l] H; cbn [skipn] in H; auto. right. auto. }
  apply in_app_or in G. destruct G as [G | [G | []]]; auto.
Qed.
Lemma turn_ok maxlen live old pre st v : live < length (s_store st) -> ~ In live (s_deque st) -> state_ok maxlen old pre st ->
  exists st', turn score maxlen live st v = Some st' /\ live < length (s_store st') /\ ~ In live (s_deque st') /\ state_ok maxlen old (pre ++ [v]) st'.
Proof.
  intros HL HN (HB & HR & HM). unfold turn. rewrite nth_error_upd_eq by auto. cbn [option_bind]. pose proof (best_of_step v HB) as HB'.
  assert (AG : forall ext x, In x (s_deque st) -> nth_error (upd (s_store st) live v ++ ext) x = nth_error (s_store st) x). { intros ext x Hx. rewrite nth_error_app1 by (rewrite length_upd; auto). apply nth_error_upd_neq. intros ->. contradiction. }
  assert (RE : better_than_before [] (pre ++ [v]) = better_than_before [] pre ++ (if forallb (fun u => Qcltb (score v) (score u)) pre then [v] else [])) by (rewrite better_app; cbn [better_than_before app]; rewrite app_nil_r; auto).
  rewrite (HB v) in *. destruct (forallb (fun u => Qcltb (score v) (score u)) pre) eqn:F.
  - eexists. split; [reflexivity|]. cbn [s_store s_deque s_best]. split; [rewrite app_length, length_upd; lia|]. split; [intros C; apply push_in in C; rewrite length_upd in C; destruct C; [contradiction|lia]|]. split; [exact HB'|]. split.
    + cbn [s_store s_deque]. intros x Hx. rewrite app_length, length_upd in *. simpl. apply push_in in Hx. destruct Hx as [Hx | ->]; [specialize (HR x Hx); lia|lia].
    + cbn [s_store s_deque]. assert (L : length (s_deque st) = length (last_ones maxlen (old ++ better_than_before [] pre))) by (symmetry; apply (opt_map_length _ _ HM)).
      rewrite RE, app_assoc, <- (last_ones_app maxlen (old ++ better_than_before [] pre)). unfold push. replace (length (s_deque st ++ [length (upd (s_store st) live v)]) - maxlen) with (length (last_ones maxlen (old ++ better_than_before [] pre) ++ [v]) - maxlen) by (rewrite !app_length, L; auto).
      unfold last_ones at 2. apply opt_map_skipn. apply opt_map_app1.
      * rewrite (opt_map_same (g := nth_error (s_store st))); auto.
      * rewrite nth_error_app2 by auto. rewrite Nat.sub_diag. auto.
  - eexists. split; [reflexivity|]. cbn [s_store s_deque s_best]. rewrite length_upd. split; auto. split; auto. split; [exact HB'|]. cbn [s_store s_deque]. rewrite length_upd. split; auto. rewrite RE, app_nil_r. rewrite (opt_map_same (g := nth_error (s_store st))); auto. intros x Hx. rewrite <- (app_nil_r (upd (s_store st) live v)). apply AG; auto.
Qed.
Lemma turns_ok maxlen live old vs : forall pre st, live < length (s_store st) -> ~ In live (s_deque st) -> state_ok maxlen old pre st ->
  exists st', turns score maxlen live vs st = Some st' /\ state_ok maxlen old (pre ++ vs) st'.
Proof.
  induction vs as [|v vs IH]; intros pre st HL HN HS; cbn [turns]; [exists st; rewrite app_nil_r; auto|]. destruct (turn_ok v HL HN HS) as (st1 & E & L1 & N1 & S1). rewrite E. cbn [option_bind]. destruct (IH (pre ++ [v]) st1 L1 N1 S1) as (st2 & E2 & S2). exists st2. split; auto. rewrite <- app_assoc in S2. auto.
Qed.
Lemma temperatures_ok maxlen old runs : forall pre st, state_ok maxlen old pre st -> exists st', temperatures_loop score maxlen runs st = Some st' /\ state_ok maxlen old (pre ++ seen runs) st'.
Proof.
  induction runs as [|[t0 vs] runs IH]; intros pre st (HB & HR & HM); cbn [temperatures_loop]; [exists st; unfold seen; cbn [map concat]; rewrite app_nil_r; split; auto; split; auto|].
  unfold one_temperature. cbn [fst snd]. destruct (@turns_ok maxlen (length (s_store st)) old vs pre (mkS (s_store st ++ [t0]) (s_best st) (s_deque st))) as (st1 & E & S1).
  - cbn [s_store]. rewrite app_length. simpl. lia.
  - cbn [s_deque]. intros C. specialize (HR _ C). lia.
  - split; [exact HB|]. cbn [s_store s_deque]. split; [intros x Hx; specialize (HR x Hx); rewrite app_length; lia|]. rewrite (opt_map_same (g := nth_error (s_store st))); auto. intros x Hx. apply nth_error_app1. auto.
  - rewrite E. cbn [option_bind]. destruct (IH _ _ S1) as (st2 & E2 & S2). exists st2. split; auto. unfold seen in *. cbn [map concat snd]. rewrite app_assoc. auto.
Qed.
Lemma save_deque_ok (store : list T) (d : list nat) : forall (l : list T) (c : container T) (xs : list (sample T)) k steps, opt_map (nth_error store) d = Some l -> filled c xs k steps -> length l <= k ->
  exists c', save_deque c store d = Some c' /\ filled c' (xs ++ map (fun t => [t]) l) (k - length l) (steps + length l).
Proof.
  induction d as [|x d IH]; intros l c xs k steps H F L; cbn [opt_map save_deque] in *.
  - injection H as <-. exists c. split; auto. cbn [map length]. rewrite app_nil_r, Nat.sub_0_r, Nat.add_0_r. auto.
  - destruct (nth_error store x) as [t|]; [|discriminate]. cbn [option_bind] in *. destruct (opt_map (nth_error store) d) as [l'|]; [|discriminate]. cbn [option_bind] in H. injection H as <-. cbn [length] in L. destruct k as [|k]; [lia|]. destruct (filled_save [t] 1 F) as (c1 & E1 & F1). rewrite E1. cbn [option_bind]. destruct (IH l' c1 _ k _ eq_refl F1 ltac:(lia)) as (c2 & E2 & F2). exists c2. split; auto. cbn [map length]. rewrite <- app_assoc in F2. cbn [app] in F2. replace (steps + S (length l')) with (steps + 1 + length l') by lia. auto.
Qed.

Lemma save_deque_full (store : list T) (d : list nat) : forall (l : list T) (c : container T) (xs : list (sample T)) k steps, opt_map (nth_error store) d = Some l -> filled c xs k steps -> k < length l -> save_deque c store d = None.
Proof.
  induction d as [|x d IH]; intros l c xs k steps H F L; cbn [opt_map save_deque] in *; [injection H as <-; simpl in L; lia|].
  destruct (nth_error store x) as [t|]; [|discriminate]. cbn [option_bind] in *. destruct (opt_map (nth_error store) d) as [l'|]; [|discriminate]. cbn [option_bind] in H. injection H as <-. destruct k as [|k].
  - destruct F as (A & B & C). unfold save_sample. rewrite A, B. cbn [repeat]. rewrite app_nil_r, map_length, Nat.ltb_irrefl. auto.
  - destruct (filled_save [t] 1 F) as (c1 & E1 & F1). rewrite E1. cbn [option_bind]. cbn [length] in L. apply (IH l' c1 _ k _ eq_refl F1). lia.
Qed.

Lemma sort_sorted (l : list T) : StronglySorted (fun a b => score a <= score b)%Qc (sort_by (fun a b => Qcleb (score a) (score b)) l).
Proof.
  assert (I : forall x l, StronglySorted (fun a b => score a <= score b)%Qc l -> StronglySorted (fun a b => score a <= score b)%Qc (insert_by (fun a b => Qcleb (score a) (score b)) x l)).
  { clear l. intros x l. induction l as [|y l IH]; intros H; cbn [insert_by]; [repeat constructor|]. inversion H as [|? ? H1 H2]; subst. destruct (Qcleb_spec (score x) (score y)) as [L|L].
    - constructor; auto. constructor; auto. rewrite Forall_forall in *. intros z Hz. apply Qcle_trans with (score y); auto.
    - apply Qcnot_le_lt in L. constructor; [auto|]. rewrite Forall_forall in *. intros z Hz. assert (G : z = x \/ In z l). { clear -Hz. induction l as [|a l IH]; cbn [insert_by] in Hz; [destruct Hz as [<- | []]; auto|]. destruct (Qcleb (score x) (score a)); [destruct Hz as [<- | Hz]; auto|]. destruct Hz as [<- | Hz]; [right; left; auto|]. destruct (IH Hz) as [G|G]; [auto|right; right; auto]. }
      destruct G as [-> | G]; [apply Qclt_le_weak; auto|auto]. }
  unfold sort_by. induction l as [|x l IH]; cbn [fold_right]; [constructor|auto].
Qed.

(** ** The claims *)
(** The number of candidates asked for: [max_save_num] if given (and not 0), else one in a hundred of the steps, at least one. *)
Definition limit (max_save_num : option nat) (steps k : nat) : Prop :=
  match max_save_num with Some (S n) => k = S n | _ => 1 <= k /\ (k * 100 <= steps \/ k = 1) /\ steps < (k + 1) * 100 end.
Lemma save_num_limit ms steps : limit ms steps (save_num ms steps).
Proof.
  assert (D : 1 <= Nat.max (steps / 100) 1 /\ (Nat.max (steps / 100) 1 * 100 <= steps \/ Nat.max (steps / 100) 1 = 1) /\ steps < (Nat.max (steps / 100) 1 + 1) * 100).
  { pose proof (Nat.div_mod steps 100 ltac:(lia)). pose proof (Nat.mod_upper_bound steps 100 ltac:(lia)). lia. }
  destruct ms as [[|n]|]; cbn [limit save_num]; auto.
Qed.
Lemma limit_unique ms steps a b : limit ms steps a -> limit ms steps b -> a = b.
Proof. destruct ms as [[|n]|]; cbn [limit]; intros; lia. Qed.

(** A run that clears what came before never raises; it keeps the last [k] of the candidates that were better than everything
    before them, and stores exactly those as samples. *)
Theorem C53_run g steps runs ms k : runs_ok runs -> limit ms steps k ->
  exists g', generate score g steps runs true ms = Some g' /\
    saved g' = Some (last_ones k (better_than_before [] (seen runs))) /\
    holds (g_samples g') (map (fun t => [t]) (last_ones k (better_than_before [] (seen runs)))) (length (last_ones k (better_than_before [] (seen runs)))).
Proof.
  intros HR HK. rewrite (limit_unique HK (save_num_limit ms steps)). set (n := save_num ms steps). unfold generate. fold n. cbn [option_bind].
  assert (S0 : state_ok n [] [] (mkS (g_store g) None [])). { split; [intros t; auto|]. cbn [s_store s_deque]. split; [intros x []|]. unfold last_ones. cbn [app better_than_before length Nat.sub skipn opt_map]. auto. }
  destruct (temperatures_ok runs S0) as (st & E & _ & HL & HM). cbn [app] in HM. destruct runs as [|r runs]; [contradiction|].
  assert (G : match snd r, runs with [], _ :: _ => true | _, _ => false end = false). { cbn in HR. destruct (snd r); auto. destruct runs; auto. destruct HR; congruence. }
  rewrite G, E. cbn [option_bind].
  assert (F : filled (allocate (clear (g_samples g)) n) [] (0 + n) 0) by (apply filled_allocate; repeat split; auto).
  destruct (save_deque_ok HM F) as (c' & EC & FC); [rewrite last_ones_length; lia|]. rewrite EC. cbn [option_bind]. eexists. split; [reflexivity|]. split; [exact HM|]. cbn [g_samples]. apply filled_vacuum in FC. exact FC.
Qed.

Lemma better_in pre l t : In t (better_than_before pre l) -> In t l /\ forall u, In u pre -> (score t < score u)%Qc.
Proof.
  revert pre. induction l as [|x l IH]; intros pre H; cbn [better_than_before] in H; [destruct H|]. apply in_app_or in H. destruct H as [H|H].
  - destruct (forallb _ pre) eqn:F; [|destruct H]. destruct H as [<- | []]. split; [left; auto|]. intros u Hu. rewrite forallb_forall in F. specialize (F u Hu). destruct (Qcltb_spec (score x) (score u)); [auto|discriminate].
  - destruct (IH _ H) as [A B]. split; [right; auto|]. intros u Hu. apply B. apply in_or_app. auto.
Qed.
Lemma better_sorted l : forall pre, StronglySorted (fun a b => score b < score a)%Qc (better_than_before pre l).
Proof.
  induction l as [|x l IH]; intros pre; cbn [better_than_before]; [constructor|]. destruct (forallb _ pre); cbn [app]; auto. constructor; auto. rewrite Forall_forall. intros t Ht. apply better_in in Ht. apply Ht. apply in_or_app. right. left. auto.
Qed.
Lemma best_exists l : l <> [] -> exists m, In m l /\ forall u, In u l -> (score m <= score u)%Qc.
Proof.
  induction l as [|x l IH]; [congruence|]. intros _. destruct l as [|y l]; [exists x; split; [left; auto|intros u [<- | []]; apply Qcle_refl]|]. destruct IH as (m & Hm & HM); [congruence|]. destruct (Qcleb_spec (score x) (score m)) as [L|L].
  - exists x. split; [left; auto|]. intros u [<- | Hu]; [apply Qcle_refl|apply Qcle_trans with (score m); auto].
  - apply Qcnot_le_lt in L. exists m. split; [right; auto|]. intros u [<- | Hu]; [apply Qclt_le_weak; auto|auto].
Qed.
Lemma better_last l d : l <> [] -> better_than_before [] l <> [] /\ forall u, In u l -> (score (last (better_than_before [] l) d) <= score u)%Qc.
Proof.
  induction l as [|x l IH] using rev_ind; [congruence|]. intros _. rewrite better_app. cbn [better_than_before app]. rewrite app_nil_r. destruct l as [|y l].
  - cbn [better_than_before app forallb last]. split; [congruence|]. intros u [<- | []]. apply Qcle_refl.
  - destruct IH as (A & B); [congruence|]. destruct (forallb _ (y :: l)) eqn:F.
    + split; [destruct (better_than_before [] (y :: l)); cbn; congruence|]. rewrite last_last. intros u Hu. apply in_app_or in Hu. destruct Hu as [Hu | [<- | []]]; [|apply Qcle_refl]. rewrite forallb_forall in F. specialize (F u Hu). destruct (Qcltb_spec (score x) (score u)); [apply Qclt_le_weak; auto|discriminate].
    + rewrite app_nil_r. split; auto. intros u Hu. apply in_app_or in Hu. destruct Hu as [Hu | [<- | []]]; auto. apply not_true_iff_false in F. destruct (Qcleb_spec (score (last (better_than_before [] (y :: l)) d)) (score x)) as [|N]; auto. exfalso. apply F. apply forallb_forall. intros u Hu. apply Qcnot_le_lt in N. destruct (Qcltb_spec (score x) (score u)) as [|N2]; auto. exfalso. apply N2. apply Qclt_le_trans with (1 := N). auto.
Qed.
Lemma last_skipn {A} (d : A) j : forall l, j < length l -> last (skipn j l) d = last l d.
Proof. induction j as [|j IH]; intros l H; auto. destruct l as [|x l]; [simpl in H; lia|]. cbn [skipn length] in *. rewrite IH by lia. destruct l; [simpl in H; lia|auto]. Qed.
Lemma sorted_skipn {A} (R : A -> A -> Prop) j : forall l, StronglySorted R l -> StronglySorted R (skipn j l).
Proof. induction j as [|j IH]; intros l H; auto. destruct l; auto. inversion H; subst. cbn [skipn]. auto. Qed.
Lemma skipn_in {A} j (t : A) : forall l, In t (skipn j l) -> In t l.
Proof. induction j as [|j IH]; intros [|a l] H; cbn [skipn] in H; auto. right. auto. Qed.
(** What the run keeps: at most [k] candidates it has seen, each strictly better than the one before, the last being a best one. *)
Theorem C53_improving g steps runs ms k : runs_ok runs -> limit ms steps k -> exists g' l,
  generate score g steps runs true ms = Some g' /\ saved g' = Some l /\ length l <= k /\
  StronglySorted (fun a b => score b < score a)%Qc l /\ (forall t, In t l -> In t (seen runs)) /\
  (seen runs <> [] -> l <> [] /\ forall d u, In u (seen runs) -> (score (last l d) <= score u)%Qc).
Proof.
  intros HR HK. destruct (@C53_run g steps runs ms k HR HK) as (g' & E & S1 & _). exists g', (last_ones k (better_than_before [] (seen runs))). split; auto. split; auto. split; [rewrite last_ones_length; lia|]. split; [apply sorted_skipn, better_sorted|]. split; [intros t Ht; apply skipn_in in Ht; apply better_in in Ht; tauto|].
  intros N. assert (K : 1 <= k) by (destruct ms as [[|n]|]; cbn [limit] in HK; lia).
  assert (P : forall d : T, better_than_before [] (seen runs) <> []) by (intros d; apply (better_last d N)).
  destruct (seen runs) as [|y s'] eqn:ES; [congruence|]. specialize (P y). assert (L : length (better_than_before [] (y :: s')) <> 0) by (destruct (better_than_before [] (y :: s')); simpl; congruence). split.
  - intros C. apply (f_equal (@length T)) in C. rewrite last_ones_length in C. cbn [length] in C. lia.
  - intros d u Hu. unfold last_ones. rewrite last_skipn by lia. apply (better_last d N); auto.
Qed.

(** A run that does not clear: the earlier candidates stay in front, but the search forgets their scores. *)
Theorem C53_continue_partial g steps runs ms k old : runs_ok runs -> limit ms steps k -> saved g = Some old ->
  let all := last_ones (length old + k) (old ++ better_than_before [] (seen runs)) in
  (forall g', generate score g steps runs false ms = Some g' -> saved g' = Some all) /\
  (forall xs n, holds (g_samples g) xs n ->
     (length all <= k -> exists g', generate score g steps runs false ms = Some g' /\ holds (g_samples g') (xs ++ map (fun t => [t]) all) (n + length all)) /\
     (k < length all -> generate score g steps runs false ms = None)).
Proof.
  intros HR HK HS. rewrite (limit_unique HK (save_num_limit ms steps)). set (n := save_num ms steps). intros all. unfold saved in HS. destruct (g_deque g) as [d|] eqn:ED; [|discriminate]. cbn [option_bind] in HS.
  assert (LD : length old = length d) by apply (opt_map_length _ _ HS).
  assert (S0 : state_ok (length d + n) old [] (mkS (g_store g) None d)). { split; [intros t; auto|]. cbn [s_store s_deque]. split; [|unfold last_ones; cbn [better_than_before]; rewrite app_nil_r; replace (length old - (length d + n)) with 0 by lia; auto]. intros x Hx. apply In_nth_error in Hx. destruct Hx as (i & Hi). destruct (opt_map_nth _ _ _ HS Hi) as (y & Hy & _). apply nth_error_Some. congruence. }
  destruct (temperatures_ok runs S0) as (st & E & _ & HL & HM). cbn [app] in HM. rewrite <- LD in HM, E. fold all in HM.
  unfold generate. fold n. rewrite ED. cbn [option_bind]. rewrite <- LD. destruct runs as [|r runs]; [contradiction|].
  assert (G : match snd r, runs with [], _ :: _ => true | _, _ => false end = false). { cbn in HR. destruct (snd r); auto. destruct runs; auto. destruct HR; congruence. }
  rewrite G, E. cbn [option_bind]. split.
  - intros g' H. destruct (save_deque _ _ _); [|discriminate]. cbn [option_bind] in H. injection H as <-. exact HM.
  - intros xs m Hh. assert (F : filled (allocate (g_samples g) n) xs (0 + n) m) by (apply filled_allocate, filled_holds; auto). cbn [Nat.add] in F. split.
    + intros LE. destruct (save_deque_ok HM F LE) as (c' & EC & FC). rewrite EC. cbn [option_bind]. eexists. split; [reflexivity|]. cbn [g_samples]. apply filled_vacuum in FC. exact FC.
    + intros LT. assert (Z : save_deque (allocate (g_samples g) n) (s_store st) (s_deque st) = None); [|rewrite Z; auto].
      apply (save_deque_full HM F LT).
Qed.

(** *** The best structures *)
Variables (ST : Type) (structure_of : T -> ST) (fit eqb : ST -> ST -> bool).
Definition present (reduce : option (ST -> ST)) (t : T) : ST * Qc := (match reduce with Some f => f (structure_of t) | None => structure_of t end, score t).
Lemma heads_app l : forall acc m, heads fit acc (l ++ m) = heads fit (heads fit acc l) m.
Proof. induction l as [|x l IH]; intros acc m; auto. cbn [app heads]. destruct (existsb _ acc); auto. Qed.
Lemma heads_incl l : forall acc x, In x acc -> In x (heads fit acc l).
Proof. induction l as [|y l IH]; intros acc x H; auto. cbn [heads]. destruct (existsb _ acc); auto. apply IH, in_or_app. auto. Qed.
Lemma heads_from l : forall acc x, In x (heads fit acc l) -> In x acc \/ In x l.
Proof. induction l as [|y l IH]; intros acc x H; auto. cbn [heads] in H. destruct (existsb _ acc); apply IH in H; [destruct H; [auto|right; right; auto]|]. destruct H as [H|H]; [apply in_app_or in H; destruct H as [H | [<- | []]]; [auto|right; left; auto]|right; right; auto]. Qed.
Lemma heads_apart l : forall acc, ForallOrdPairs (fun a b => fit a b = false) acc -> ForallOrdPairs (fun a b => fit a b = false) (heads fit acc l).
Proof.
  induction l as [|y l IH]; intros acc H; auto. cbn [heads]. destruct (existsb _ acc) eqn:E; auto. apply IH. clear IH. induction H as [|a acc HA H IH]; cbn [app]; [repeat constructor|]. cbn [existsb] in E. apply orb_false_iff in E. destruct E as [E1 E2]. constructor; auto. apply Forall_app. split; auto.
Qed.
Lemma heads_filter l (isin : ST -> list ST -> bool) : (forall x h, isin x h = true <-> In x h) -> NoDup l -> forall acc, (forall x, In x acc -> ~ In x l) -> heads fit acc l = acc ++ filter (fun x => isin x (heads fit acc l)) l.
Proof.
  intros IS. induction l as [|y l IH]; intros N acc D; [cbn [heads filter]; rewrite app_nil_r; auto|]. inversion N as [|? ? N1 N2]; subst. cbn [heads filter]. destruct (existsb _ acc) eqn:E.
  - assert (X : isin y (heads fit acc l) = false). { apply not_true_iff_false. rewrite IS. intros C. apply heads_from in C. destruct C as [C|C]; [apply (D y C); left; auto|contradiction]. }
    rewrite X. apply IH; auto. intros x Hx C. apply (D x Hx). right. auto.
  - assert (X : isin y (heads fit (acc ++ [y]) l) = true) by (apply IS, heads_incl, in_or_app; right; left; auto). rewrite X. transitivity ((acc ++ [y]) ++ filter (fun x => isin x (heads fit (acc ++ [y]) l)) l); [|rewrite <- app_assoc; auto]. apply IH; auto. intros x Hx C. apply in_app_or in Hx. destruct Hx as [Hx | [<- | []]]; [apply (D x Hx); right; auto|contradiction].
Qed.
Definition ranked (l : list T) := sort_by (fun a b => Qcleb (score a) (score b)) l.
Definition kept (num : nat) (remove_duplicates : bool) (l : list T) : list T :=
  let c := if num =? 1 then firstn 1 (ranked l) else ranked l in
  firstn num (if remove_duplicates then filter (fun t => existsb (eqb (structure_of t)) (heads fit [] (map structure_of c))) c else c).
Lemma get_best_kept reduce g num rm l : saved g = Some l -> get_best score structure_of fit eqb reduce g num rm = Some (map (present reduce) (kept num rm l)).
Proof.
  intros H. unfold get_best, kept. rewrite H. cbn [option_bind]. fold (ranked l). set (c := if num =? 1 then _ else _). f_equal.
  assert (FM : forall (f : ST -> bool) c, filter (fun s => f (fst s)) (map (fun t => (structure_of t, score t)) c) = map (fun t => (structure_of t, score t)) (filter (fun t => f (structure_of t)) c)). { clear. intros f c. induction c as [|x c IH]; auto. cbn [map filter fst]. destruct (f (structure_of x)); cbn [map]; rewrite IH; auto. }
  assert (R : forall q : list T, (match reduce with Some f => map (fun s => (f (fst s), snd s)) (map (fun t => (structure_of t, score t)) q) | None => map (fun t => (structure_of t, score t)) q end) = map (present reduce) q) by (intros q; unfold present; destruct reduce; [rewrite map_map|]; auto).
  assert (C : forall q : list T, (if length (map (fun t => (structure_of t, score t)) q) <? num then map (fun t => (structure_of t, score t)) q else firstn num (map (fun t => (structure_of t, score t)) q)) = map (fun t => (structure_of t, score t)) (firstn num q)).
  { intros q. rewrite map_length, firstn_map. destruct (Nat.ltb_spec (length q) num); auto. rewrite firstn_all2 by lia. auto. }
  destruct rm.
  - rewrite (FM (fun s => existsb (eqb s) (heads fit [] (map fst (map (fun t => (structure_of t, score t)) c))))), C, R, map_map. cbn [fst]. auto.
  - rewrite C, R. auto.
Qed.
Lemma firstn_in {A} j (t : A) : forall l, In t (firstn j l) -> In t l.
Proof. induction j as [|j IH]; intros [|a l] H; cbn [firstn] in H; try destruct H; auto; [left; auto|right; auto]. Qed.
Lemma firstn_sorted {A} (R : A -> A -> Prop) j : forall l, StronglySorted R l -> StronglySorted R (firstn j l).
Proof. induction j as [|j IH]; intros [|a l] H; cbn [firstn]; try constructor; inversion H; subst; auto. rewrite Forall_forall in *. intros x Hx. apply firstn_in in Hx. auto. Qed.
Lemma filter_sorted {A} (R : A -> A -> Prop) f : forall l, StronglySorted R l -> StronglySorted R (filter f l).
Proof. induction l as [|a l IH]; intros H; cbn [filter]; auto. inversion H; subst. destruct (f a); auto. constructor; auto. rewrite Forall_forall in *. intros x Hx. apply filter_In in Hx. apply H3. tauto. Qed.
Lemma cut_in num q t : StronglySorted (fun a b => score a <= score b)%Qc q -> In t q -> In t (firstn num q) \/ (length (firstn num q) = num /\ forall u, In u (firstn num q) -> (score u <= score t)%Qc).
Proof.
  revert q. induction num as [|num IH]; intros q S H; [right; split; auto; intros u []|]. destruct q as [|a q]; [destruct H|]. inversion S as [|? ? S1 S2]; subst. cbn [firstn]. destruct H as [-> | H]; [left; left; auto|]. destruct (IH q S1 H) as [G | [G1 G2]]; [left; right; auto|right]. cbn [length]. split; [lia|]. rewrite Forall_forall in S2. intros u [<- | Hu]; auto.
Qed.
(** The structures returned are candidates in order of their score, no more than asked for; every candidate is among them, or
    matches a returned one with no worse score (if duplicates are removed), or the number asked for was reached by candidates
    with no worse score.  Without removal nothing is left out but for the limit. *)
Theorem C53_best reduce g num rm l : (forall x, eqb x x = true) -> saved g = Some l -> exists ts,
  get_best score structure_of fit eqb reduce g num rm = Some (map (present reduce) ts) /\ length ts <= num /\
  StronglySorted (fun a b => score a <= score b)%Qc ts /\ (forall t, In t ts -> In t l) /\
  forall t, In t l -> In t ts \/ (rm = true /\ exists t', In t' ts /\ fit (structure_of t') (structure_of t) = true /\ (score t' <= score t)%Qc) \/
                      (length ts = num /\ forall u, In u ts -> (score u <= score t)%Qc).
Proof.
  intros ER H. exists (kept num rm l). split; [apply get_best_kept; auto|]. unfold kept. pose proof (sort_sorted l) as SS. fold (ranked l) in SS. pose proof (sort_by_perm (fun a b => Qcleb (score a) (score b)) l) as PP. fold (ranked l) in PP.
  set (c := if num =? 1 then firstn 1 (ranked l) else ranked l). assert (SC : StronglySorted (fun a b => score a <= score b)%Qc c) by (unfold c; destruct (num =? 1); auto; apply firstn_sorted; auto).
  assert (CI : forall t, In t c -> In t l). { intros t Ht. apply Permutation_sym in PP. apply (Permutation_in _ PP). unfold c in Ht. destruct (num =? 1); auto. apply firstn_in in Ht. auto. }
  split; [apply firstn_le_length|]. split; [apply firstn_sorted; destruct rm; auto; apply filter_sorted; auto|]. split; [intros t Ht; apply firstn_in in Ht; apply CI; destruct rm; auto; apply filter_In in Ht; tauto|].
  intros t Ht. apply (Permutation_in _ PP) in Ht.
  assert (CC : In t c \/ (num = 1 /\ exists a, c = [a] /\ (score a <= score t)%Qc)). { unfold c. destruct (Nat.eqb_spec num 1) as [E|E]; auto. destruct (ranked l) as [|a q] eqn:EQ; [destruct Ht|]. right. split; auto. exists a. split; auto. destruct Ht as [<- | Ht]; [apply Qcle_refl|]. inversion SS as [|? ? _ S2]; subst. rewrite Forall_forall in S2. auto. }
  destruct CC as [Hc | (E1 & a & Ea & La)].
  - destruct rm.
    + destruct (in_split _ _ Hc) as (c1 & c2 & EC). set (q := filter _ c). assert (Sq : StronglySorted (fun a b => score a <= score b)%Qc q) by (apply filter_sorted; auto).
      assert (K : In t q \/ exists t', In t' q /\ fit (structure_of t') (structure_of t) = true /\ (score t' <= score t)%Qc).
      { destruct (existsb (fun h => fit h (structure_of t)) (heads fit [] (map structure_of c1))) eqn:EX.
        - right. apply existsb_exists in EX. destruct EX as (h & Hh & Fh). pose proof Hh as Hh2. apply heads_from in Hh. destruct Hh as [[] | Hh]. apply in_map_iff in Hh. destruct Hh as (t' & <- & Ht'). exists t'. split; [|split; auto].
          + apply filter_In. split; [rewrite EC; apply in_or_app; auto|]. apply existsb_exists. exists (structure_of t'). split; auto. rewrite EC, map_app, heads_app. apply heads_incl; auto.
          + rewrite EC in SC. clear -SC Ht'. induction c1 as [|b c1 IH]; [destruct Ht'|]. cbn [app] in SC. inversion SC as [|? ? S1 S2]; subst. destruct Ht' as [<- | Ht']; auto. rewrite Forall_forall in S2. apply S2. apply in_or_app. right. left. auto.
        - left. apply filter_In. split; auto. apply existsb_exists. exists (structure_of t). split; auto. rewrite EC, map_app, heads_app. cbn [map heads]. rewrite EX. apply heads_incl, in_or_app. right. left. auto. }
      destruct K as [K | (t' & K1 & K2 & K3)]; [destruct (cut_in num Sq K); auto|]. destruct (cut_in num Sq K1) as [G | [G1 G2]]; [right; left; split; auto; exists t'; auto|right; right]. split; auto. intros u Hu. apply Qcle_trans with (score t'); auto.
    + destruct (cut_in num SC Hc); auto.
  - right. right. rewrite Ea, E1. destruct rm.
    + cbn [map heads existsb filter app]. rewrite ER. cbn [orb firstn length]. split; auto. intros u [<- | []]; auto.
    + cbn [firstn length]. split; auto. intros u [<- | []]; auto.
Qed.
(** After a run that cleared, with scores determined by the structures, no returned structure matches a later one. *)
Theorem C53_distinct_partial (sc : ST -> Qc) g steps runs ms g' num reduce : (forall x y, eqb x y = true <-> x = y) -> (forall t, score t = sc (structure_of t)) ->
  runs_ok runs -> generate score g steps runs true ms = Some g' -> exists ts,
  get_best score structure_of fit eqb reduce g' num true = Some (map (present reduce) ts) /\ ForallOrdPairs (fun a b => fit (structure_of a) (structure_of b) = false) ts.
Proof.
  intros EQ SCO HR HG. destruct (@C53_improving g steps runs ms (save_num ms steps) HR (save_num_limit ms steps)) as (g2 & l & E & SV & _ & SR & _). rewrite HG in E. injection E as <-. exists (kept num true l). split; [apply get_best_kept; auto|].
  assert (ND : NoDup (map structure_of l)). { clear -SR SCO. induction SR as [|a l SR IH FA]; cbn [map]; constructor; auto. rewrite in_map_iff. intros (b & Eb & Hb). rewrite Forall_forall in FA. specialize (FA b Hb). rewrite !SCO, Eb in FA. apply (Qclt_not_le _ _ FA). apply Qcle_refl. }
  pose proof (sort_by_perm (fun a b => Qcleb (score a) (score b)) l) as PP. fold (ranked l) in PP. apply (Permutation_map structure_of) in PP. pose proof (Permutation_NoDup PP ND) as NR. unfold kept. set (c := if num =? 1 then _ else _).
  assert (NC : NoDup (map structure_of c)). { unfold c. destruct (num =? 1); auto. rewrite <- firstn_map. clear -NR. destruct (map structure_of (ranked l)); cbn [firstn]; repeat constructor. intros []. }
  set (q := filter _ c).
  assert (Q : map structure_of q = heads fit [] (map structure_of c)).
  { rewrite (@heads_filter (map structure_of c) (fun x h => existsb (eqb x) h)); auto.
    - cbn [app]. unfold q. generalize (heads fit [] (map structure_of c)). clear. intros h. induction c as [|x c IH]; auto. cbn [map filter]. destruct (existsb (eqb (structure_of x)) h); cbn [map]; rewrite IH; auto.
    - intros x h. rewrite existsb_exists. split; [intros (y & Hy & E); apply EQ in E; subst; auto|intros Hx; exists x; split; auto; apply EQ; auto]. }
  pose proof (heads_apart (map structure_of c) (FOP_nil _)) as HA. rewrite <- Q in HA. revert HA. generalize q. clear. intros q. revert num. induction q as [|x q IH]; intros [|num] H; cbn [firstn]; try constructor; cbn [map] in H; inversion H as [|? ? H1 H2]; subst.
  - rewrite Forall_forall in *. intros y Hy. apply firstn_in in Hy. apply H1. apply in_map. auto.
  - apply IH. auto.
Qed.
End Sqs.

(** ** What fails *)
(** Traces are pairs of a structure and its score. *)
Definition tr (a : nat) (z : Z) : nat * Qc := (a, Qc_of_Z z).
Definition fresh : generator (nat * Qc) := mkG [] None (empty_container _).
(** Keeping the results of no earlier run, or asking for the best structures before a run, raises. *)
Theorem C53_first_refuted : (forall (T : Type) (score : T -> Qc) g steps runs ms, g_deque g = None -> generate score g steps runs false ms = None) /\
  (forall (T ST : Type) (score : T -> Qc) (st : T -> ST) fit eqb reduce g num rm, g_deque g = None -> get_best score st fit eqb reduce g num rm = None).
Proof. split; intros; [unfold generate|unfold get_best, saved]; rewrite H; auto. Qed.
(** Keeping earlier results, the list need not improve, and its last element need not be the best. *)
Theorem C53_restart_refuted : exists r1 r2 g1 g2 a b, generate snd fresh 3 [(tr 0 9, r1)] true (Some 2) = Some g1 /\ generate snd g1 3 [(tr 0 9, r2)] false (Some 2) = Some g2 /\
  saved g2 = Some [a; b] /\ (snd a < snd b)%Qc.
Proof. exists [tr 1 3], [tr 2 5]. do 2 eexists. exists (tr 1 3), (tr 2 5). split; [vm_compute; reflexivity|]. split; [vm_compute; reflexivity|]. split; [vm_compute; reflexivity|]. reflexivity. Qed.
(** Keeping earlier results, saving raises after the search is done if all of them do not fit in the rows added for one run. *)
Theorem C53_rows_refuted : exists r1 r2 g1, generate snd fresh 3 [(tr 0 9, r1)] true (Some 2) = Some g1 /\ generate snd g1 3 [(tr 0 9, r2)] false (Some 2) = None.
Proof. exists [tr 1 3; tr 2 2], [tr 3 1]. eexists. split; [vm_compute; reflexivity|]. vm_compute. reflexivity. Qed.
(** Removal of duplicates returns the same structure twice. *)
Theorem C53_duplicates_refuted : exists r1 r2 g1 g2 s, generate snd fresh 3 [(tr 0 9, r1)] true (Some 2) = Some g1 /\ generate snd g1 3 [(tr 0 9, r2)] false (Some 2) = Some g2 /\
  get_best snd fst Nat.eqb Nat.eqb None g2 2 true = Some [s; s].
Proof. exists [tr 1 3], [tr 1 3]. do 2 eexists. exists (tr 1 3). split; [vm_compute; reflexivity|]. split; [vm_compute; reflexivity|]. vm_compute. reflexivity. Qed.
(** Several temperatures and no steps: raises. *)
Theorem C53_steps_refuted : forall (T : Type) (score : T -> Qc) g t1 t2 runs clear ms, generate score g 0 ((t1, []) :: (t2, []) :: runs) clear ms = None.
Proof. intros. unfold generate. cbn [snd]. destruct clear; auto. cbn [option_bind]. destruct (g_deque g); auto. Qed.

(** A run over two temperatures: of 5, 7, 4, 4, 6, 2 the candidates 5, 4, 2 improve, and the last two are kept. *)
Example C53_case : exists g', generate snd fresh 3 [(tr 0 9, [tr 1 5; tr 2 7; tr 3 4]); (tr 3 4, [tr 3 4; tr 4 6; tr 5 2])] true (Some 2) = Some g' /\
  saved g' = Some [tr 3 4; tr 5 2] /\ holds (g_samples g') [[tr 3 4]; [tr 5 2]] 2 /\
  get_best snd fst Nat.eqb Nat.eqb None g' 2 true = Some [tr 5 2; tr 3 4] /\ get_best snd fst Nat.eqb Nat.eqb None g' 1 true = Some [tr 5 2] /\
  runs_ok [(tr 0 9, [tr 1 5; tr 2 7; tr 3 4]); (tr 3 4, [tr 3 4; tr 4 6; tr 5 2])] /\ limit (Some 2) 3 2 /\ limit None 345 3.
Proof.
  eexists. split; [vm_compute; reflexivity|]. split; [vm_compute; reflexivity|]. split; [vm_compute; auto|]. split; [vm_compute; reflexivity|]. split; [vm_compute; reflexivity|]. split; [left; discriminate|]. split; [reflexivity|cbn; lia].
Qed.
(** Scores determined by the structures, of which 2 matches 3 and 4 matches 5. *)
Example C53_distinct_case : let score (t : nat) := Qc_of_Z (Z.of_nat t) in exists g', generate score (mkG [] None (empty_container _)) 4 [(9, [5; 4; 3; 2])] true (Some 4) = Some g' /\
  get_best score (fun t => t) (fun a b => a / 2 =? b / 2) Nat.eqb None g' 4 true = Some [(2, score 2); (4, score 4)].
Proof. eexists. split; vm_compute; reflexivity. Qed.
Print Assumptions C53_run.
Print Assumptions C53_improving.
Print Assumptions C53_continue_partial.
Print Assumptions C53_best.
Print Assumptions C53_distinct_partial.
Print Assumptions C53_restart_refuted.
