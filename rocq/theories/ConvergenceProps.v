(** C54: judging convergence and finding the number of samples to discard. *)
From Verif Require Import LibProofs RLib.
From Verif Require Export Convergence.
From Coq Require Import Reals Lia Psatz Lra.
Set Implicit Arguments.
Unset Strict Implicit.
Open Scope nat_scope.

(** ** Specification, over the real numbers *)
Definition is_mean (xs : list R) (m : R) : Prop := xs <> [] /\ (m * INR (length xs) = rsum xs)%R.
Definition is_std (xs : list R) (s : R) : Prop := (0 <= s)%R /\ exists m, is_mean xs m /\ (s * s * INR (length xs) = rsum (map (fun x => (x - m) * (x - m)) xs))%R.
(** [w]: the number of running means that are looked at. *)
Definition judged (xs : list R) (conv_tol : option R) (min_std : R) (w : nat) : Prop :=
  exists m s, is_mean xs m /\ is_std xs s /\
    ((s < min_std)%R \/
     let tol := match conv_tol with Some c => c | None => s end in
     (forall x, nth_error xs (length xs - 1) = Some x -> (m - tol < x < m + tol)%R) /\
     (forall k r, length xs < k + w -> k < length xs -> is_mean (firstn (S k) xs) r -> (m - tol < r < m + tol)%R)).
(** A tenth of the samples unless another possible number is given; all of them if that number is 0. *)
Definition looked_at (last_m : option nat) (n w : nat) : Prop :=
  exists m, match last_m with Some k => (k <= n /\ m = k) \/ (n < k /\ m * 10 <= n < (m + 1) * 10) | None => m * 10 <= n < (m + 1) * 10 end /\
            w = (if m =? 0 then n + 1 else m + 1).

Lemma Qc2R_sum l : Qc2R (qsum l) = rsum (map Qc2R l).
Proof. induction l as [|x l IH]; cbn [qsum map rsum]; [apply Qc2R_0|rewrite Qc2R_plus, IH; auto]. Qed.
Lemma nat_nz n : n <> 0 -> Qc_of_nat n <> 0%Qc.
Proof. intros H C. apply (f_equal Qc2R) in C. rewrite Qc2R_of_nat, Qc2R_0 in C. apply H. apply INR_eq. exact C. Qed.
Lemma mean_is xs : xs <> [] -> is_mean (map Qc2R xs) (Qc2R (mean xs)).
Proof.
  intros H. split; [destruct xs; [congruence|discriminate]|]. assert (L : length xs <> 0) by (destruct xs; [congruence|simpl; lia]). unfold mean. rewrite map_length, Qc2R_div, Qc2R_of_nat, Qc2R_sum by (apply nat_nz; auto). field. apply not_0_INR. auto.
Qed.
Lemma mean_unique xs a b : is_mean xs a -> is_mean xs b -> a = b.
Proof. intros (H & A) (_ & B). assert (L : length xs <> 0) by (destruct xs; [congruence|simpl; lia]). apply not_0_INR in L. apply Rmult_eq_reg_r with (INR (length xs)); auto. congruence. Qed.
Lemma variance_is xs : xs <> [] -> (Qc2R (variance xs) * INR (length xs) = rsum (map (fun x => (x - Qc2R (mean xs)) * (x - Qc2R (mean xs))) (map Qc2R xs)))%R.
Proof.
  intros H. unfold variance. assert (N : map (fun x => ((x - mean xs) * (x - mean xs))%Qc) xs <> []) by (destruct xs; [congruence|discriminate]). destruct (mean_is N) as (_ & E). rewrite !map_length in E. rewrite E. rewrite !map_map. f_equal. apply map_ext. intros x. rewrite Qc2R_mult, !Qc2R_minus. auto.
Qed.
Lemma rsum_nonneg l : (forall x, In x l -> 0 <= x)%R -> (0 <= rsum l)%R.
Proof. induction l as [|x l IH]; intros H; cbn [rsum]; [lra|]. assert (0 <= x)%R by (apply H; left; auto). assert (0 <= rsum l)%R by (apply IH; intros; apply H; right; auto). lra. Qed.
Lemma variance_nonneg xs : xs <> [] -> (0 <= Qc2R (variance xs))%R.
Proof.
  intros H. assert (L : (0 < INR (length xs))%R) by (destruct xs; [congruence|]; apply lt_0_INR; simpl; lia). pose proof (variance_is H) as E. apply Rmult_le_reg_r with (INR (length xs)); auto. rewrite Rmult_0_l, E. apply rsum_nonneg. intros y Hy. apply in_map_iff in Hy. destruct Hy as (x & <- & _). apply Rle_0_sqr.
Qed.
Lemma std_is xs s : xs <> [] -> is_std (map Qc2R xs) s <-> (0 <= s /\ s * s = Qc2R (variance xs))%R.
Proof.
  intros H. assert (L : (0 < INR (length xs))%R) by (destruct xs; [congruence|]; apply lt_0_INR; simpl; lia). pose proof (variance_is H) as E. split.
  - intros (P & m & M & Q). rewrite (mean_unique M (mean_is H)), map_length in Q. split; auto. apply Rmult_eq_reg_r with (INR (length xs)); [|lra]. rewrite Q. auto.
  - intros (P & Q). split; auto. exists (Qc2R (mean xs)). split; [apply mean_is; auto|]. rewrite map_length, Q. auto.
Qed.
Lemma lt_plus x a c : (x < a + c)%Qc <-> (Qc2R x < Qc2R a + Qc2R c)%R.
Proof. rewrite Qc2R_lt, Qc2R_plus. tauto. Qed.
Lemma lt_minus x a c : (a - c < x)%Qc <-> (Qc2R a - Qc2R c < Qc2R x)%R.
Proof. rewrite Qc2R_lt, Qc2R_minus. tauto. Qed.
Lemma close_spec xs tol s x : xs <> [] -> is_std (map Qc2R xs) s ->
  close xs tol x = true <-> let t := match option_map Qc2R tol with Some c => c | None => s end in (Qc2R (mean xs) - t < Qc2R x < Qc2R (mean xs) + t)%R.
Proof.
  intros H S. apply (std_is s H) in S. destruct S as (S1 & S2). destruct tol as [c|]; cbn [close option_map].
  - cbv zeta. destruct (Qcltb_spec x (mean xs + c)) as [A|A], (Qcltb_spec (mean xs - c) x) as [B|B]; rewrite lt_plus in A; rewrite lt_minus in B; cbn [andb]; (split; intros G; [try discriminate; split; lra|try reflexivity; exfalso; lra]).
  - cbv zeta. destruct (Qcltb_spec ((x - mean xs) * (x - mean xs)) (variance xs)) as [A|A]; rewrite Qc2R_lt in A; rewrite Qc2R_mult, Qc2R_minus in A; (split; intros G; [try discriminate; split; nra|try reflexivity; exfalso; apply A; nra]).
Qed.

Lemma window_looked last_m n : exists w, looked_at last_m n w /\ w = (if window last_m n =? 0 then n + 1 else window last_m n + 1).
Proof.
  eexists. split; [|reflexivity]. exists (window last_m n). split; auto. pose proof (Nat.div_mod n 10 ltac:(lia)). pose proof (Nat.mod_upper_bound n 10 ltac:(lia)). unfold window. destruct last_m as [m|]; [destruct (Nat.ltb_spec n m)|]; lia.
Qed.
Lemma looked_unique last_m n a b : looked_at last_m n a -> looked_at last_m n b -> a = b.
Proof. intros (m & A & ->) (k & B & ->). assert (m = k) by (destruct last_m; lia). subst. auto. Qed.
Lemma last_slice_in m a y : m <= length a -> In y (last_slice m a) <-> exists k, nth_error a k = Some y /\ length a < k + (if m =? 0 then length a + 1 else m + 1).
Proof.
  intros L. assert (SK : forall j, In y (skipn j a) <-> exists k, nth_error a k = Some y /\ j <= k).
  { intros j. split.
    - intros H. apply In_nth_error in H. destruct H as (i & Hi). exists (j + i). split; [|lia]. rewrite <- Hi. clear. revert a. induction j as [|j IH]; intros a; auto. destruct a; [destruct i; auto|]. cbn [Nat.add nth_error skipn]. apply IH.
    - intros (k & Hk & G). apply nth_error_In with (k - j). rewrite <- Hk. replace k with (j + (k - j)) at 2 by lia. generalize (k - j). clear. intros i. revert a. induction j as [|j IH]; intros a; auto. destruct a; [destruct i; auto|]. cbn [Nat.add nth_error skipn]. apply IH. }
  unfold last_slice. destruct m as [|m]; cbn [Nat.eqb].
  - rewrite (SK 0 : In y a <-> _). split; intros (k & A & B); exists k; split; auto; lia.
  - rewrite SK. split; intros (k & A & B); exists k; split; auto; lia.
Qed.
(** The verdict is the stated one, with real means and standard deviations; only an empty array raises. *)
Theorem C54_judged xs tol min_std last_m w : looked_at last_m (length xs) w ->
  match check_converged xs tol min_std last_m with
  | Some b => xs <> [] /\ (b = true <-> judged (map Qc2R xs) (option_map Qc2R tol) (Qc2R min_std) w)
  | None => xs = []
  end.
Proof.
  intros LW. destruct (window_looked last_m (length xs)) as (w' & LW' & EW). rewrite <- (looked_unique LW LW') in EW. clear w' LW' LW.
  unfold check_converged. destruct (rev xs) as [|lst q] eqn:ER; [apply (f_equal (@rev Qc)) in ER; rewrite rev_involutive in ER; auto|].
  assert (EX : xs = rev q ++ [lst]) by (rewrite <- (rev_involutive xs), ER; auto). assert (N : xs <> []) by (rewrite EX; intros C; apply app_eq_nil in C; destruct C; discriminate).
  set (s := sqrt (Qc2R (variance xs))). pose proof (variance_nonneg N) as VN. assert (SS : (s * s = Qc2R (variance xs))%R) by (apply sqrt_sqrt; auto). assert (S0 : (0 <= s)%R) by apply sqrt_pos. assert (ST : is_std (map Qc2R xs) s) by (apply std_is; auto).
  assert (SU : forall s', is_std (map Qc2R xs) s' -> s' = s) by (intros s' H; apply std_is in H; auto; destruct H; nra).
  assert (LV : nth_error xs (length xs - 1) = Some lst). { rewrite EX, app_length. simpl length. rewrite nth_error_app2 by lia. replace (length (rev q) + 1 - 1 - length (rev q)) with 0 by lia. auto. }
  assert (SM : Qcltb 0 min_std && Qcltb (variance xs) (min_std * min_std) = true <-> (s < Qc2R min_std)%R).
  { destruct (Qcltb_spec 0 min_std) as [A|A], (Qcltb_spec (variance xs) (min_std * min_std)) as [B|B]; rewrite Qc2R_lt in A, B; rewrite Qc2R_0 in A; rewrite Qc2R_mult in B; cbn [andb]; (split; intros G; [try discriminate; nra|try reflexivity; exfalso; first [apply B; nra|apply A; nra]]). }
  assert (CM : forall k, k < length xs -> nth_error (cumulative_means xs) k = Some (mean (firstn (S k) xs))). { intros k Hk. unfold cumulative_means. rewrite nth_error_map, (nth_error_nth' _ 0) by (rewrite seq_length; auto). rewrite seq_nth by auto. auto. }
  assert (CL : length (cumulative_means xs) = length xs) by (unfold cumulative_means; rewrite map_length, seq_length; auto).
  assert (FN : forall k, firstn (S k) xs <> []) by (intros k; destruct xs; [congruence|discriminate]).
  assert (WB : window last_m (length xs) <= length xs). { unfold window. pose proof (Nat.div_le_upper_bound (length xs) 10 (length xs) ltac:(lia) ltac:(lia)). destruct last_m as [m|]; auto. destruct (Nat.ltb_spec (length xs) m); lia. }
  destruct (Qcltb 0 min_std && Qcltb (variance xs) (min_std * min_std)) eqn:ES.
  - split; auto. split; auto. intros _. exists (Qc2R (mean xs)), s. split; [apply mean_is; auto|]. split; auto. left. apply SM. auto.
  - split; auto. rewrite andb_true_iff, forallb_forall. split.
    + intros (A & B). exists (Qc2R (mean xs)), s. split; [apply mean_is; auto|]. split; auto. right. rewrite map_length. cbn zeta. split.
      * intros x Hx. rewrite nth_error_map, LV in Hx. cbn in Hx. injection Hx as <-. apply (close_spec tol lst N ST). auto.
      * intros k r K1 K2 M. rewrite firstn_map in M. rewrite (mean_unique M (mean_is (FN k))). apply (close_spec tol _ N ST). apply B. apply last_slice_in; [rewrite CL; auto|]. exists k. rewrite CL. split; [apply CM; auto|]. rewrite <- EW. auto.
    + intros (m & s' & M & S' & D). rewrite (SU s' S') in D. rewrite (mean_unique M (mean_is N)) in D. destruct D as [D | (D1 & D2)]; [apply SM in D; congruence|]. split.
      * apply (close_spec tol lst N ST). apply D1. rewrite map_length, nth_error_map, LV. auto.
      * intros y Hy. apply last_slice_in in Hy; [|rewrite CL; auto]. destruct Hy as (k & K1 & K2). rewrite CL, <- EW in K2. assert (K3 : k < length xs) by (rewrite <- CL; apply nth_error_Some; congruence). rewrite (CM k K3) in K1. injection K1 as <-. apply (close_spec tol _ N ST). apply (D2 k); rewrite ?map_length; auto. rewrite firstn_map. apply mean_is, FN.
Qed.

(** ** Invariances *)
Lemma const_sum c n : qsum (repeat c n) = (c * Qc_of_nat n)%Qc.
Proof. apply Qc2R_inj. rewrite Qc2R_sum, Qc2R_mult, Qc2R_of_nat. induction n as [|n IH]; [simpl; lra|]. rewrite S_INR. cbn [repeat map rsum]. rewrite IH. lra. Qed.
(** Samples that are all the same are judged converged. *)
Theorem C54_constant c n tol min_std last_m : (0 < min_std)%Qc -> check_converged (repeat c (S n)) tol min_std last_m = Some true.
Proof.
  intros H. assert (M : mean (repeat c (S n)) = c). { unfold mean. rewrite repeat_length, const_sum. field. apply nat_nz. lia. }
  assert (V : variance (repeat c (S n)) = 0%Qc). { unfold variance. rewrite M. replace (map _ _) with (repeat 0%Qc (S n)); [unfold mean; rewrite repeat_length, const_sum; field; apply nat_nz; lia|]. generalize (S n). intros k. induction k as [|k IH]; auto. cbn [repeat map]. rewrite <- IH. f_equal. ring. }
  unfold check_converged. rewrite V. destruct (rev (repeat c (S n))) eqn:ER; [apply (f_equal (@length Qc)) in ER; rewrite rev_length, repeat_length in ER; discriminate|].
  destruct (Qcltb_spec 0 min_std) as [|C]; [|contradiction]. destruct (Qcltb_spec 0 (min_std * min_std)) as [|C]; auto. exfalso. apply C. rewrite Qc2R_lt in *. rewrite Qc2R_mult, Qc2R_0 in *. nra.
Qed.
(** The verdict does not depend on the zero of the property. *)
Theorem C54_shift c xs tol min_std last_m : check_converged (map (fun x => x + c)%Qc xs) tol min_std last_m = check_converged xs tol min_std last_m.
Proof.
  assert (SM : forall l, qsum (map (fun x => x + c)%Qc l) = (qsum l + c * Qc_of_nat (length l))%Qc).
  { intros l. apply Qc2R_inj. rewrite Qc2R_plus, Qc2R_mult, Qc2R_of_nat, !Qc2R_sum. induction l as [|x l IH]; [simpl; lra|]. change (length (x :: l)) with (S (length l)). rewrite S_INR. cbn [map rsum]. rewrite IH, Qc2R_plus. lra. }
  assert (M : forall l, l <> [] -> mean (map (fun x => x + c)%Qc l) = (mean l + c)%Qc). { intros l N. unfold mean. rewrite map_length, SM. field. apply nat_nz. destruct l; [congruence|simpl; lia]. }
  unfold check_converged. rewrite <- map_rev. destruct (rev xs) as [|y q] eqn:ER; auto. cbn [map].
  assert (N : xs <> []) by (intros ->; discriminate).
  assert (V : variance (map (fun x => x + c)%Qc xs) = variance xs). { unfold variance. rewrite M, map_map by auto. f_equal. apply map_ext. intros x. ring. }
  assert (C : forall x, close (map (fun x => x + c)%Qc xs) tol (x + c) = close xs tol x).
  { intros x. unfold close. rewrite V, M by auto. destruct tol as [t|].
    - f_equal; [destruct (Qcltb_spec (x + c) (mean xs + c + t)), (Qcltb_spec x (mean xs + t))|destruct (Qcltb_spec (mean xs + c - t) (x + c)), (Qcltb_spec (mean xs - t) x)]; auto; exfalso; rewrite Qc2R_lt in *; rewrite ?Qc2R_minus, ?Qc2R_plus, ?Qc2R_opp in *; lra.
    - replace (x + c - (mean xs + c))%Qc with (x - mean xs)%Qc by ring. auto. }
  rewrite V, C, map_length. destruct (_ && _); auto. do 2 f_equal.
  assert (CU : cumulative_means (map (fun x => x + c)%Qc xs) = map (fun x => x + c)%Qc (cumulative_means xs)). { unfold cumulative_means. rewrite map_length, map_map. apply map_ext. intros k. rewrite firstn_map. apply M. destruct xs; [congruence|discriminate]. }
  rewrite CU. assert (LS : forall m l, last_slice m (map (fun x => x + c)%Qc l) = map (fun x => x + c)%Qc (last_slice m l)) by (intros [|m] l; cbn [last_slice]; auto; rewrite map_length, skipn_map; auto).
  rewrite LS. generalize (last_slice (window last_m (length xs)) (cumulative_means xs)). intros l. induction l as [|x l IH]; auto. cbn [map forallb]. rewrite C, IH. auto.
Qed.
(** A wider tolerance never turns the verdict. *)
Theorem C54_tolerance xs a b min_std last_m : (a <= b)%Qc -> check_converged xs (Some a) min_std last_m = Some true -> check_converged xs (Some b) min_std last_m = Some true.
Proof.
  intros L. unfold check_converged. destruct (rev xs) as [|y q]; auto. destruct (_ && _); auto. intros H. f_equal. apply (f_equal (fun o => match o with Some x => x | None => false end)) in H. rewrite andb_true_iff in *.
  assert (C : forall x, close xs (Some a) x = true -> close xs (Some b) x = true).
  { intros x. cbn [close]. rewrite !andb_true_iff. rewrite Qc2R_le in L. intros (A & B). destruct (Qcltb_spec x (mean xs + a)) as [A1|]; [|discriminate]. destruct (Qcltb_spec (mean xs - a) x) as [B1|]; [|discriminate]. split; [destruct (Qcltb_spec x (mean xs + b)) as [|E]|destruct (Qcltb_spec (mean xs - b) x) as [|E]]; auto; exfalso; apply E; rewrite Qc2R_lt in *; rewrite ?Qc2R_minus, ?Qc2R_plus, ?Qc2R_opp in *; lra. }
  destruct H as (H1 & H2). split; auto. rewrite forallb_forall in *. auto.
Qed.

(** ** The number of samples to discard *)
(** The [i]-th candidate: the whole part of [init + i * (n - init) / increment]. *)
Definition candidate (init n increment i d : nat) : Prop := S i < increment /\ init <= d /\ (d - init) * increment <= i * (n - init) < (d - init + 1) * increment.
Definition starts (init_discard : option nat) (n init : nat) : Prop :=
  match init_discard with Some k => (k <= n /\ init = k) \/ (n < k /\ init * 10 <= n < (init + 1) * 10) | None => init * 10 <= n < (init + 1) * 10 end.
(** Judged converged with the default parameters. *)
Definition settled (xs : list Qc) : Prop := exists w, looked_at None (length xs) w /\ judged (map Qc2R xs) None (Qc2R (Qc_frac 1 10000)) w.
Lemma settled_spec xs : match check_default xs with Some b => xs <> [] /\ (b = true <-> settled xs) | None => xs = [] end.
Proof.
  destruct (window_looked None (length xs)) as (w & LW & _). pose proof (@C54_judged xs None (Qc_frac 1 10000) None w LW) as H. unfold check_default. destruct (check_converged xs None (Qc_frac 1 10000) None) as [b|]; auto. destruct H as (N & H). split; auto. rewrite H. cbn [option_map]. split; [intros J; exists w; auto|intros (w' & L' & J); rewrite (looked_unique LW L'); auto].
Qed.
Lemma starts_initial i n : starts i n (initial i n).
Proof. pose proof (Nat.div_mod n 10 ltac:(lia)). pose proof (Nat.mod_upper_bound n 10 ltac:(lia)). unfold starts, initial. destruct i as [m|]; [destruct (Nat.ltb_spec n m)|]; lia. Qed.
Lemma starts_unique i n a b : starts i n a -> starts i n b -> a = b.
Proof. unfold starts. destruct i; lia. Qed.
Lemma candidate_value init n inc i : S i < inc -> candidate init n inc i (init + i * (n - init) / inc).
Proof.
  intros H. pose proof (Nat.div_mod (i * (n - init)) inc ltac:(lia)). pose proof (Nat.mod_upper_bound (i * (n - init)) inc ltac:(lia)). split; auto. split; [lia|]. replace (init + i * (n - init) / inc - init) with (i * (n - init) / inc) by lia. nia.
Qed.
Lemma candidate_unique init n inc i a b : candidate init n inc i a -> candidate init n inc i b -> a = b.
Proof. intros (A1 & A2 & A3) (B1 & B2 & B3). assert (a - init = b - init); [|lia]. nia. Qed.
Lemma candidate_small init n inc i d : init < n -> candidate init n inc i d -> d < n.
Proof. intros H (A & B & C). assert (d - init < n - init); [|lia]. nia. Qed.
(** The result is the first candidate that leaves converged samples, or 0 if there is none; the candidates leave some samples.
    It raises exactly for an increment of 0 and if the search starts with nothing left. *)
Theorem C54_first xs init_discard increment init : starts init_discard (length xs) init ->
  match determine_discard xs init_discard increment with
  | Some d => 0 < increment /\ init < length xs /\
      ((exists i, candidate init (length xs) increment i d /\ d < length xs /\ settled (skipn d xs) /\
          forall j e, j < i -> candidate init (length xs) increment j e -> ~ settled (skipn e xs)) \/
       (d = 0 /\ forall j e, candidate init (length xs) increment j e -> ~ settled (skipn e xs)))
  | None => increment = 0 \/ init = length xs
  end.
Proof.
  intros HS. pose proof (starts_unique HS (starts_initial init_discard (length xs))) as EI. unfold determine_discard. rewrite <- EI. clear EI. assert (LI : init <= length xs) by (unfold starts in HS; destruct init_discard; lia).
  destruct (Nat.eqb_spec increment 0) as [|I0]; cbn [orb]; [auto|]. destruct (Nat.leb_spec (length xs) init) as [L|L]; [right; lia|]. set (n := length xs) in *. unfold discard_values.
  assert (G : forall m a, a + m = increment - 1 -> (forall j e, j < a -> candidate init n increment j e -> ~ settled (skipn e xs)) ->
    exists d, search xs (map (fun i => init + i * (n - init) / increment) (seq a m)) = Some d /\
      ((exists i, candidate init n increment i d /\ d < n /\ settled (skipn d xs) /\ forall j e, j < i -> candidate init n increment j e -> ~ settled (skipn e xs)) \/
       (d = 0 /\ forall j e, candidate init n increment j e -> ~ settled (skipn e xs)))).
  { induction m as [|m IH]; intros a E P; cbn [seq map search].
    - exists 0. split; auto. right. split; auto. intros j e C. apply (P j e); auto. destruct C. lia.
    - assert (CV : candidate init n increment a (init + a * (n - init) / increment)) by (apply candidate_value; lia). set (d := init + a * (n - init) / increment) in *. pose proof (candidate_small L CV) as LD. pose proof (settled_spec (skipn d xs)) as SP. destruct (check_default (skipn d xs)) as [b|].
      + cbn [option_bind]. destruct SP as (_ & SP). destruct b.
        * exists d. split; auto. left. exists a. split; auto. split; auto. split; auto. apply SP. auto.
        * apply IH; [lia|]. intros j e Hj C. destruct (Nat.eq_dec j a) as [-> | Nj]; [|apply (P j e); auto; lia]. rewrite (candidate_unique C CV). intros SE. apply SP in SE. discriminate.
      + exfalso. apply (f_equal (@length Qc)) in SP. rewrite skipn_length in SP. simpl in SP. unfold n in *. lia. }
  destruct (G (increment - 1) 0 eq_refl) as (d & E & D); [intros; lia|]. rewrite E. split; [lia|]. split; auto.
Qed.

(** ** What fails *)
Definition zs (l : list Z) : list Qc := map Qc_of_Z l.
(** A result of 0 does not mean that the samples are converged. *)
Theorem C54_zero_refuted : exists xs, determine_discard xs None 10 = Some 0 /\ ~ settled (skipn 0 xs).
Proof.
  exists (zs [0;1;2;3;4;5;6;7;8;9;10;11;12;13;14;15;16;17;18;19])%Z. split; [vm_compute; reflexivity|]. cbn [skipn]. intros C. pose proof (settled_spec (zs [0;1;2;3;4;5;6;7;8;9;10;11;12;13;14;15;16;17;18;19])%Z) as H. destruct (check_default _) as [b|] eqn:E; [|discriminate]. destruct H as (_ & H). apply H in C. subst b. vm_compute in E. discriminate.
Qed.
(** The result is not the smallest number that leaves converged samples, as the documentation says. *)
Theorem C54_smallest_refuted : exists xs d, determine_discard xs None 10 = Some (S d) /\ settled (skipn 0 xs).
Proof.
  exists (zs [0;1;0;1;0;1;0;1;0;1;0;1;0;1;0;1;0;1;0;0;1;1;0;1;0])%Z. eexists. split; [vm_compute; reflexivity|]. cbn [skipn]. pose proof (settled_spec (zs [0;1;0;1;0;1;0;1;0;1;0;1;0;1;0;1;0;1;0;0;1;1;0;1;0])%Z) as H. destruct (check_default _) as [b|] eqn:E; [|discriminate]. destruct H as (_ & H). apply H. vm_compute in E. congruence.
Qed.
(** Twenty samples that rise to 14: the candidates are 2, 3, 5, 7, ..., and 5 is the first one that leaves converged samples. *)
Example C54_case : determine_discard (zs [0;1;2;3;4;5;6;7;8;9;10;11;12;13;14;14;14;14;14;14])%Z None 10 = Some 5 /\
  starts None 20 2 /\ candidate 2 20 10 1 3 /\ candidate 2 20 10 2 5 /\ looked_at None 20 3 /\ looked_at None 9 10 /\
  check_converged (zs [1;2;1;2;1;2;1;3;1;2])%Z (Some 1%Qc) (Qc_frac 1 10000) (Some 3) = Some true.
Proof.
  split; [vm_compute; reflexivity|]. split; [cbn; lia|]. split; [split; lia|]. split; [split; lia|]. split; [exists 2; cbn; lia|]. split; [exists 0; cbn; lia|]. vm_compute. reflexivity.
Qed.
Print Assumptions C54_judged.
Print Assumptions C54_constant.
Print Assumptions C54_shift.
Print Assumptions C54_tolerance.
Print Assumptions C54_first.
Print Assumptions C54_smallest_refuted.
