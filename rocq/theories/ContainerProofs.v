From Verif Require Export ContainerSpec LibProofs.
Set Implicit Arguments.
Unset Strict Implicit.
Open Scope nat_scope.

Lemma upd_middle {A} (l r : list A) x y : upd (l ++ x :: r) (length l) y = l ++ y :: r.
Proof. induction l as [|a l IH]; simpl; auto. rewrite IH; auto. Qed.

Lemma nth_nil {A} k : nth_error (@nil A) k = None.
Proof. destruct k; auto. Qed.

Lemma every_nth {A} step : 0 < step -> forall (l : list A) wait k,
  nth_error (every step wait l) k = nth_error l (wait + k * step).
Proof.
  intros Hs. induction l as [|x l IH]; intros wait k; simpl.
  - rewrite !nth_nil. auto.
  - destruct wait as [|w]; simpl.
    + destruct k as [|k]; simpl; auto. rewrite IH.
      replace (step + k * step) with (S (step - 1 + k * step)) by lia. auto.
    + rewrite IH. auto.
Qed.

Lemma every_length {A} step : 0 < step -> forall (l : list A) wait,
  length (every step wait l) = (length l + step - 1 - wait) / step.
Proof.
  intros Hs. induction l as [|x l IH]; intros wait; cbn [every length].
  - symmetry. apply Nat.div_small. lia.
  - destruct wait as [|w]; cbn [length].
    + rewrite IH. replace (S (length l) + step - 1 - 0) with (length l + 1 * step) by lia.
      rewrite Nat.div_add by lia. replace (length l + step - 1 - (step - 1)) with (length l) by lia. lia.
    + rewrite IH. f_equal. lia.
Qed.

Lemma nth_error_skipn' {A} s (l : list A) k : nth_error (skipn s l) k = nth_error l (s + k).
Proof.
  revert l. induction s as [|s IH]; intros l; simpl; auto.
  destruct l; simpl; auto. apply nth_nil.
Qed.

Lemma pyslice_nth {A} start step (l : list A) k : 0 < step ->
  nth_error (pyslice start step l) k = nth_error l (start + k * step).
Proof. intros H. unfold pyslice. rewrite every_nth by auto. rewrite nth_error_skipn'. f_equal. Qed.

Lemma pyslice_map {A B} (f : A -> B) start step l : pyslice start step (map f l) = map f (pyslice start step l).
Proof.
  unfold pyslice. rewrite skipn_map. generalize 0 (skipn start l).
  intros w m. revert w. induction m as [|x m IH]; intros w; simpl; auto.
  destruct w; simpl; rewrite IH; auto.
Qed.

Lemma opt_map_some {A} (l : list A) : opt_map (fun r => r) (map Some l) = Some l.
Proof. induction l as [|x l IH]; simpl; auto. rewrite IH. auto. Qed.

Lemma repeat_S' {A} (x : A) k : repeat x k ++ [x] = repeat x (S k).
Proof. symmetry. apply repeat_cons. Qed.

(** argmin *)
Lemma argmin_from_spec (pre l : list Qc) best bv :
  nth_error pre best = Some bv -> (forall y, In y pre -> (bv <= y)%Qc) ->
  (forall j y, j < best -> nth_error pre j = Some y -> (bv < y)%Qc) ->
  exists v, nth_error (pre ++ l) (argmin_from (length pre) best bv l) = Some v /\
    (forall y, In y (pre ++ l) -> (v <= y)%Qc) /\
    (forall j y, j < argmin_from (length pre) best bv l -> nth_error (pre ++ l) j = Some y -> (v < y)%Qc).
Proof.
  revert pre best bv. induction l as [|x l IH]; intros pre best bv Hb Hle Hlt; simpl.
  - rewrite app_nil_r. eauto.
  - destruct (Qcltb_spec x bv) as [E|E].
    +      specialize (IH (pre ++ [x]) (length pre) x).
      rewrite app_length in IH. simpl in IH. rewrite Nat.add_1_r in IH.
      rewrite <- app_assoc in IH. simpl in IH. apply IH.
      * rewrite nth_error_app2, Nat.sub_diag by lia. auto.
      * intros y Hy. apply in_app_or in Hy as [Hy|[<-|[]]]; [|apply Qcle_refl].
        apply Qclt_le_weak. eapply Qclt_le_trans; eauto.
      * intros j y Hj Hy. rewrite nth_error_app1 in Hy by auto.
        eapply Qclt_le_trans; eauto. apply Hle. eapply nth_error_In; eauto.
    + assert (Hx : (bv <= x)%Qc) by (apply Qcnot_lt_le; auto).
      assert (Hbl : best < length pre) by (apply nth_error_Some; congruence).
      specialize (IH (pre ++ [x]) best bv).
      rewrite app_length in IH. simpl in IH. rewrite Nat.add_1_r in IH.
      rewrite <- app_assoc in IH. simpl in IH. apply IH.
      * rewrite nth_error_app1 by lia. auto.
      * intros y Hy. apply in_app_or in Hy as [Hy|[<-|[]]]; auto.
      * intros j y Hj Hy. rewrite nth_error_app1 in Hy by lia. eauto.
Qed.

Lemma argmin_spec l i : argmin l = Some i ->
  exists v, nth_error l i = Some v /\ (forall y, In y l -> (v <= y)%Qc) /\
    (forall j y, j < i -> nth_error l j = Some y -> (v < y)%Qc).
Proof.
  destruct l as [|x l]; simpl; intros H; [discriminate|]. assert (E := H). clear H.
  assert (Sinj: forall a b : nat, Some a = Some b -> a = b) by (intros; congruence). apply Sinj in E. subst i.
  apply (@argmin_from_spec [x] l 0 x); auto.
  - intros y [<-|[]]. apply Qcle_refl.
  - intros j y Hj. lia.
Qed.

Section C.
Variable W : Type.
Implicit Types (c : container W) (xs ys : list (sample W)).

(** A container in use: [xs] written, [k] rows free. *)
Definition filled c xs k steps := c_rows c = map Some xs ++ repeat None k /\ c_n c = length xs /\ c_steps c = steps.

Lemma filled_holds c xs steps : filled c xs 0 steps <-> holds c xs steps.
Proof. unfold filled, holds. simpl. rewrite app_nil_r. tauto. Qed.

Lemma filled_empty : filled (empty_container W) [] 0 0.
Proof. repeat split. Qed.

Lemma filled_allocate c xs k steps j : filled c xs k steps -> filled (allocate c j) xs (k + j) steps.
Proof.
  intros (A & B & C). repeat split; auto. simpl. rewrite A, repeat_app, app_assoc. auto.
Qed.

Lemma filled_save c xs k steps x th : filled c xs (S k) steps ->
  exists c', save_sample c x th = Some c' /\ filled c' (xs ++ [x]) k (steps + th).
Proof.
  intros (A & B & C). unfold save_sample.
  assert (E : c_n c <? length (c_rows c) = true).
  { apply Nat.ltb_lt. rewrite A, B, app_length, map_length, repeat_length. lia. }
  rewrite E. eexists; split; [reflexivity|]. repeat split; simpl.
  - rewrite A, B. rewrite <- (map_length Some xs). simpl. rewrite upd_middle.
    rewrite map_app, <- app_assoc. auto.
  - rewrite B, app_length. simpl. lia.
  - rewrite C. auto.
Qed.

Lemma filled_vacuum c xs k steps : filled c xs k steps -> holds (vacuum c) xs steps.
Proof.
  intros (A & B & C). repeat split; simpl; auto.
  rewrite A, B. rewrite <- (map_length Some xs), firstn_app, firstn_all, Nat.sub_diag. simpl. apply app_nil_r.
Qed.

(** Files. *)
Definition file_filled (b : backend W) xs k steps :=
  b_rows b = map Some xs ++ k /\ b_n b = length xs /\ b_steps b = steps.

Lemma file_filled_holds b xs k steps : file_filled b xs k steps -> file_holds b xs steps.
Proof.
  intros (A & B & C). repeat split; auto.
  rewrite A, B. rewrite <- (map_length Some xs), firstn_app, firstn_all, Nat.sub_diag. simpl. apply app_nil_r.
Qed.
Lemma file_holds_filled b xs steps : file_holds b xs steps -> file_filled b xs (skipn (b_n b) (b_rows b)) steps.
Proof. intros (A & B & C). repeat split; auto. rewrite <- A. symmetry. apply firstn_skipn. Qed.

Lemma get_backend_spec file xs steps alloc :
  match file with None => xs = [] /\ steps = 0 | Some b => file_holds b xs steps end ->
  exists k, file_filled (get_backend file alloc) xs k steps /\ alloc <= length k.
Proof.
  destruct file as [b|]; simpl.
  - intros H. apply file_holds_filled in H. destruct H as (A & B & C).
    set (k := skipn (b_n b) (b_rows b)) in *.
    destruct (_ <? alloc) eqn:E.
    + apply Nat.ltb_lt in E. exists (k ++ repeat None (alloc - (length (b_rows b) - b_n b))).
      split; [split|].
      * simpl. rewrite A at 1. rewrite <- app_assoc. auto.
      * simpl. auto.
      * rewrite app_length, repeat_length. unfold k. rewrite skipn_length. lia.
    + apply Nat.ltb_ge in E. exists k. split; [repeat split; auto|].
      unfold k. rewrite skipn_length. lia.
  - intros [-> ->]. exists (repeat None alloc). rewrite repeat_length. repeat split; auto.
Qed.

Lemma flush_spec c b xs ys k s1 s2 :
  holds c ys s2 -> file_filled b xs k s1 -> length ys <= length k ->
  exists b', flush c b = Some (mkC (c_rows c) 0 0, b') /\
    file_filled b' (xs ++ ys) (skipn (length ys) k) (s1 + s2).
Proof.
  intros (A & B & C) (A' & B' & C') Hk. unfold flush, write_rows.
  assert (Hl : length (b_rows b) = length xs + length k) by (rewrite A', app_length, map_length; auto).
  rewrite B, B'. rewrite Nat.min_l by lia.
  replace (length ys + length xs - length xs) with (length ys) by lia.
  destruct (length ys =? 0) eqn:E.
  - apply Nat.eqb_eq in E. destruct ys; [|discriminate]. simpl.
    eexists; split; [reflexivity|]. repeat split; simpl.
    + rewrite A', app_nil_r. auto.
    + rewrite app_nil_r. lia.
    + lia.
  - rewrite A, map_length, Nat.eqb_refl. simpl. eexists; split; [reflexivity|].
    repeat split; simpl.
    + rewrite A'. rewrite map_app, <- app_assoc. f_equal; [|f_equal].
      * rewrite <- (map_length Some xs), firstn_app, firstn_all, Nat.sub_diag. simpl. apply app_nil_r.
      * rewrite skipn_app, map_length, skipn_all2 by (rewrite map_length; lia). simpl. f_equal. lia.
    + rewrite app_length. lia.
    + lia.
Qed.
End C.
