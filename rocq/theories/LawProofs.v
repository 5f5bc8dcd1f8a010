(** Equality of the distributions of random programs. *)
From Verif Require Import ProbProofs.
Set Implicit Arguments.
Local Open Scope nat_scope.

Definition same {X} (m m' : prog X) : Prop := forall P, prob m P = prob m' P.
Lemma same_bind_in {X Y} (m : prog X) (f g : X -> prog Y) : (forall x, outcome m x -> same (f x) (g x)) -> same (pbind m f) (pbind m g).
Proof.
  intros H P. rewrite !prob_bind. apply qsum_map_ext. intros [w [x|]] Hx; cbn; auto. rewrite (H x (ex_intro _ w Hx) P). reflexivity.
Qed.
Lemma same_bind {X Y} (m : prog X) (f g : X -> prog Y) : (forall x, same (f x) (g x)) -> same (pbind m f) (pbind m g).
Proof. intros H. apply same_bind_in. auto. Qed.
Lemma pbind_some {X Y} w x (m : prog X) (f : X -> prog Y) :
  pbind ((w, Some x) :: m) f = map (fun q => ((w * fst q)%Qc, snd q)) (f x) ++ pbind m f.
Proof. reflexivity. Qed.
Lemma pbind_none {X Y} w (m : prog X) (f : X -> prog Y) : pbind ((w, None) :: m) f = (w, None) :: pbind m f.
Proof. reflexivity. Qed.
Lemma pbind_app {X Y} (a b : prog X) (f : X -> prog Y) : pbind (a ++ b) f = pbind a f ++ pbind b f.
Proof. unfold pbind. apply flat_map_app. Qed.
Lemma prob_none {X} w (m : prog X) P : prob ((w, None) :: m) P = prob m P.
Proof. unfold prob. cbn. ring. Qed.
Lemma same_assoc {X Y Z} (m : prog X) (f : X -> prog Y) (g : Y -> prog Z) :
  same (pbind m (fun x => pbind (f x) g)) (pbind (pbind m f) g).
Proof.
  intros P. induction m as [|[w [x|]] m IH]; [reflexivity| |].
  - rewrite !pbind_some, pbind_app, !prob_app, <- IH. f_equal.
    rewrite prob_map_scale, !prob_bind, <- qsum_map_scale, map_map.
    apply qsum_map_ext. intros [w' [y|]] _; cbn; ring.
  - rewrite !pbind_none, !prob_none. exact IH.
Qed.
Lemma same_refl {X} (m : prog X) : same m m. Proof. intros P. reflexivity. Qed.
Lemma same_trans {X} (a b c : prog X) : same a b -> same b c -> same a c. Proof. intros H K P. rewrite H. apply K. Qed.
Lemma same_sym {X} (a b : prog X) : same a b -> same b a. Proof. intros H P. symmetry. apply H. Qed.
Lemma same_ret {X Y} (x : X) (f : X -> prog Y) : same (f x) (pbind (pret x) f).
Proof. intros P. rewrite prob_bind. cbn. ring. Qed.
Lemma same_step {X Y Z} (m : prog X) (f : X -> prog Y) (g : Y -> prog Z) (k : X -> prog Z) :
  (forall x, same (k x) (pbind (f x) g)) -> same (pbind m k) (pbind (pbind m f) g).
Proof. intros H. eapply same_trans; [|apply same_assoc]. apply same_bind. auto. Qed.
