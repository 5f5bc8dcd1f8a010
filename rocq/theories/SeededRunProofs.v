(** Samplers whose kernels own their generators walk as independent chains (SeededRun.v). *)
From Verif Require Export SeededRun LibProofs.
Set Implicit Arguments.
Local Open Scope nat_scope.

Section Chains.
Variable G : Type.
Variable seeded : nat -> G.
Variable pick : list Qc -> G -> nat * G.
Variable unif : G -> R * G.
Variable A : Type.
Variable Ru : rules A.
Variable p : list nat -> prog step.

Notation exec := (exec pick).
Notation kstep := (kstep pick unif Ru).
Notation sweep := (sweep pick unif Ru).
Notation sweeps := (sweeps pick unif Ru).
Notation collect := (collect pick unif Ru).

(** One walker with its own generator, without heap. *)
Notation lone := ((G * A) * (list nat * bool))%type.
Definition toss (v : verdict) (g : G) : option (bool * G) :=
  match v with
  | Settled b => Some (b, g)
  | Toss e => let (u, g') := unif g in let? b := accept_test e u in Some (b, g')
  end.
Definition lone_step (z : lone) : option lone :=
  let o := fst (snd z) in
  let? (st, g1) := exec (p o) (fst (fst z)) in
  let? v := r_verdict Ru (snd (fst z)) o st in
  let? (acc, g2) := toss v g1 in
  let? a := r_post Ru (snd (fst z)) o st acc in
  Some ((g2, a), (if acc : bool then apply_step o st else o, acc)).
Fixpoint lone_sweeps (n : nat) (zs : list lone) : option (list lone) :=
  match n with
  | 0 => Some zs
  | S n' => let? zs1 := opt_map lone_step zs in lone_sweeps n' zs1
  end.
Fixpoint lone_collect (m thin : nat) (zs : list lone) : option (list lone * list row) :=
  match m with
  | 0 => Some (zs, [])
  | S m' => let? zs1 := lone_sweeps thin zs in
            let? (zs2, rs) := lone_collect m' thin zs1 in
            Some (zs2, map snd zs1 :: rs)
  end.
Definition lone_start (q : (G * A) * list nat) : option lone :=
  let? a := r_start Ru (snd (fst q)) (snd q) in Some ((fst (fst q), a), (snd q, true)).
Definition lone_run (nsites : nat) (s : list (G * A) * list row) (q : request)
  : option (list (G * A) * list row) :=
  if q_thin q =? 0 then None
  else
    let? os := match q_occus q with
               | Some o => reshape nsites (length (fst s)) o
               | None => match rev (snd s) with [] => None | r :: _ => Some (map fst r) end
               end in
    let? zs := opt_map lone_start (combine (fst s) os) in
    let? (zs', rs) := lone_collect (q_steps q / q_thin q) (q_thin q) zs in
    Some (map fst zs', snd s ++ rs).
Fixpoint lone_runs (nsites : nat) (s : list (G * A) * list row) (qs : list request) :=
  match qs with
  | [] => Some s
  | q :: qs' => let? s1 := lone_run nsites s q in lone_runs nsites s1 qs'
  end.
Definition lone_make (nsites : nat) (x : nat) : option (G * A) :=
  let? z := lone_step ((seeded x, r_init Ru), (repeat 0 nsites, true)) in Some (fst z).
Definition lone_session (nsites : nat) (seeds : list nat) (qs : list request) : option (list row) :=
  let? ss := opt_map (lone_make nsites) seeds in
  if length ss =? 0 then None
  else let? s := lone_runs nsites (ss, []) qs in Some (snd s).

(** Kernels and their generators. *)
Variable I : list nat -> Prop.
Hypothesis Hkeep : forall o st, I o -> outcome (p o) st -> I (apply_step o st).
Definition behaves (u : mover) (a : nat) : Prop := forall occu h g, I occu -> nth_error h a = Some g ->
  propose pick u occu h = match exec (p occu) g with None => None | Some (st, g') => Some (st, upd h a g') end.
Variable sty : step_type.
Hypothesis Hsty : forall ent a (w : world G), a < length (heap w) ->
  behaves (fst (make_steps seeded ent sty (Some a) w)) a /\
  exists l, heap (snd (make_steps seeded ent sty (Some a) w)) = heap w ++ l.
Definition at_ (h : list G) (k : kern A) (s : G * A) : Prop :=
  behaves (kr_mover k) (kr_rng k) /\ nth_error h (kr_rng k) = Some (fst s) /\ kr_aux k = snd s.
Definition holds (h : list G) (ks : list (kern A)) (ss : list (G * A)) : Prop :=
  Forall2 (at_ h) ks ss /\ NoDup (map (@kr_rng A) ks).

Lemma kstep_lone h k s x : at_ h k s -> I (fst x) ->
  kstep k (fst x) h =
  match lone_step (s, x) with
  | None => None
  | Some z => Some (mkKern (kr_seed k) (kr_rng k) (kr_mover k) (snd (fst z)), snd z,
                    upd h (kr_rng k) (fst (fst z)))
  end.
Proof.
  intros [Hm [Hg Ha]] Hi. destruct s as [g a]; cbn [fst snd] in *. destruct x as [o b]; cbn [fst] in *.
  assert (Hlt : kr_rng k < length h) by (apply nth_error_Some; congruence).
  unfold SeededRun.kstep, lone_step. rewrite (Hm o h g Hi Hg). cbn [fst snd].
  destruct (exec (p o) g) as [[st g1]|]; cbn [option_bind]; [|reflexivity].
  rewrite Ha. destruct (r_verdict Ru a o st) as [v|]; cbn [option_bind]; [|reflexivity].
  unfold settle, toss. destruct v as [b'|e].
  - cbn [option_bind]. destruct (r_post Ru a o st b'); cbn [option_bind]; reflexivity.
  - rewrite nth_error_upd_eq by auto. cbn [option_bind]. destruct (unif g1) as [u g2].
    destruct (accept_test e u) as [b'|]; cbn [option_bind]; [|reflexivity].
    destruct (r_post Ru a o st b'); cbn [option_bind]; [|reflexivity].
    cbn [fst snd]. rewrite upd_upd_eq. reflexivity.
Qed.

Definition fine (zs : list lone) : Prop := Forall (fun z => I (fst (snd z))) zs.
Lemma lone_step_fine z z' : lone_step z = Some z' -> I (fst (snd z)) -> I (fst (snd z')).
Proof.
  unfold lone_step. intros H Hi. destruct (exec (p (fst (snd z))) (fst (fst z))) as [[st g1]|] eqn:E; [|discriminate].
  cbn [option_bind] in H. destruct (r_verdict Ru (snd (fst z)) (fst (snd z)) st) as [v|]; [|discriminate]. cbn [option_bind] in H.
  destruct (toss v g1) as [[acc g2]|]; [|discriminate]. cbn [option_bind] in H.
  destruct (r_post Ru (snd (fst z)) (fst (snd z)) st acc); [|discriminate]. inversion H; subst. cbn [fst snd].
  destruct acc; auto. apply Hkeep; auto. unfold SeededRun.exec in E. destruct (pick _ _) as [i g'].
  destruct (nth_error (p (fst (snd z))) i) as [[wt [x|]]|] eqn:En; try discriminate. inversion E; subst.
  exists wt. eapply nth_error_In; eauto.
Qed.
Lemma map_fine : forall zs zs', opt_map lone_step zs = Some zs' -> fine zs -> fine zs'.
Proof.
  induction zs as [|z zs IH]; cbn [opt_map]; intros zs' H Hz.
  - inversion H; constructor.
  - inversion Hz; subst. destruct (lone_step z) eqn:E; [|discriminate]. destruct (opt_map lone_step zs); [|discriminate].
    inversion H; subst. constructor; [eapply lone_step_fine; eauto|apply IH; auto].
Qed.
Lemma sweeps_fine : forall n zs zs', lone_sweeps n zs = Some zs' -> fine zs -> fine zs'.
Proof.
  induction n as [|n IH]; cbn [lone_sweeps]; intros zs zs' H Hz; [inversion H; subst; auto|].
  destruct (opt_map lone_step zs) eqn:E; [|discriminate]. eapply IH; eauto. eapply map_fine; eauto.
Qed.
Definition good_rows (rs : list row) : Prop := Forall (Forall (fun x => I (fst x))) rs.
Lemma fine_row zs : fine zs -> Forall (fun x => I (fst x)) (map snd zs).
Proof. intros H. apply Forall_map. exact H. Qed.
Lemma collect_fine : forall m thin zs zs' rs, lone_collect m thin zs = Some (zs', rs) -> fine zs -> good_rows rs.
Proof.
  induction m as [|m IH]; cbn [lone_collect]; intros thin zs zs' rs H Hz.
  - inversion H; subst. constructor.
  - destruct (lone_sweeps thin zs) as [zs1|] eqn:E; [|discriminate]. cbn [option_bind] in H.
    destruct (lone_collect m thin zs1) as [[zs2 rs1]|] eqn:E2; [|discriminate]. inversion H; subst.
    pose proof (@sweeps_fine _ _ _ E Hz) as F. constructor; [apply fine_row; auto|]. eapply IH; eauto.
Qed.

Definition agrees (h : list G) (h' : list G) (ks ks' : list (kern A)) : Prop :=
  map (@kr_rng A) ks' = map (@kr_rng A) ks /\ map (@kr_seed A) ks' = map (@kr_seed A) ks /\
  length h' = length h /\ forall b, ~ In b (map (@kr_rng A) ks) -> nth_error h' b = nth_error h b.
Lemma agrees_refl h ks : agrees h h ks ks.
Proof. repeat split; auto. Qed.
Lemma agrees_trans h h' h'' ks ks' ks'' : agrees h h' ks ks' -> agrees h' h'' ks' ks'' -> agrees h h'' ks ks''.
Proof.
  intros [A1 [A2 [A3 A4]]] [B1 [B2 [B3 B4]]]. repeat split; try congruence.
  intros b Hb. rewrite B4, A4; auto. rewrite A1; auto.
Qed.

Lemma sweep_lone : forall zs ks h, holds h ks (map fst zs) -> fine zs ->
  match opt_map lone_step zs with
  | None => sweep ks (map fst (map snd zs)) h = None
  | Some zs' => exists ks' h', sweep ks (map fst (map snd zs)) h = Some (ks', map snd zs', h') /\
                  holds h' ks' (map fst zs') /\ agrees h h' ks ks'
  end.
Proof.
  induction zs as [|[s x] zs IH]; intros ks h [Hf Hn] Hz; cbn [map] in *; inversion Hf as [|k s0 ks0 ss0 H1 H3]; subst; cbn [opt_map].
  - exists [], h. repeat split; auto.
  - cbn [map] in *. inversion Hn as [|a0 l0 H4 H5]; subst. inversion Hz as [|z0 l1 Hi Hz']; subst. cbn [fst snd] in Hi.
    cbn [SeededRun.sweep]. cbn [fst snd] in *. rewrite (kstep_lone x H1 Hi).
    destruct (lone_step (s, x)) as [z|] eqn:Ez; [|reflexivity]. cbn [option_bind].
    assert (Hlt : kr_rng k < length h) by (apply nth_error_Some; destruct H1 as [_ [E _]]; congruence).
    assert (Hh : holds (upd h (kr_rng k) (fst (fst z))) ks0 (map fst zs)).
    { split; auto. clear - H3 H4. revert H3. generalize (map fst zs). intros ss Hf.
      induction Hf as [|k1 s1 ks1 ss1 [E1 [E2 E3]] Hf' IH]; constructor.
      - repeat split; auto. rewrite nth_error_upd_neq; auto. intros E. apply H4. left; auto.
      - apply IH. intros F. apply H4. right; auto. }
    specialize (IH ks0 _ Hh Hz'). destruct (opt_map lone_step zs) as [zs'|].
    + destruct IH as [ks' [h' [E1 [[E2 E2'] [E3 [E4 [E5 E6]]]]]]]. rewrite E1. cbn [option_bind].
      exists (mkKern (kr_seed k) (kr_rng k) (kr_mover k) (snd (fst z)) :: ks'), h'.
      split; [reflexivity|]. split; [split|].
      * cbn [map]. constructor; auto. destruct H1 as [F1 [F2 F3]].
        split; [exact F1|]. cbn [kr_rng kr_aux]. split; [|reflexivity].
        rewrite E6 by (exact H4). apply nth_error_upd_eq; auto.
      * cbn [map kr_rng]. rewrite E3. constructor; auto.
      * repeat split; cbn [map kr_rng kr_seed]; try congruence.
        -- rewrite E5, length_upd. reflexivity.
        -- intros b Hb. rewrite E6; [|intros F; apply Hb; right; auto].
           apply nth_error_upd_neq. intros E; apply Hb; left; auto.
    + rewrite IH. reflexivity.
Qed.

Lemma sweeps_lone : forall n zs ks h, holds h ks (map fst zs) -> fine zs ->
  match lone_sweeps n zs with
  | None => sweeps n ks (map snd zs) h = None
  | Some zs' => exists ks' h', sweeps n ks (map snd zs) h = Some (ks', map snd zs', h') /\
                  holds h' ks' (map fst zs') /\ agrees h h' ks ks'
  end.
Proof.
  induction n as [|n IH]; intros zs ks h Hh Hz; cbn [lone_sweeps SeededRun.sweeps].
  - exists ks, h. repeat split; auto; apply Hh.
  - pose proof (sweep_lone Hh Hz) as Hs. destruct (opt_map lone_step zs) as [zs1|] eqn:Em; cbn [option_bind].
    + destruct Hs as [ks1 [h1 [E1 [E2 E3]]]]. rewrite E1. cbn [option_bind].
      specialize (IH zs1 ks1 h1 E2 (@map_fine _ _ Em Hz)). destruct (lone_sweeps n zs1) as [zs'|]; auto.
      destruct IH as [ks' [h' [F1 [F2 F3]]]]. exists ks', h'. split; auto. split; auto.
      eapply agrees_trans; eauto.
    + rewrite Hs. reflexivity.
Qed.

Lemma collect_lone : forall m thin zs ks h, holds h ks (map fst zs) -> fine zs ->
  match lone_collect m thin zs with
  | None => collect m thin ks (map snd zs) h = None
  | Some (zs', rs) => exists ks' h', collect m thin ks (map snd zs) h = Some (ks', rs, h') /\
                  holds h' ks' (map fst zs') /\ agrees h h' ks ks'
  end.
Proof.
  induction m as [|m IH]; intros thin zs ks h Hh Hz; cbn [lone_collect SeededRun.collect].
  - exists ks, h. repeat split; auto; apply Hh.
  - pose proof (sweeps_lone thin Hh Hz) as Hs. destruct (lone_sweeps thin zs) as [zs1|] eqn:Em; cbn [option_bind].
    + destruct Hs as [ks1 [h1 [E1 [E2 E3]]]]. rewrite E1. cbn [option_bind].
      specialize (IH thin zs1 ks1 h1 E2 (@sweeps_fine _ _ _ Em Hz)). destruct (lone_collect m thin zs1) as [[zs2 rs]|]; cbn [option_bind].
      * destruct IH as [ks' [h' [F1 [F2 F3]]]]. rewrite F1. exists ks', h'. split; auto. split; auto.
        eapply agrees_trans; eauto.
      * rewrite IH. reflexivity.
    + rewrite Hs. reflexivity.
Qed.

(** Lengths. *)
Lemma lone_sweeps_length : forall n zs zs', lone_sweeps n zs = Some zs' -> length zs' = length zs.
Proof.
  induction n as [|n IH]; cbn [lone_sweeps]; intros zs zs' H; [congruence|].
  destruct (opt_map lone_step zs) eqn:E; [|discriminate]. apply opt_map_length in E.
  apply IH in H. congruence.
Qed.
Lemma lone_collect_length : forall m thin zs zs' rs, lone_collect m thin zs = Some (zs', rs) ->
  length zs' = length zs /\ Forall (fun r => length r = length zs) rs.
Proof.
  induction m as [|m IH]; cbn [lone_collect]; intros thin zs zs' rs H.
  - inversion H; subst. auto.
  - destruct (lone_sweeps thin zs) as [zs1|] eqn:E; [|discriminate]. cbn [option_bind] in H.
    destruct (lone_collect m thin zs1) as [[zs2 rs1]|] eqn:E2; [|discriminate]. inversion H; subst.
    apply lone_sweeps_length in E. apply IH in E2 as [E2 E3]. split; [congruence|].
    constructor; [rewrite map_length; auto|]. rewrite E in E3. auto.
Qed.
Lemma lone_start_zs : forall ss os zs, length os = length ss -> opt_map lone_start (combine ss os) = Some zs ->
  map snd zs = map (fun o => (o, true)) os /\ map (fun z => fst (fst z)) zs = map fst ss.
Proof.
  induction ss as [|s ss IH]; intros [|o os] zs Hl H; cbn in *; try discriminate.
  - inversion H; subst. auto.
  - unfold lone_start at 1 in H. cbn [fst snd] in H.
    destruct (r_start Ru (snd s) o) as [a|]; cbn in H; [|discriminate].
    destruct (opt_map lone_start (combine ss os)) as [zs0|] eqn:E; [|discriminate]. inversion H; subst.
    destruct (IH os zs0) as [E1 E2]; auto. cbn. split; congruence.
Qed.
Lemma start_lone h : forall ks ss os, Forall2 (at_ h) ks ss -> length os = length ss ->
  match opt_map lone_start (combine ss os) with
  | None => opt_map (start_kernel Ru) (combine ks os) = None
  | Some zs => exists ks', opt_map (start_kernel Ru) (combine ks os) = Some ks' /\
                 Forall2 (at_ h) ks' (map fst zs) /\ map (@kr_rng A) ks' = map (@kr_rng A) ks /\
                 map (@kr_seed A) ks' = map (@kr_seed A) ks
  end.
Proof.
  intros ks ss os Hf. revert os. induction Hf as [|k s ks ss [E1 [E2 E3]] Hf IH]; intros [|o os] Hl; cbn in *; try discriminate.
  - exists []. auto.
  - unfold lone_start at 1, start_kernel at 1 3. cbn [fst snd]. rewrite E3.
    destruct (r_start Ru (snd s) o) as [a|]; cbn [option_bind].
    2:{ reflexivity. }
    specialize (IH os ltac:(lia)). destruct (opt_map lone_start (combine ss os)) as [zs|].
    + destruct IH as [ks' [F1 [F2 [F3 F4]]]]. rewrite F1. eexists. split; [reflexivity|].
      cbn [map fst snd kr_rng kr_seed]. split; [|split; congruence].
      constructor; auto. split; [exact E1|]. split; auto.
    + rewrite IH. reflexivity.
Qed.

Lemma reshape_length nsites n o os : reshape nsites n o = Some os -> length os = n.
Proof.
  destruct o as [o|l]; cbn.
  - destruct (n =? 1) eqn:E; [|discriminate]. intros [= <-]. apply Nat.eqb_eq in E. auto.
  - destruct (length l =? n) eqn:E; cbn; [|discriminate]. destruct (forallb _ l); [|discriminate].
    intros [= <-]. apply Nat.eqb_eq; auto.
Qed.

Definition wide (n : nat) (rows : list row) : Prop := Forall (fun r : row => length r = n) rows.
Lemma wide_rev n rows r l : wide n rows -> rev rows = r :: l -> length r = n.
Proof.
  intros H E. assert (Hin : In r rows) by (apply in_rev; rewrite E; left; auto).
  unfold wide in H. rewrite Forall_forall in H. auto.
Qed.

Definition good_request (q : request) : Prop :=
  match q_occus q with None => True | Some (One o) => I o | Some (Rows l) => Forall I l end.
Lemma start_fine : forall ss os zs, opt_map lone_start (combine ss os) = Some zs -> Forall I os -> fine zs.
Proof.
  induction ss as [|s ss IH]; intros [|o os] zs H Ho; cbn in *; try (inversion H; constructor; fail).
  unfold lone_start at 1 in H. cbn [fst snd] in H.
  destruct (r_start Ru (snd s) o) as [a|]; cbn in H; [|discriminate].
  destruct (opt_map lone_start (combine ss os)) as [zs0|] eqn:E; [|discriminate]. inversion H; subst.
  inversion Ho; subst. constructor; [auto|]. eapply IH; eauto.
Qed.
Lemma run_lone nsites (ks : list (kern A)) ss saved w q :
  holds (heap w) ks ss -> wide (length ss) saved -> good_rows saved -> good_request q ->
  match lone_run nsites (ss, saved) q with
  | None => run pick unif Ru nsites (mkSampler ks saved) q w = None
  | Some (ss', saved') => exists ks' w', run pick unif Ru nsites (mkSampler ks saved) q w = Some (mkSampler ks' saved', w') /\
      holds (heap w') ks' ss' /\ agrees (heap w) (heap w') ks ks' /\ wide (length ss') saved' /\ good_rows saved'
  end.
Proof.
  intros [Hf Hn] Hw Hgr Hq. unfold lone_run, run. cbn [fst snd s_kernels s_saved].
  destruct (q_thin q =? 0); [reflexivity|].
  rewrite (Forall2_length Hf).
  set (osx := match q_occus q with Some o => reshape nsites (length ss) o | None => _ end).
  assert (Hos : forall os, osx = Some os -> length os = length ss).
  { intros os Eo. unfold osx in Eo. destruct (q_occus q) as [o|]; [eapply reshape_length; eauto|].
    destruct (rev saved) as [|r l] eqn:Er; [discriminate|]. inversion Eo; subst. rewrite map_length.
    eapply wide_rev; eauto. }
  assert (Hoi : forall os, osx = Some os -> Forall I os).
  { intros os Eo. unfold osx in Eo. unfold good_request in Hq. destruct (q_occus q) as [[o|l]|].
    - cbn in Eo. destruct (length ss =? 1); [|discriminate]. inversion Eo; subst. constructor; auto.
    - cbn in Eo. destruct (_ && _); [|discriminate]. inversion Eo; subst. auto.
    - destruct (rev saved) as [|r l] eqn:Er; [discriminate|]. inversion Eo; subst. apply Forall_map.
      unfold good_rows in Hgr. rewrite Forall_forall in Hgr. apply Hgr. apply (proj2 (in_rev saved r)). rewrite Er. left; auto. }
  destruct osx as [os|]; cbn [option_bind]; [|reflexivity]. specialize (Hos _ eq_refl). specialize (Hoi _ eq_refl).
  pose proof (start_lone os Hf Hos) as Hs.
  destruct (opt_map lone_start (combine ss os)) as [zs|] eqn:Ezs; cbn [option_bind].
  2:{ rewrite Hs. reflexivity. }
  destruct Hs as [ks1 [E1 [E2 [E3 E4]]]]. rewrite E1. cbn [option_bind].
  destruct (lone_start_zs ss os Hos Ezs) as [F1 F2]. rewrite <- F1.
  assert (Hh : holds (heap w) ks1 (map fst zs)) by (split; [auto|congruence]).
  pose proof (@start_fine _ _ _ Ezs Hoi) as Hz.
  pose proof (collect_lone (q_steps q / q_thin q) (q_thin q) Hh Hz) as Hc.
  destruct (lone_collect (q_steps q / q_thin q) (q_thin q) zs) as [[zs' rs]|] eqn:Ec; cbn [option_bind].
  2:{ rewrite Hc. reflexivity. }
  destruct Hc as [ks2 [h2 [G1 [G2 G3]]]]. rewrite G1. cbn [option_bind].
  exists ks2, (mkWorld h2 (taken w)). cbn [heap]. split; [reflexivity|]. split; [auto|].
  split. { destruct G3 as [A1 [A2 [A3 A4]]]. repeat split; try congruence.
           intros b Hb. apply A4. rewrite E3. auto. }
  split. 2:{ unfold good_rows. apply Forall_app. split; [auto|]. exact (@collect_fine _ _ _ _ _ Ec Hz). }
  apply lone_collect_length in Ec as [L1 L2].
  assert (Lz : length zs = length ss).
  { rewrite <- (map_length fst ss), <- F2, map_length. reflexivity. }
  rewrite map_length, L1, Lz. unfold wide. apply Forall_app. split; auto. rewrite <- Lz. auto.
Qed.

Lemma runs_lone nsites : forall qs ks ss saved w,
  holds (heap w) ks ss -> wide (length ss) saved -> good_rows saved -> Forall good_request qs ->
  match lone_runs nsites (ss, saved) qs with
  | None => runs pick unif Ru nsites (mkSampler ks saved) qs w = None
  | Some (ss', saved') => exists ks' w', runs pick unif Ru nsites (mkSampler ks saved) qs w = Some (mkSampler ks' saved', w')
  end.
Proof.
  induction qs as [|q qs IH]; intros ks ss saved w Hh Hw Hgr Hqs; cbn [lone_runs runs].
  - eauto.
  - inversion Hqs; subst. pose proof (run_lone nsites w q Hh Hw Hgr H1) as Hr.
    destruct (lone_run nsites (ss, saved) q) as [[ss1 saved1]|]; cbn [option_bind].
    + destruct Hr as [ks1 [w1 [E1 [E2 [E3 [E4 E5]]]]]]. rewrite E1. cbn [option_bind]. apply IH; auto.
    + rewrite Hr. reflexivity.
Qed.

(** Construction. *)
Section Process.
Variable ent : nat -> nat.
(** The seed a kernel ends up with. *)
Definition seed_of (x : option nat) (w : world G) : nat := match x with Some s => s | None => ent (taken w) end.
Variable nsites : nat.
Hypothesis Hzero : I (repeat 0 nsites).
Lemma make_kernel_lone x (w : world G) :
  match lone_make nsites (seed_of x w) with
  | None => make_kernel seeded pick unif ent Ru nsites sty x w = None
  | Some s => exists k w', make_kernel seeded pick unif ent Ru nsites sty x w = Some (k, w') /\
      at_ (heap w') k s /\ kr_seed k = seed_of x w /\ kr_rng k = length (heap w) /\
      length (heap w') >= S (length (heap w)) /\
      forall b, b < length (heap w) -> nth_error (heap w') b = nth_error (heap w) b
  end.
Proof.
  unfold make_kernel, lone_make.
  assert (Ew : (match x with Some x0 => (x0, w) | None => (ent (taken w), mkWorld (heap w) (S (taken w))) end)
               = (seed_of x w, mkWorld (heap w) (match x with Some _ => taken w | None => S (taken w) end))).
  { destruct x; destruct w; reflexivity. }
  rewrite Ew. cbn [heap taken].
  set (sd := seed_of x w). set (a := length (heap w)).
  set (w1 := mkWorld (heap w ++ [seeded sd]) _).
  destruct (Hsty ent (a := a) w1) as [Hb [l Hl0]]; [cbn [w1 heap]; rewrite app_length; cbn; unfold a; lia|].
  destruct (make_steps seeded ent sty (Some a) w1) as [u w2]. cbn [fst snd] in Hb, Hl0.
  set (k0 := mkKern sd a u (r_init Ru)). cbn [w1 heap] in Hl0.
  assert (Ha : at_ (heap w2) k0 (seeded sd, r_init Ru)).
  { split; [exact Hb|]. split; [|reflexivity]. cbn [kr_rng k0]. rewrite Hl0, <- app_assoc.
    rewrite nth_error_app2 by (unfold a; lia). unfold a. rewrite Nat.sub_diag. reflexivity. }
  pose proof (kstep_lone (repeat 0 nsites, true) Ha Hzero) as Hk. cbn [fst] in Hk. rewrite Hk.
  destruct (lone_step (seeded sd, r_init Ru, (repeat 0 nsites, true))) as [z|]; cbn [option_bind]; [|reflexivity].
  eexists. eexists. split; [reflexivity|]. cbn [heap kr_seed kr_rng k0].
  assert (Hl : length (heap w2) >= S (length (heap w))) by (rewrite Hl0, !app_length; cbn; lia).
  repeat split.
  - exact Hb.
  - cbn [kr_rng]. apply nth_error_upd_eq. unfold a. lia.
  - rewrite length_upd. auto.
  - intros b Hb'. rewrite nth_error_upd_neq by (unfold a; lia). rewrite Hl0, <- app_assoc. apply nth_error_app1; auto.
Qed.

Fixpoint all_seeds (xs : list (option nat)) (w : world G) : list nat :=
  match xs with
  | [] => []
  | x :: xs' => seed_of x w ::
      match make_kernel seeded pick unif ent Ru nsites sty x w with
      | Some (_, w') => all_seeds xs' w'
      | None => []
      end
  end.
Lemma make_kernels_lone : forall xs (w : world G),
  match make_kernels seeded pick unif ent Ru nsites sty xs w with
  | None => opt_map (lone_make nsites) (all_seeds xs w) = None
  | Some (ks, w') => exists ss, opt_map (lone_make nsites) (map (@kr_seed A) ks) = Some ss /\
      holds (heap w') ks ss /\ map (@kr_seed A) ks = all_seeds xs w /\
      length (heap w) <= length (heap w') /\
      (forall b, b < length (heap w) -> nth_error (heap w') b = nth_error (heap w) b) /\
      Forall (fun k => length (heap w) <= kr_rng k) ks
  end.
Proof.
  induction xs as [|x xs IH]; intros w; cbn [make_kernels all_seeds].
  - exists []. split; [reflexivity|]. split; [split; constructor|]. repeat split; auto.
  - pose proof (make_kernel_lone x w) as Hm.
    destruct (lone_make nsites (seed_of x w)) as [s|] eqn:Es.
    + destruct Hm as [k [w1 [E1 [E2 [E3 [E4 [E5 E6]]]]]]]. rewrite E1. cbn [option_bind].
      specialize (IH w1). destruct (make_kernels seeded pick unif ent Ru nsites sty xs w1) as [[ks w2]|]; cbn [option_bind].
      * destruct IH as [ss [F1 [[F2 F2'] [F3 [F4 [F5 F6]]]]]]. exists (s :: ss).
        cbn [map opt_map]. rewrite E3, Es, F1. split; [reflexivity|].
        split; [split|].
        -- constructor; auto. destruct E2 as [G1 [G2 G3]]. split; auto. split; auto.
           rewrite F5 by lia. auto.
        -- cbn [map]. constructor; auto. rewrite E4. intros Hin. apply in_map_iff in Hin as [k' [Ek Hk]].
           rewrite Forall_forall in F6. specialize (F6 k' Hk). lia.
        -- split; [congruence|]. split; [lia|]. split.
           ++ intros b Hb. rewrite F5 by lia. auto.
           ++ constructor; [lia|]. rewrite Forall_forall in *. intros k' Hk. specialize (F6 k' Hk). lia.
      * cbn [opt_map]. rewrite Es, IH. reflexivity.
    + rewrite Hm. cbn [option_bind opt_map]. rewrite Es. reflexivity.
Qed.

Lemma all_seeds_given : forall seeds (w : world G),
  all_seeds (map Some seeds) w = seeds \/
  (opt_map (lone_make nsites) (all_seeds (map Some seeds) w) = None /\ opt_map (lone_make nsites) seeds = None).
Proof.
  induction seeds as [|x seeds IH]; intros w; cbn [map all_seeds seed_of]; [left; auto|].
  pose proof (make_kernel_lone (Some x) w) as Hm. cbn [seed_of] in Hm.
  destruct (lone_make nsites x) as [s|] eqn:Es.
  - destruct Hm as [k [w1 [E1 _]]]. rewrite E1.
    destruct (IH w1) as [E|[E1' E2]]; [left; congruence|]. right. cbn [opt_map]. rewrite Es, E1', E2. auto.
  - right. rewrite Hm. cbn [opt_map]. rewrite Es. auto.
Qed.
End Process.

(** A session with the given or recorded seeds is that of independent chains. *)
Lemma session_given ent E given seeds n qs (w : world G) :
  default_steps E given = sty -> length seeds = n -> I (repeat 0 (e_sites E)) -> Forall good_request qs ->
  session seeded pick unif ent Ru E given (Some seeds) n qs w = lone_session (e_sites E) seeds qs.
Proof.
  intros Hd Hl Hzero Hqs. unfold session, from_ensemble, lone_session. rewrite Hl, Nat.eqb_refl. cbn [option_bind].
  rewrite Hd. pose proof (make_kernels_lone ent (e_sites E) Hzero (map Some seeds) w) as Hm.
  pose proof (all_seeds_given ent (e_sites E) Hzero seeds w) as Hs.
  destruct (make_kernels seeded pick unif ent Ru (e_sites E) sty (map Some seeds) w) as [[ks w1]|]; cbn [option_bind].
  - destruct Hm as [ss [F1 [F2 [F3 _]]]].
    assert (E' : opt_map (lone_make (e_sites E)) seeds = Some ss).
    { destruct Hs as [Hs|[Hs1 Hs2]]; [|rewrite F3 in F1; congruence]. rewrite <- Hs, <- F3. auto. }
    rewrite E'. cbn [option_bind]. rewrite <- (Forall2_length (proj1 F2)).
    destruct (length ks =? 0); [reflexivity|].
    cbn [option_bind]. pose proof (runs_lone (e_sites E) (saved := []) w1 F2 ltac:(constructor) ltac:(constructor) Hqs) as Hr.
    destruct (lone_runs (e_sites E) (ss, []) qs) as [[ss' saved']|]; cbn [option_bind].
    + destruct Hr as [ks' [w' Hr]]. rewrite Hr. reflexivity.
    + rewrite Hr. reflexivity.
  - destruct Hs as [Hs|[Hs1 Hs2]]; [rewrite Hs in Hm; rewrite Hm|rewrite Hs2]; reflexivity.
Qed.
Lemma session_recorded ent E given n qs (w : world G) s w1 :
  default_steps E given = sty -> I (repeat 0 (e_sites E)) -> Forall good_request qs ->
  from_ensemble seeded pick unif ent Ru E given None n w = Some (s, w1) ->
  session seeded pick unif ent Ru E given None n qs w = lone_session (e_sites E) (recorded s) qs /\ length (recorded s) = n.
Proof.
  intros Hd Hzero Hqs Hf. unfold session. rewrite Hf. cbn [option_bind].
  unfold from_ensemble in Hf. cbn [option_bind] in Hf. rewrite Hd in Hf.
  pose proof (make_kernels_lone ent (e_sites E) Hzero (repeat None n) w) as Hm.
  assert (HL : forall m ks w2, make_kernels seeded pick unif ent Ru (e_sites E) sty (repeat None m) w = Some (ks, w2) -> length ks = m).
  { clear - ent. intros m. revert w. induction m as [|m IH]; intros w ks w2; cbn [repeat make_kernels]; [intros [= <- <-]; reflexivity|].
    destruct (make_kernel seeded pick unif ent Ru (e_sites E) sty None w) as [[k w3]|]; [|discriminate]. cbn [option_bind].
    destruct (make_kernels seeded pick unif ent Ru (e_sites E) sty (repeat None m) w3) as [[ks1 w4]|] eqn:E1; [|discriminate].
    cbn [option_bind]. intros [= <- <-]. cbn. f_equal. eauto. }
  specialize (HL n).
  destruct (make_kernels seeded pick unif ent Ru (e_sites E) sty (repeat None n) w) as [[ks w2]|]; [|discriminate].
  cbn [option_bind] in Hf. specialize (HL _ _ eq_refl). destruct (length ks =? 0) eqn:E0; [discriminate|]. inversion Hf; subst s w2.
  destruct Hm as [ss [F1 [F2 [F3 _]]]]. unfold recorded, lone_session. cbn [s_kernels]. rewrite F1. cbn [option_bind].
  rewrite <- (Forall2_length (proj1 F2)), E0.
  split; [|rewrite map_length; auto].
  pose proof (runs_lone (e_sites E) (saved := []) w1 F2 ltac:(constructor) ltac:(constructor) Hqs) as Hr.
  destruct (lone_runs (e_sites E) (ss, []) qs) as [[ss' saved']|]; cbn [option_bind].
  + destruct Hr as [ks' [w' Hr]]. rewrite Hr. reflexivity.
  + rewrite Hr. reflexivity.
Qed.

(** One walker among many. *)
Lemma lone_sweeps_one i : forall n zs zs' z, lone_sweeps n zs = Some zs' -> nth_error zs i = Some z ->
  exists z', nth_error zs' i = Some z' /\ lone_sweeps n [z] = Some [z'].
Proof.
  induction n as [|n IH]; cbn [lone_sweeps]; intros zs zs' z H Hz.
  - inversion H; subst. eauto.
  - destruct (opt_map lone_step zs) as [zs1|] eqn:E; [|discriminate]. cbn [option_bind] in H.
    destruct (opt_map_nth _ _ _ E Hz) as [z1 [E1 E2]]. cbn [opt_map]. rewrite E1. cbn [option_bind]. eapply IH; eauto.
Qed.
Definition walker (i : nat) (r : row) : option row := let? x := nth_error r i in Some [x].
Lemma lone_collect_one i : forall m thin zs zs' rs z, lone_collect m thin zs = Some (zs', rs) -> nth_error zs i = Some z ->
  exists z' rs', nth_error zs' i = Some z' /\ opt_map (walker i) rs = Some rs' /\
    lone_collect m thin [z] = Some ([z'], rs').
Proof.
  induction m as [|m IH]; cbn [lone_collect]; intros thin zs zs' rs z H Hz.
  - inversion H; subst. exists z, []. auto.
  - destruct (lone_sweeps thin zs) as [zs1|] eqn:E; [|discriminate]. cbn [option_bind] in H.
    destruct (lone_collect m thin zs1) as [[zs2 rs1]|] eqn:E2; [|discriminate]. inversion H; subst.
    destruct (lone_sweeps_one i thin zs E Hz) as [z1 [F1 F2]]. rewrite F2. cbn [option_bind].
    destruct (IH _ _ _ _ _ E2 F1) as [z2 [rs2 [G1 [G2 G3]]]]. rewrite G3. cbn [option_bind].
    exists z2, (map snd [z1] :: rs2). split; auto. split; auto.
    cbn [opt_map]. unfold walker at 1. rewrite nth_error_map, F1. cbn. rewrite G2. reflexivity.
Qed.
(** The requests seen by one walker. *)
Definition only (i : nat) (q : request) : request :=
  mkReq (q_steps q) (q_thin q)
    (match q_occus q with
     | Some (Rows l) => Some (Rows match nth_error l i with Some o => [o] | None => [] end)
     | x => x
     end).
Lemma opt_map_snoc {X Y} (f : X -> option Y) : forall l1 l2 a b,
  opt_map f l1 = Some a -> opt_map f l2 = Some b -> opt_map f (l1 ++ l2) = Some (a ++ b).
Proof.
  induction l1 as [|x l1 IH]; intros l2 a b H1 H2; cbn in *.
  - inversion H1; subst; auto.
  - destruct (f x); [|discriminate]. destruct (opt_map f l1) eqn:E; [|discriminate]. inversion H1; subst.
    rewrite (IH _ _ _ eq_refl H2). reflexivity.
Qed.
Lemma opt_map_last {X Y} (f : X -> option Y) l l' x l0 : opt_map f l = Some l' -> rev l = x :: l0 ->
  exists y l0', f x = Some y /\ rev l' = y :: l0'.
Proof.
  intros H E. assert (El : l = rev l0 ++ [x]) by (rewrite <- (rev_involutive l), E; reflexivity).
  subst l. clear E. revert l' H. induction (rev l0) as [|a k IH]; intros l' H; cbn in H.
  - destruct (f x) as [y|]; [|discriminate]. inversion H; subst. exists y, []. auto.
  - destruct (f a); [|discriminate]. destruct (opt_map f (k ++ [x])) as [k'|] eqn:E; [|discriminate]. inversion H; subst.
    destruct (IH _ eq_refl) as [y0 [m [E1 E2]]]. exists y0, (m ++ [y]). split; auto. cbn. rewrite E2. reflexivity.
Qed.
Lemma lone_run_one nsites i ss saved q ss' saved' s saved1 :
  lone_run nsites (ss, saved) q = Some (ss', saved') -> nth_error ss i = Some s -> wide (length ss) saved ->
  opt_map (walker i) saved = Some saved1 ->
  exists s' saved1', nth_error ss' i = Some s' /\ opt_map (walker i) saved' = Some saved1' /\
    wide (length ss') saved' /\
    lone_run nsites ([s], saved1) (only i q) = Some ([s'], saved1').
Proof.
  intros H Hs Hw Hsv. unfold lone_run in *. cbn [fst snd q_thin q_steps only q_occus] in *.
  destruct (q_thin q =? 0); [discriminate|].
  set (osx := match q_occus q with Some o => reshape nsites (length ss) o | None => _ end) in *.
  destruct osx as [os|] eqn:Eo; [|discriminate]. cbn [option_bind] in H.
  assert (Hi : i < length ss) by (apply nth_error_Some; congruence).
  assert (Hos : length os = length ss /\ exists o, nth_error os i = Some o /\
    match (match q_occus q with
           | Some (Rows l) => Some (Rows match nth_error l i with Some o => [o] | None => [] end)
           | x => x
           end) with
    | Some o => reshape nsites (length [s]) o
    | None => match rev saved1 with [] => None | r :: _ => Some (map fst r) end
    end = Some [o]).
  { unfold osx in Eo. destruct (q_occus q) as [[o|l]|].
    - split; [eapply reshape_length; eauto|]. cbn in Eo. destruct (length ss =? 1) eqn:E1; [|discriminate].
      inversion Eo; subst. apply Nat.eqb_eq in E1. exists o. replace i with 0 by lia. cbn. auto.
    - split; [eapply reshape_length; eauto|]. cbn in Eo. destruct (length l =? length ss) eqn:E1; cbn in Eo; [|discriminate].
      destruct (forallb _ l) eqn:E2; [|discriminate]. inversion Eo; subst. apply Nat.eqb_eq in E1.
      destruct (nth_error os i) as [o|] eqn:E3; [|apply nth_error_None in E3; lia].
      exists o. split; auto. cbn. rewrite forallb_forall in E2. rewrite (E2 o) by (eapply nth_error_In; eauto). reflexivity.
    - destruct (rev saved) as [|r l0] eqn:Er; [discriminate|]. inversion Eo; subst.
      pose proof (wide_rev Hw Er) as Hr. split; [rewrite map_length; auto|].
      destruct (opt_map_last _ _ Hsv Er) as [y [l0' [F1 F2]]]. unfold walker in F1.
      destruct (nth_error r i) as [x|] eqn:E3; [|discriminate]. inversion F1; subst. rewrite F2.
      exists (fst x). split; [rewrite nth_error_map, E3; reflexivity|reflexivity]. }
  destruct Hos as [Hl [o [Ho Hone]]]. rewrite Hone. cbn [option_bind].
  destruct (opt_map lone_start (combine ss os)) as [zs|] eqn:Ez; [|discriminate]. cbn [option_bind] in H.
  assert (Hc : nth_error (combine ss os) i = Some (s, o)).
  { clear - Hs Ho. revert i os Hs Ho. induction ss as [|s0 ss IH]; intros [|i] [|o0 os]; cbn; try discriminate; [congruence|eauto]. }
  destruct (opt_map_nth _ _ _ Ez Hc) as [z [Z1 Z2]].
  cbn [combine opt_map]. rewrite Z1. cbn [option_bind].
  destruct (lone_collect (q_steps q / q_thin q) (q_thin q) zs) as [[zs' rs]|] eqn:Ec; [|discriminate]. inversion H; subst.
  destruct (lone_collect_one _ _ _ _ Ec Z2) as [z' [rs' [G1 [G2 G3]]]]. rewrite G3. cbn [option_bind].
  exists (fst z'), (saved1 ++ rs'). split; [rewrite nth_error_map, G1; reflexivity|].
  split; [apply opt_map_snoc; auto|]. split; [|reflexivity].
  apply lone_collect_length in Ec as [L1 L2].
  assert (Lz : length zs = length ss).
  { apply opt_map_length in Ez. rewrite combine_length in Ez. lia. }
  rewrite map_length, L1, Lz. apply Forall_app. split; auto. rewrite <- Lz; auto.
Qed.
Lemma lone_runs_one nsites i : forall qs ss saved ss' saved' s saved1,
  lone_runs nsites (ss, saved) qs = Some (ss', saved') -> nth_error ss i = Some s -> wide (length ss) saved ->
  opt_map (walker i) saved = Some saved1 ->
  exists s' saved1', opt_map (walker i) saved' = Some saved1' /\
    lone_runs nsites ([s], saved1) (map (only i) qs) = Some (s', saved1').
Proof.
  induction qs as [|q qs IH]; intros ss saved ss' saved' s saved1 H Hs Hw Hsv; cbn [lone_runs map] in *.
  - inversion H; subst. eauto.
  - destruct (lone_run nsites (ss, saved) q) as [[ss1 sv1]|] eqn:E; [|discriminate]. cbn [option_bind] in H.
    destruct (@lone_run_one nsites i ss saved q ss1 sv1 s saved1 E Hs Hw Hsv) as [s1 [sv1' [F1 [F2 [F3 F4]]]]]. rewrite F4. cbn [option_bind].
    eapply IH; eauto.
Qed.
Lemma lone_session_one nsites seeds qs rows i x :
  lone_session nsites seeds qs = Some rows -> nth_error seeds i = Some x ->
  exists rows', opt_map (walker i) rows = Some rows' /\ lone_session nsites [x] (map (only i) qs) = Some rows'.
Proof.
  unfold lone_session. intros H Hx.
  destruct (opt_map (lone_make nsites) seeds) as [ss|] eqn:E; [|discriminate]. cbn [option_bind] in H.
  destruct (length ss =? 0); [discriminate|].
  destruct (opt_map_nth _ _ _ E Hx) as [s [S1 S2]]. cbn [opt_map]. rewrite S1. cbn [option_bind length Nat.eqb].
  destruct (lone_runs nsites (ss, []) qs) as [[ss' rows0]|] eqn:Er; [|discriminate]. inversion H; subst.
  destruct (@lone_runs_one nsites i qs ss [] ss' rows s [] Er S2) as [s' [r1 [F1 F2]]]; [constructor|reflexivity|].
  rewrite F2. eauto.
Qed.
End Chains.
