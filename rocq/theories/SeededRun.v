(** Model of the random generators of samplers: [MCKernel.__init__] (base.py), the
    constructors of MCUshers (mcusher.py), [Sampler.from_ensemble] and [Sampler.run]
    (sampler.py).

    A process has a heap of generators; a kernel owns one, made from its seed, and hands it
    to its MCUsher and bias.  [ent n] is the seed numpy takes from the operating system the
    [n]-th time it needs one.  The draws of one proposal of a plain MCUsher are merged into
    one draw from the distribution of the proposal (Usher.v, TableFlip.v). *)
From Verif Require Export Kernel WangLandau TableFlip Sampler.
Set Implicit Arguments.
Local Open Scope nat_scope.

(** ** What the kernels add to the walk *)

(** The test of a step: settled, or by comparing with [log(rng.random())] (metropolis.py:46-48,
    random.py:33-35, wanglandau.py:190-201). *)
Inductive verdict := Settled (b : bool) | Toss (e : R).
Definition weigh (e : R) : verdict := if Rle_dec 0 e then Settled true else Toss e.
(** Auxiliary state of a kernel: its value after construction, [set_aux_state], the
    verdict on a step, and the state after the step. *)
Record rules (A : Type) := mkRules {
  r_init : A;
  r_start : A -> list nat -> option A;
  r_verdict : A -> list nat -> step -> option verdict;
  r_post : A -> list nat -> step -> bool -> option A
}.
(** Metropolis (metropolis.py:31-49) and UniformlyRandom (random.py:28-36), with [rule] the
    exponent of Kernel.v; no auxiliary state (base.py:286-288). *)
Definition plain_rules (K : mckernel) (rule : Qc -> R -> option R -> R) : rules unit :=
  mkRules tt (fun _ _ => Some tt)
    (fun _ occu st =>
       let d := compute_step_trace K occu st in
       let? lf := k_logp K occu st in
       Some (weigh (rule (d_enth d) lf (d_bias d))))
    (fun _ _ _ _ => Some tt).
(** Wang-Landau, wanglandau.py:186-300; [None] is the infinite enthalpy before the first
    [set_aux_state]: every step is rejected (line 191) and nothing is counted (line 231); a zero check period
    raises (line 252). *)
Definition wl_rules (C : wl_config) (K : mckernel) : rules (option wl) :=
  mkRules None
    (fun a occu => Some (Some (match a with None => wl_init C K occu | Some w => wl_set_aux K w occu end)))
    (fun a occu st =>
       match a with
       | None => Some (Settled false)
       | Some w =>
           let e' := (wl_enth w + d_enth (compute_step_trace K occu st))%Qc in
           if Qcltb e' (c_min C) || Qcleb (c_max C) e' then Some (Settled false)
           else let? x := wl_exponent C K (wl_S w) (wl_enth w) e' occu st in Some (weigh x)
       end)
    (fun a occu st acc =>
       match a with
       | None => if c_check C =? 0 then None else Some None
       | Some w => let? w' := wl_count C (if acc : bool then wl_do_accept K w st else w) in
                   let? w'' := wl_check C w' in Some (Some w'')
       end).

(** ** Step types as given by the user *)

(** A step type given by name; the proposals of a table flip either return a step or hand
    over to a swapper (mcusher.py:578-579, 606-610). *)
Inductive named := Plain (p : list nat -> prog step)
                 | Table (p : list nat -> prog (option step)) (swap : list nat -> prog step).
(** [TableFlip.propose_step], mcusher.py:553-639, up to the calls of the swapper. *)
Definition table_draw (tf : tableflip) (occu : list nat) : prog (option step) :=
  draw do_swap <- bernoulli (tf_swap_weight tf);
  if do_swap then pret None
  else
    draw t <- of_opt (get_dim_ids_table (tf_sls tf) true);
    draw t_full <- of_opt (get_dim_ids_table (tf_sls tf) false);
    draw L <- of_opt (occu_to_species_list occu (tf_d tf) t);
    draw L_full <- of_opt (occu_to_species_list occu (tf_d tf) t_full);
    draw mask <- of_opt (if constraints_hold tf (count_list L_full)
                         then flip_weights_mask (tf_table tf) (count_list L) (tf_max tf)
                         else Some (repeat false (2 * length (tf_table tf))));
    let mw := masked (tf_weights tf) mask in
    if existsb (fun x => Qcltb x 0) mw then pfail
    else if forallb (fun x => Qceqb x 0) mw then pret None
    else
      draw idx <- choose_section mw;
      draw v <- of_opt (nth_error (tf_table tf) (idx / 2));
      let u := if idx mod 2 =? 1 then vopp v else v in
      draw st <- flip_sublattices u L
        (combine (tf_sls tf)
           (get_dim_ids_by_sublattice (map (fun sl => length (sl_species sl)) (tf_sls tf))));
      pret (Some st).
(** An MCUsher object: the address of its generator, and the objects it uses. *)
Inductive mover :=
| MPlain (g : nat) (p : list nat -> prog step)
| MTable (g : nat) (p : list nat -> prog (option step)) (swapper : mover)
| MMulti (g : nat) (lens : list nat) (ps : list Qc) (sub : mover)
| MComp (g : nat) (ps : list Qc) (subs : list mover).
(** The steps of a MultiStep or Composite: a name or an MCUsher object (mcusher.py:263-267,
    350-355). *)
Inductive part := Name (s : named) | Object (u : mover).
(** Step type with its arguments; the probabilities of lengths and parts are those of
    [mk_multistep] and [mk_composite] of Usher.v. *)
Inductive step_type :=
| Single (s : named)
| MultiOf (lens : list nat) (ps : list Qc) (s : part)
| CompOf (ps : list Qc) (l : list part).

Section Generators.
(** The generators of numpy: their state, [default_rng(seed)], the index drawn by a choice
    with the given weights, and [random()]. *)
Variable G : Type.
Variable seeded : nat -> G.
Variable pick : list Qc -> G -> nat * G.
Variable unif : G -> R * G.

Definition exec {X} (m : prog X) (g : G) : option (X * G) :=
  let (i, g') := pick (map fst m) g in
  match nth_error m i with Some (_, Some x) => Some (x, g') | _ => None end.
Definition draw_at {X} (a : nat) (m : prog X) (h : list G) : option (X * list G) :=
  let? g := nth_error h a in
  let? (x, g') := exec m g in
  Some (x, upd h a g').

(** The loop of [MultiStep.propose_step], mcusher.py:295-301. *)
Fixpoint multi_go (propose : list nat -> list G -> option (step * list G)) (n : nat)
  (steps : list step) (occu : list nat) (h : list G) : option (step * list G) :=
  match n with
  | 0 => Some (concat steps, h)
  | S n' =>
      let? (st, h1) := propose occu h in
      if fresh_sites st steps
      then multi_go propose n' (steps ++ [st]) (apply_step occu st) h1
      else multi_go propose n' steps occu h1
  end.
(** [propose_step] of the MCUshers, mcusher.py:154-200, 286-304, 392-394, 553-639. *)
Fixpoint propose (u : mover) (occu : list nat) (h : list G) : option (step * list G) :=
  match u with
  | MPlain a p => draw_at a (p occu) h
  | MTable a p s =>
      let? (r, h1) := draw_at a (p occu) h in
      match r with Some st => Some (st, h1) | None => propose s occu h1 end
  | MMulti a lens ps v =>
      let? (len, h1) := draw_at a (choice_p lens ps) h in
      let? (st, h2) := propose v occu h1 in
      multi_go (propose v) (len - 1) [st] (apply_step occu st) h2
  | MComp a ps us =>
      let? (i, h1) := draw_at a (choice_p (seq 0 (length us)) ps) h in
      (fix go (us : list mover) (i : nat) : option (step * list G) :=
         match us, i with
         | u :: _, 0 => propose u occu h1
         | _ :: us', S i' => go us' i'
         | [], _ => None
         end) us i
  end.

(** ** Construction *)

Section Process.
(** The seeds the operating system gives to this process. *)
Variable ent : nat -> nat.
(** The heap of generators and the number of seeds taken so far. *)
Record world := mkWorld { heap : list G; taken : nat }.
(** [np.random.default_rng(r)] with a generator or [None] (mcusher.py:77). *)
Definition default_rng (r : option nat) (w : world) : nat * world :=
  match r with
  | Some a => (a, w)
  | None => (length (heap w), mkWorld (heap w ++ [seeded (ent (taken w))]) (S (taken w)))
  end.
(** [mcusher_factory] for a name: the swapper of a table flip is made without generator
    (mcusher.py:540). *)
Definition make_named (s : named) (r : option nat) (w : world) : mover * world :=
  match s with
  | Plain p => let (a, w1) := default_rng r w in (MPlain a p, w1)
  | Table p q => let (a, w1) := default_rng r w in
                 let (b, w2) := default_rng None w1 in
                 (MTable a p (MPlain b q), w2)
  end.
(** Named parts are made without generator (mcusher.py:263-267, 350-354). *)
Definition make_part (s : part) (w : world) : mover * world :=
  match s with Name s => make_named s None w | Object u => (u, w) end.
Fixpoint make_parts (l : list part) (w : world) : list mover * world :=
  match l with
  | [] => ([], w)
  | s :: l' => let (u, w1) := make_part s w in
               let (us, w2) := make_parts l' w1 in (u :: us, w2)
  end.
Definition make_steps (s : step_type) (r : option nat) (w : world) : mover * world :=
  match s with
  | Single s => make_named s r w
  | MultiOf lens ps s => let (a, w1) := default_rng r w in
                         let (u, w2) := make_part s w1 in (MMulti a lens ps u, w2)
  | CompOf ps l => let (a, w1) := default_rng r w in
                   let (us, w2) := make_parts l w1 in (MComp a ps us, w2)
  end.

Section Kernels.
Variable A : Type.
Variable R : rules A.
Record kern := mkKern { kr_seed : nat; kr_rng : nat; kr_mover : mover; kr_aux : A }.
(** The test with the generator of the kernel, metropolis.py:46-48. *)
Definition settle (v : verdict) (a : nat) (h : list G) : option (bool * list G) :=
  match v with
  | Settled b => Some (b, h)
  | Toss e => let? g := nth_error h a in
              let (u, g') := unif g in
              let? b := accept_test e u in
              Some (b, upd h a g')
  end.
(** [single_step], base.py:145-166. *)
Definition kstep (k : kern) (occu : list nat) (h : list G) : option (kern * (list nat * bool) * list G) :=
  let? (st, h1) := propose (kr_mover k) occu h in
  let? v := r_verdict R (kr_aux k) occu st in
  let? (acc, h2) := settle v (kr_rng k) h1 in
  let? aux := r_post R (kr_aux k) occu st acc in
  Some (mkKern (kr_seed k) (kr_rng k) (kr_mover k) aux,
        (if acc : bool then apply_step occu st else occu, acc), h2).
(** [MCKernel.__init__], base.py:213-238: the seed, the generator, the MCUsher, and a first
    step from the occupancy of zeros. *)
Definition make_kernel (nsites : nat) (s : step_type) (seed : option nat) (w : world) : option (kern * world) :=
  let (seed, w1) := match seed with
                    | Some x => (x, w)
                    | None => (ent (taken w), mkWorld (heap w) (S (taken w)))
                    end in
  let a := length (heap w1) in
  let (u, w2) := make_steps s (Some a) (mkWorld (heap w1 ++ [seeded seed]) (taken w1)) in
  let? (k, _, h) := kstep (mkKern seed a u (r_init R)) (repeat 0 nsites) (heap w2) in
  Some (k, mkWorld h (taken w2)).
Fixpoint make_kernels (nsites : nat) (s : step_type) (seeds : list (option nat)) (w : world)
  : option (list kern * world) :=
  match seeds with
  | [] => Some ([], w)
  | x :: seeds' => let? (k, w1) := make_kernel nsites s x w in
                   let? (ks, w2) := make_kernels nsites s seeds' w1 in
                   Some (k :: ks, w2)
  end.

(** What a sampler needs from the ensemble: the number of sites, whether chemical potentials
    are set, and the default step types. *)
Record ens := mkEns { e_sites : nat; e_mu : bool; e_flip : named; e_swap : named }.
(** [Sampler.from_ensemble], sampler.py:93-138. *)
Definition default_steps (E : ens) (given : option step_type) : step_type :=
  match given with
  | Some s => s
  | None => Single (if e_mu E then e_flip E else e_swap E)
  end.
(** A sampler: its kernels and the samples saved so far (occupancy and acceptance of each
    walker). *)
Definition row := list (list nat * bool).
Record sampler := mkSampler { s_kernels : list kern; s_saved : list row }.
Definition from_ensemble (E : ens) (given : option step_type) (seeds : option (list nat)) (nwalkers : nat)
  (w : world) : option (sampler * world) :=
  let? seeds := match seeds with
                | Some l => if length l =? nwalkers then Some (map Some l) else None
                | None => Some (repeat None nwalkers)
                end in
  let? (ks, w') := make_kernels (e_sites E) (default_steps E given) seeds w in
  if length ks =? 0 then None      (* [mckernels[0]], line 118 *)
  else Some (mkSampler ks [], w').
(** The seeds in the metadata of the samples, sampler.py:50 and base.py:224-226. *)
Definition recorded (s : sampler) : list nat := map kr_seed (s_kernels s).

(** ** Runs *)

(** Initial occupancies: one occupancy or one per walker. *)
Inductive occus := One (o : list nat) | Rows (l : list (list nat)).
(** The shape test and [_reshape_occu], sampler.py:400-402 and 437-452, for kernels of one
    cell. *)
Definition reshape (nsites nwalkers : nat) (o : occus) : option (list (list nat)) :=
  match o with
  | One o => if (nwalkers =? 1) then Some [o] else None
  | Rows l => if (length l =? nwalkers) && forallb (fun o => length o =? nsites) l then Some l else None
  end.
(** [set_aux_state] of every kernel, sampler.py:406-407. *)
Definition start_kernel (p : kern * list nat) : option kern :=
  let? a := r_start R (kr_aux (fst p)) (snd p) in
  Some (mkKern (kr_seed (fst p)) (kr_rng (fst p)) (kr_mover (fst p)) a).
(** One step of all walkers, sampler.py:197 and 432-435. *)
Fixpoint sweep (ks : list kern) (os : list (list nat)) (h : list G) : option (list kern * row * list G) :=
  match ks, os with
  | k :: ks', o :: os' =>
      let? (k1, x, h1) := kstep k o h in
      let? (ks1, r, h2) := sweep ks' os' h1 in
      Some (k1 :: ks1, x :: r, h2)
  | _, _ => Some ([], [], h)
  end.
(** [n] steps, sampler.py:195-206; the last row is kept. *)
Fixpoint sweeps (n : nat) (ks : list kern) (r : row) (h : list G) : option (list kern * row * list G) :=
  match n with
  | 0 => Some (ks, r, h)
  | S n' => let? (ks1, r1, h1) := sweep ks (map fst r) h in sweeps n' ks1 r1 h1
  end.
(** The samples, sampler.py:194-209 and 280-283. *)
Fixpoint collect (m thin : nat) (ks : list kern) (r : row) (h : list G) : option (list kern * list row * list G) :=
  match m with
  | 0 => Some (ks, [], h)
  | S m' => let? (ks1, r1, h1) := sweeps thin ks r h in
            let? (ks2, rs, h2) := collect m' thin ks1 r1 h1 in
            Some (ks2, r1 :: rs, h2)
  end.
Record request := mkReq { q_steps : nat; q_thin : nat; q_occus : option occus }.
(** [Sampler.run], sampler.py:252-283, in memory. *)
Definition run (nsites : nat) (s : sampler) (q : request) (w : world) : option (sampler * world) :=
  if q_thin q =? 0 then None
  else
    let? os := match q_occus q with
               | Some o => reshape nsites (length (s_kernels s)) o
               | None => match rev (s_saved s) with
                         | [] => None      (* RuntimeError, line 257 *)
                         | r :: _ => Some (map fst r)
                         end
               end in
    let? ks := opt_map start_kernel (combine (s_kernels s) os) in
    let? (ks', rs, h) := collect (q_steps q / q_thin q) (q_thin q) ks (map (fun o => (o, true)) os) (heap w) in
    Some (mkSampler ks' (s_saved s ++ rs), mkWorld h (taken w)).
Fixpoint runs (nsites : nat) (s : sampler) (qs : list request) (w : world) : option (sampler * world) :=
  match qs with
  | [] => Some (s, w)
  | q :: qs' => let? (s1, w1) := run nsites s q w in runs nsites s1 qs' w1
  end.
(** The samples of a session: build a sampler and run it. *)
Definition session (E : ens) (given : option step_type) (seeds : option (list nat)) (nwalkers : nat)
  (qs : list request) (w : world) : option (list row) :=
  let? (s, w1) := from_ensemble E given seeds nwalkers w in
  let? (s', _) := runs (e_sites E) s qs w1 in
  Some (s_saved s').
End Kernels.
End Process.
End Generators.

(** ** Recorded step types *)

(** [spec.steps] and [spec.weights] of a Composite, as lists of names and weights. *)
Record comp_spec := mkCS { cs_steps : list nat; cs_weights : list Qc }.
(** [add_mcusher] and [_update_p], mcusher.py:372-388. *)
Definition spec_add (c : comp_spec) (u : nat) (w : Qc) : comp_spec :=
  mkCS (cs_steps c ++ [u]) (cs_weights c ++ [w]).
(** The loop of [__init__], mcusher.py:349-360: line 356 records the step once more. *)
Definition spec_given (c : comp_spec) (p : Qc * nat) : comp_spec :=
  let c1 := spec_add c (snd p) (fst p) in mkCS (cs_steps c1 ++ [snd p]) (cs_weights c1).
Definition spec_init (l : list (Qc * nat)) : comp_spec := fold_left spec_given l (mkCS [] []).
