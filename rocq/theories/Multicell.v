(** Model of [MulticellKernel], [smol/moca/kernel/base.py:438-717], with the accept rule of
    [MulticellMetropolis] and the sampling loop of [sampler.py:189-212] for one walker.

    NumPy arrays are shared by reference: occupancies live in a list of buffers, the trace of
    every cell holds the index of one, and so does the walker (the row of the sampler's
    array that is passed to every [single_step]).  Features are copied by the code, so they
    are plain values.  The random choices of a step (target cell, proposed step, uniform
    number, next hop period) are arguments. *)
From Coq Require Import String.
From Verif Require Export Kernel.
Set Implicit Arguments.
Open Scope nat_scope.

(** The cells, the accept rules of the cells and the one of hops ([_accept_step] of each cell
    and of the multi-cell kernel, metropolis.py:31-49). *)
Record mcells := mkCells {
  m_kernels : list mckernel;
  m_cell_rule : nat -> Qc -> R -> option R -> R;
  m_hop_rule : Qc -> R -> option R -> R
}.
(** [_current_kernel_index], [_features], hop counter and period; [c_bias] is the bias change
    held by the trace of each cell, which hops read but do not compute. *)
Record mc := mkMC {
  c_heap : list (list nat); c_ptr : list nat; c_walker : nat;
  c_feat : list (list Qc); c_cur : nat; c_count : nat; c_period : nat; c_bias : list (option R)
}.
Definition stored (s : mc) (i : nat) : option (list nat) :=
  let? p := nth_error (c_ptr s) i in nth_error (c_heap s) p.
Definition walker (s : mc) : option (list nat) := nth_error (c_heap s) (c_walker s).

(** [__init__], base.py:495-545, on the probability arguments: the attributes it sets, by name,
    then the attribute reads of [Metadata] at lines 541-544 ([None]: an exception).  A given
    [kernel_probabilities] is stored as [kernel_p]. *)
Definition attrs := list (string * list Qc).
Definition get_attr (a : attrs) (name : string) : option (list Qc) :=
  let? q := find (fun q => String.eqb (fst q) name) a in Some (snd q).
Definition check_probs (p : list Qc) (n : nat) : bool := Qceqb (qsum p) 1 && (length p =? n).
Definition even_probs (n : nat) : list Qc := map (fun _ => 1 / Qc_of_nat n)%Qc (seq 0 n).
Definition mc_init (n : nat) (kp : option (list Qc)) (periods : list nat) (hp : option (list Qc)) : option attrs :=
  let? a1 := match kp with
             | Some p => if check_probs p n then Some [("kernel_p"%string, p)] else None
             | None => Some [("_kernel_p"%string, even_probs n)]
             end in
  let? a2 := match hp with
             | Some p => if check_probs p (length periods) then Some [("_hop_p"%string, p)] else None
             | None => Some [("_hop_p"%string, even_probs (length periods))]
             end in
  let a := a1 ++ a2 in
  let? _ := get_attr a "_kernel_p" in
  let? _ := get_attr a "_hop_p" in
  Some a.
(** The draws of the target cell (base.py:660) and of the next hop period (base.py:531, 675). *)
Definition choose_cell (n : nat) (a : attrs) : prog nat :=
  match get_attr a "_kernel_p" with Some p => choice_p (seq 0 n) p | None => pfail end.
Definition choose_period (periods : list nat) (a : attrs) : prog nat :=
  match get_attr a "_hop_p" with Some p => choice_p periods p | None => pfail end.

(** [set_aux_state] with one occupancy per cell followed by [setup_sample]
    (sampler.py:400-415): buffers [0..n-1] are the rows, buffer [n] the stacked copy. *)
Definition mc_start (M : mcells) (cur count period : nat) (bs : list (option R)) (occus : list (list nat)) : option mc :=
  if length occus =? length (m_kernels M) then
    let? w := nth_error occus cur in
    Some (mkMC (occus ++ [w]) (seq 0 (length occus)) (length occus)
               (map (fun p => k_feat (fst p) (snd p)) (combine (m_kernels M) occus)) cur count period bs)
  else None.
(** [set_aux_state] with a single occupancy (base.py:706-711) after [setup_sample] has
    copied it: a new buffer for the walker, the traces keep their arrays. *)
Definition mc_continue (M : mcells) (s : mc) (occu : list nat) : option mc :=
  let? K := nth_error (m_kernels M) (c_cur s) in
  Some (mkMC (c_heap s ++ [occu]) (c_ptr s) (length (c_heap s)) (upd (c_feat s) (c_cur s) (k_feat K occu))
             (c_cur s) (c_count s) (c_period s) (c_bias s)).

Record mc_input := mkIn { i_target : nat; i_step : step; i_u : R; i_period : nat }.
(** [counter % period == 0]; NumPy's remainder by zero is zero. *)
Definition hop_due (s : mc) : bool := (c_period s =? 0) || (c_count s mod c_period s =? 0).

(** The hop branch of [single_step], base.py:656-681, with [_compute_step_trace] and
    [_do_accept_step], base.py:582-638. *)
Definition mc_hop (M : mcells) (s : mc) (i : mc_input) : option (mc * step_trace) :=
  let t := i_target i in
  let? K := nth_error (m_kernels M) t in
  let? p := nth_error (c_ptr s) t in
  let? o := nth_error (c_heap s) p in
  let o' := apply_step o (i_step i) in
  let new := k_feat K o' in
  let? prev := nth_error (c_feat s) (c_cur s) in
  let df := qvsub new prev in
  let de := qdot df (k_params K) in
  let? stale := nth_error (c_bias s) t in
  let db := match k_bias K with Some _ => stale | None => None end in
  let? lf := k_logp K o (i_step i) in
  let? acc := accept_test (m_hop_rule M de lf db) (i_u i) in
  if acc : bool then
    let h := upd (upd (c_heap s) p o') (c_walker s) o' in
    Some (mkMC h (c_ptr s) (c_walker s) (upd (c_feat s) t new) t 1 (i_period i) (c_bias s),
          mkStep o' true (mkDelta df de db))
  else
    let? w := walker s in
    Some (mkMC (c_heap s) (upd (c_ptr s) (c_cur s) (c_walker s)) (c_walker s) (c_feat s) (c_cur s) 1 (i_period i) (c_bias s),
          mkStep w false (mkDelta df de db)).
(** The other branch, base.py:682-690. *)
Definition mc_inside (M : mcells) (s : mc) (i : mc_input) : option (mc * step_trace) :=
  let c := c_cur s in
  let? K := nth_error (m_kernels M) c in
  let? w := walker s in
  let? tr := single_step K (m_cell_rule M c) w (i_step i) (i_u i) in
  let? f := nth_error (c_feat s) c in
  let feats := if s_accepted tr then upd (c_feat s) c (qvadd f (d_feat (s_delta tr))) else c_feat s in
  Some (mkMC (upd (c_heap s) (c_walker s) (s_occu tr)) (upd (c_ptr s) c (c_walker s)) (c_walker s) feats c
             (S (c_count s)) (c_period s) (upd (c_bias s) c (d_bias (s_delta tr))), tr).
Definition mc_step (M : mcells) (s : mc) (i : mc_input) : option (mc * step_trace) :=
  if hop_due s then mc_hop M s i else mc_inside M s i.

(** The values recorded by the sampler: [compute_initial_trace] (base.py:713-717) and the
    accumulation of accepted changes (sampler.py:198-208). *)
Record rec := mkRec { r_occu : list nat; r_cell : nat; r_feat : list Qc; r_enth : Qc; r_bias : option R }.
Definition rec_start (M : mcells) (s : mc) : option rec :=
  let? K := nth_error (m_kernels M) (c_cur s) in
  let? w := walker s in
  let t := initial_trace K w in
  Some (mkRec w (c_cur s) (w_feat t) (w_enth t) (w_bias t)).
Definition rec_step (r : rec) (s : mc) (tr : step_trace) : rec :=
  let d := s_delta tr in
  if s_accepted tr then
    mkRec (s_occu tr) (c_cur s) (qvadd (r_feat r) (d_feat d)) (r_enth r + d_enth d)%Qc
          (match r_bias r, d_bias d with Some a, Some b => Some (a + b)%R | x, _ => x end)
  else mkRec (s_occu tr) (c_cur s) (r_feat r) (r_enth r) (r_bias r).
