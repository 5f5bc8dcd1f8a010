(** Model of [smol/moca/kernel/wanglandau.py].

    Enthalpies, entropies and features are exact rationals, so the bin of an enthalpy is an
    exact floor (the code divides doubles); the random number of a step is an argument. *)
From Verif Require Export Kernel.
From Coq Require Import Qround.
Set Implicit Arguments.
Open Scope nat_scope.

(** The arguments of the constructor, wanglandau.py:26-43. *)
Record wl_config := mkWLC {
  c_min : Qc; c_max : Qc; c_bin : Qc; c_flat : Qc; c_mod0 : Qc;
  c_check : nat; c_update : nat; c_mod : Qc -> Qc
}.
(** The checks of the constructor, wanglandau.py:83-91; a zero bin size divides by zero.  The
    check that there is no bias (line 127) is [k_bias K = None] below. *)
Definition wl_ok (C : wl_config) : bool :=
  negb (Qceqb (c_bin C) 0) && negb (Qcltb (c_max C) (c_min C)) &&
  negb (Qcleb ((c_max C - c_min C) / c_bin C) 1) && negb (Qcleb (c_mod0 C) 0).
(** [len(np.arange(min_enthalpy, max_enthalpy, bin_size))], wanglandau.py:105. *)
Definition n_levels (C : wl_config) : nat := Z.to_nat (Qceiling (this ((c_max C - c_min C) / c_bin C)%Qc)).
(** [_get_bin_id], wanglandau.py:175-180; the infinite enthalpy before [set_aux_state] is
    not modelled. *)
Definition bin_id (C : wl_config) (e : Qc) : Z := Qfloor (this ((e - c_min C) / c_bin C)%Qc).

(** The mutable attributes, with the occupancy of the walker. *)
Record wl := mkWL {
  wl_occu : list nat; wl_feat : list Qc; wl_enth : Qc;
  wl_S : list Qc; wl_H : list nat; wl_O : list nat; wl_M : list (list Qc);
  wl_n : nat; wl_m : Qc
}.
(** A new kernel after [set_aux_state] (wanglandau.py:107-143 and 290-300). *)
Definition wl_set_aux (K : mckernel) (w : wl) (occu : list nat) : wl :=
  mkWL occu (k_feat K occu) (qdot (k_feat K occu) (k_params K))
       (wl_S w) (wl_H w) (wl_O w) (wl_M w) (wl_n w) (wl_m w).
Definition wl_init (C : wl_config) (K : mckernel) (occu : list nat) : wl :=
  let L := n_levels C in
  wl_set_aux K (mkWL [] [] 0%Qc (repeat 0%Qc L) (repeat 0 L) (repeat 0 L)
                     (repeat (repeat 0%Qc (length (k_params K))) L) 0 (c_mod0 C)) occu.

(** NumPy indexing with a Python integer: negative indices count from the end. *)
Definition py_index (len : nat) (i : Z) : option nat :=
  if (0 <=? i)%Z then (if (i <? Z.of_nat len)%Z then Some (Z.to_nat i) else None)
  else if (0 <=? Z.of_nat len + i)%Z then Some (Z.to_nat (Z.of_nat len + i)) else None.
Definition py_get {A} (l : list A) (i : Z) : option A := let? k := py_index (length l) i in nth_error l k.

(** [_accept_step], wanglandau.py:186-202. *)
Definition wl_exponent (C : wl_config) (K : mckernel) (S : list Qc) (e e' : Qc) (o : list nat) (st : step) : option R :=
  let? a := py_get S (bin_id C e) in
  let? b := py_get S (bin_id C e') in
  let? lf := k_logp K o st in
  Some (Qc2R (a - b) + lf)%R.
Definition in_window (C : wl_config) (e : Qc) : bool := Qcleb (c_min C) e && Qcltb e (c_max C).
Definition wl_accept (C : wl_config) (K : mckernel) (w : wl) (st : step) (u : R) : option bool :=
  let e' := (wl_enth w + d_enth (compute_step_trace K (wl_occu w) st))%Qc in
  if Qcltb e' (c_min C) || Qcleb (c_max C) e' then Some false
  else let? x := wl_exponent C K (wl_S w) (wl_enth w) e' (wl_occu w) st in accept_test x u.

(** [_do_accept_step], wanglandau.py:204-220. *)
Definition wl_do_accept (K : mckernel) (w : wl) (st : step) : wl :=
  let d := compute_step_trace K (wl_occu w) st in
  mkWL (apply_step (wl_occu w) st) (qvadd (wl_feat w) (d_feat d)) (wl_enth w + d_enth d)%Qc
       (wl_S w) (wl_H w) (wl_O w) (wl_M w) (wl_n w) (wl_m w).

(** [_do_post_step], wanglandau.py:222-266; a zero period raises. *)
Definition wl_count (C : wl_config) (w : wl) : option wl :=
  let b := bin_id C (wl_enth w) in
  if (0 <=? b)%Z && (b <? Z.of_nat (n_levels C))%Z then
    let b := Z.to_nat b in
    let n := S (wl_n w) in
    let? total := nth_error (wl_O w) b in
    let? mean := nth_error (wl_M w) b in
    let M := upd (wl_M w) b
      (qvscale (1 / Qc_of_nat (total + 1))%Qc (qvadd (wl_feat w) (qvscale (Qc_of_nat total) mean))) in
    if c_update C =? 0 then None
    else if n mod c_update C =? 0 then
      let? s := nth_error (wl_S w) b in
      let? h := nth_error (wl_H w) b in
      Some (mkWL (wl_occu w) (wl_feat w) (wl_enth w) (upd (wl_S w) b (s + wl_m w)%Qc)
                 (upd (wl_H w) b (S h)) (upd (wl_O w) b (S total)) M n (wl_m w))
    else Some (mkWL (wl_occu w) (wl_feat w) (wl_enth w) (wl_S w) (wl_H w) (wl_O w) M n (wl_m w))
  else Some w.
(** The histogram of the bins with positive entropy and the flatness test, lines 252-261;
    [mean] of [k] numbers is their sum divided by [k]. *)
Definition wl_visited {A} (S : list Qc) (l : list A) : list A :=
  map snd (filter (fun p => Qcltb 0 (fst p)) (combine S l)).
Definition wl_flat (C : wl_config) (w : wl) : bool :=
  let h := wl_visited (wl_S w) (wl_H w) in
  (2 <=? length h) &&
  forallb (fun x => Qcltb (c_flat C * (Qc_of_nat (list_sum h) / Qc_of_nat (length h))) (Qc_of_nat x)) h.
Definition wl_check (C : wl_config) (w : wl) : option wl :=
  if c_check C =? 0 then None
  else if (wl_n w mod c_check C =? 0) && wl_flat C w then
    Some (mkWL (wl_occu w) (wl_feat w) (wl_enth w) (wl_S w) (repeat 0 (length (wl_H w))) (wl_O w) (wl_M w)
               (wl_n w) (c_mod C (wl_m w)))
  else Some w.

(** [single_step], base.py:145-166, for the proposed step and the random number. *)
Definition wl_step (C : wl_config) (K : mckernel) (w : wl) (st : step) (u : R) : option wl :=
  let? acc := wl_accept C K w st u in
  let w1 := if acc : bool then wl_do_accept K w st else w in
  let? w2 := wl_count C w1 in
  wl_check C w2.

(** The values reported by the properties, wanglandau.py:151-168. *)
Definition wl_levels (C : wl_config) (w : wl) : list Qc :=
  wl_visited (wl_S w) (map (fun i => c_min C + Qc_of_nat i * c_bin C)%Qc (seq 0 (n_levels C))).
Definition wl_entropy (w : wl) : list Qc := wl_visited (wl_S w) (wl_S w).
Definition wl_histogram (w : wl) : list nat := wl_visited (wl_S w) (wl_H w).
