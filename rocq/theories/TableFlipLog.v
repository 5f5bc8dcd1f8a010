(** Model of [TableFlip.compute_log_priori_factor], mcusher.py:656-711, over the reals. *)
From Verif Require Export TableFlip RLib.
Set Implicit Arguments.
Open Scope nat_scope.

(** [facln], mcusher.py:704-705: [gammaln(n + 1)] is [ln(n!)] on counts. *)
Definition facln (n : Z) : R := ln (INR (fact (Z.to_nat n))).

(** The loop of lines 707-708 over the dimensions with a non-zero entry. *)
Definition comb_factor (u n_now n_next : list Z) : R :=
  rsum (map (fun p : Z * (Z * Z) => (facln (fst (snd p)) - facln (snd (snd p)))%R)
          (filter (fun p : Z * (Z * Z) => negb (fst p =? 0)%Z) (combine u (combine n_now n_next)))).

(** Probability of drawing direction [idx] at counts [n], lines 684-697. *)
Definition select_prob (tf : tableflip) (n : list Z) (idx : nat) : option Qc :=
  let? mask := flip_weights_mask (tf_table tf) n (tf_max tf) in
  let w := masked (tf_weights tf) mask in
  let? x := nth_error w idx in
  Some ((1 - tf_swap_weight tf) * x / qsum w)%Qc.

Definition log_priori (tf : tableflip) (occu : list nat) (st : step) : option R :=
  let? t := get_dim_ids_table (tf_sls tf) true in
  let? dn := delta_counts_from_step occu st (tf_d tf) t in
  match get_flip_id (tf_table tf) dn with
  | None => None
  | Some None => Some 0%R
  | Some (Some (fid, dir)) =>
      let? v := nth_error (tf_table tf) fid in
      let u := if dir =? 0 then v else vopp v in
      let? n_now := occu_to_counts occu (tf_d tf) t in
      let? p_now := select_prob tf n_now (2 * fid + dir) in
      let n_next := vadd n_now u in
      let? p_next := select_prob tf n_next (2 * fid + (1 - dir)) in
      Some (ln (Qc2R p_next / Qc2R p_now) + comb_factor u n_now n_next)%R
  end.
