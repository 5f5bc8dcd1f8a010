(** Vocabulary for table flips. *)
From Verif Require Export TableFlip UsherSpec.
Set Implicit Arguments.
Open Scope nat_scope.

(** Occupancy [o] has code [c] on site [s]. *)
Definition carries (o : list nat) (c s : nat) : bool :=
  match nth_error o s with Some c' => c' =? c | None => false end.

(** On the sites [act], exactly [-z] sites lose code [c] if [z < 0] and exactly [z]
    sites get it if [z > 0], for every code [c] and its entry [z] of the flip vector. *)
Definition site_moves (act codes : list nat) (us : list Z) (o o' : list nat) : Prop :=
  forall p c z, nth_error codes p = Some c -> nth_error us p = Some z ->
    countb (fun s => carries o c s && negb (carries o' c s)) act = Z.to_nat (- z) /\
    countb (fun s => carries o' c s && negb (carries o c s)) act = Z.to_nat z.

(** Entries of a flip vector that belong to sublattice [k]. *)
Definition part_of (sls : list sublattice) (k : nat) (sl : sublattice) (u : list Z) : list Z :=
  firstn (length (sl_encoding sl)) (skipn (dim_offset sls k) u).

(** [o'] is obtained from [o] by moving species between active sites as [u] says. *)
Definition moves_as (sls : list sublattice) (u : list Z) (o o' : list nat) : Prop :=
  length o' = length o /\
  (forall s, (forall sl, In sl sls -> ~ In s (sl_active sl)) -> nth_error o' s = nth_error o s) /\
  (forall k sl, nth_error sls k = Some sl ->
     site_moves (sl_active sl) (sl_encoding sl) (part_of sls k sl u) o o').

(** A flip vector is within bounds at counts [n]. *)
Definition within (n max_n u : list Z) : Prop :=
  length u = length n /\
  forall d x m, nth_error (vadd u n) d = Some x -> nth_error max_n d = Some m -> (0 <= x <= m)%Z.

(** Flip vectors conserve the number of sites of every sublattice. *)
Definition conserves_sites (sls : list sublattice) (u : list Z) : Prop :=
  length u = n_dims_of sls /\
  forall k sl, nth_error sls k = Some sl -> zsum (part_of sls k sl u) = 0%Z.

(** Species lists and encodings have equal lengths (true of constructed and split
    sublattices unless a light vacancy was dropped, see C04). *)
Definition coded (sls : list sublattice) : Prop :=
  forall sl, In sl sls -> length (sl_species sl) = length (sl_encoding sl).

(** A proposer as the constructor builds it over a layout (mcusher.py:489-542): the
    canonical swaps of line 540, weights by lines 520-538; the flip table is any table
    of pairwise different, non-opposite rows that conserve the sites of every sublattice
    and the linear constraints. *)
Record tf_built (N : nat) (tf : tableflip) : Prop := {
  tb_layout : layout (tf_sls tf) N;
  tb_coded : coded (tf_sls tf);
  tb_swapper : mk_usher (tf_sls tf) None = Some (tf_swapper tf);
  tb_table : tf_table tf <> [];
  tb_rows : forall u, In u (tf_table tf) -> conserves_sites (tf_sls tf) u;
  tb_distinct : forall i j u v, nth_error (tf_table tf) i = Some u -> nth_error (tf_table tf) j = Some v ->
                  (u = v -> i = j) /\ u <> vopp v;
  tb_weights : exists given, table_weights (tf_table tf) given = Some (tf_weights tf);
  tb_pos : forall w, In w (tf_weights tf) -> (0 < w)%Qc;
  tb_kernel : forall u a, In u (tf_table tf) -> In a (tf_A tf) ->
                length a = n_dims_of (tf_sls tf) /\ dot a u = 0%Z
}.

(** The counts of an occupancy, over active sites only or over all sites. *)
Definition counts_at (tf : tableflip) (active_only : bool) (o : list nat) (n : list Z) : Prop :=
  exists t, get_dim_ids_table (tf_sls tf) active_only = Some t /\
            occu_to_counts o (n_dims_of (tf_sls tf)) t = Some n.

(** [u] is plus or minus a row of the flip table. *)
Definition table_direction (tf : tableflip) (u : list Z) : Prop :=
  exists v, In v (tf_table tf) /\ (u = v \/ u = vopp v).
