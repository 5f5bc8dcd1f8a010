(** Model of [smol/moca/kernel/bias.py]. *)
From Verif Require Export SiteTable RLib.
Set Implicit Arguments.
Open Scope nat_scope.

(** [MCBias.compute_bias_change], bias.py:79-93, for a given [compute_bias]. *)
Definition default_change {B} (sub : B -> B -> B) (value : list nat -> option B) (occu : list nat) (st : step) : option B :=
  let? b := value (apply_step occu st) in
  let? a := value occu in
  Some (sub b a).

(** ** FugacityBias *)
(** The checks of the [fugacity_fractions] setter, bias.py:153-176; [value] lists the
    given dictionaries.  Extra or missing dictionaries are ignored by [zip]. *)
Definition fugacities_ok (active : list sublattice) (value : list (list (species * Qc))) : bool :=
  forallb (fun d => negb (sp_dup (map fst d))) value &&
  forallb (fun d => Qceqb (qsum (map snd d)) 1) value &&
  forallb (fun p => same_species (sl_species (fst p)) (map fst (snd p))) (combine active value).
(** [_build_fu_table], bias.py:216-233. *)
Definition fu_blocks (active : list sublattice) (value : list (list (species * Qc))) : option (list block) :=
  opt_map (fun p => let? vals := species_values (fst p) (snd p) in
                    Some (mkBlock (sl_sites (snd p)) (sl_encoding (snd p)) vals)) (combine value active).
Definition fu_table (sls : list sublattice) (value : list (list (species * Qc))) : option vtable :=
  let active := filter is_active sls in
  if fugacities_ok active value then
    let? cols := num_cols sls in
    let? bs := fu_blocks active value in
    build_table 1%Qc (num_rows sls) cols bs
  else None.
(** The default fractions, bias.py:140-143. *)
Definition default_fugacities (sls : list sublattice) : list (list (species * Qc)) :=
  map sl_space (filter is_active sls).

(** [math.log]; a non-positive argument raises. *)
Definition log_opt (q : Qc) : option R := if Qcltb 0 q then Some (ln (Qc2R q)) else None.
(** [compute_bias], bias.py:180-191. *)
Definition fu_bias (t : vtable) (occu : list nat) : option R :=
  let? vals := site_values t occu in
  let? logs := opt_map log_opt vals in Some (rsum logs).
(** [compute_bias_change], bias.py:193-214; a zero denominator is an error here (NumPy
    continues with infinities). *)
Definition fu_change (t : vtable) (occu : list nat) (st : step) : option R :=
  let? logs := opt_map (fun f : nat * nat =>
                 let? new := get_val t (fst f) (snd f) in
                 let? code := nth_error occu (fst f) in
                 let? old := get_val t (fst f) code in
                 if Qceqb old 0 then None else log_opt (new / old)%Qc) (step_dict st) in
  Some (rsum logs).

(** ** SquareChargeBias *)
(** The constructor, bias.py:253-266; [oxi] is [get_oxi_state]. *)
Definition charge_table (oxi : species -> Qc) (sls : list sublattice) : option vtable :=
  let? cols := num_cols sls in
  build_table 0%Qc (num_rows sls) cols
    (map (fun sl => mkBlock (sl_sites sl) (sl_encoding sl) (map oxi (sl_species sl))) sls).
Definition penalty_ok (penalty : Qc) : bool := Qcltb 0 penalty.
(** [compute_bias], bias.py:272-287. *)
Definition charge_bias (penalty : Qc) (t : vtable) (occu : list nat) : option Qc :=
  let? vals := site_values t occu in
  let c := qsum vals in Some (- penalty * (c * c))%Qc.
Definition charge_change penalty t := default_change Qcminus (charge_bias penalty t).

(** ** SquareHyperplaneBias *)
Definition sq (z : Z) : Z := (z * z)%Z.
(** [compute_bias], bias.py:340-352, with the table of all sites (line 331). *)
Definition hyperplane_bias (penalty : Qc) (A : list (list Z)) (b : list Z) (d : nat) (t : table) (occu : list nat)
  : option Qc :=
  let? n := occu_to_counts occu d t in
  if forallb (fun row => length row =? d) A && (length A =? length b)
  then Some (- penalty * Qc_of_Z (zsum (map (fun p => sq (dot (fst p) n - snd p)) (combine A b))))%Qc
  else None.
Definition hyperplane_change penalty A b d t := default_change Qcminus (hyperplane_bias penalty A b d t).
