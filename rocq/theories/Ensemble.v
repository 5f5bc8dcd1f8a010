(** Model of [smol/moca/ensemble.py]: chemical potentials and feature vectors. *)
From Verif Require Export SiteTable.
Set Implicit Arguments.
Open Scope nat_scope.

(** An ensemble: the processor's coefficients, its feature functions, sublattices, the
    natural parameters and the chemical potentials with their table, if set.
    [thermo_boundaries] only mirrors the potentials and is not modelled. *)
Record ensemble := mkEns {
  e_coefs : list Qc;
  e_feat : list nat -> list Qc;
  e_dfeat : list nat -> step -> list Qc;
  e_sites : nat;
  e_sls : list sublattice;
  e_params : list Qc;
  e_mu : option (list (species * Qc) * vtable)
}.
Definition e_active (e : ensemble) := filter is_active (e_sls e).
(** [species], ensemble.py:243-251 (a set: only membership matters). *)
Definition e_species (e : ensemble) : list species := flat_map sl_species (e_active e).

(** The [natural_parameters] setter, ensemble.py:267-275. *)
Fixpoint qlist_eqb (a b : list Qc) : bool :=
  match a, b with
  | [], [] => true
  | x :: a', y :: b' => Qceqb x y && qlist_eqb a' b'
  | _, _ => false
  end.
Definition set_params (e : ensemble) (p : list Qc) : option ensemble :=
  if qlist_eqb (e_coefs e) (firstn (length (e_coefs e)) p)
  then Some (mkEns (e_coefs e) (e_feat e) (e_dfeat e) (e_sites e) (e_sls e) p (e_mu e)) else None.
Definition set_mu (e : ensemble) (m : option (list (species * Qc) * vtable)) : ensemble :=
  mkEns (e_coefs e) (e_feat e) (e_dfeat e) (e_sites e) (e_sls e) (e_params e) m.

(** [_build_table], ensemble.py:89-99. *)
Definition mu_blocks (value : list (species * Qc)) (active : list sublattice) : option (list block) :=
  opt_map (fun sl => let? vals := species_values value sl in
                     Some (mkBlock (sl_sites sl) (sl_encoding sl) vals)) active.
Definition mu_table (e : ensemble) (value : list (species * Qc)) : option vtable :=
  let? cols := num_cols (e_sls e) in
  let? bs := mu_blocks value (e_active e) in
  build_table 0%Qc (e_sites e) cols bs.

(** [__delete__], ensemble.py:77-87. *)
Definition del_mu (e : ensemble) : option ensemble :=
  let e' := set_mu e None in
  if length (e_coefs e') <? length (e_params e') then set_params e' (removelast (e_params e')) else Some e'.
(** [__set__], ensemble.py:37-75.  [get_species] of the keys is done by the caller.  The
    state of the ensemble after an exception is not modelled. *)
Definition assign_mu (e : ensemble) (value : option (list (species * Qc))) : option ensemble :=
  match value with
  | None => del_mu e
  | Some v =>
      if sp_dup (map fst v) then None
      else
        let v' := filter (fun p => sp_mem (fst p) (e_species e)) v in
        if same_species (map fst v') (e_species e) then
          let? e' := match e_mu e with
                     | None => set_params e (e_params e ++ [(-(1))%Qc])
                     | Some _ => Some e
                     end in
          let? t := mu_table e' v' in
          Some (set_mu e' (Some (v', t)))
        else None
  end.
(** [Ensemble.__init__], ensemble.py:113-131. *)
Definition mk_ensemble (coefs : list Qc) feat dfeat (sites : nat) (sls : list sublattice)
  (mu : option (list (species * Qc))) : option ensemble :=
  assign_mu (mkEns coefs feat dfeat sites sls coefs None) mu.

(** [split_sublattice_by_species], ensemble.py:277-310. *)
Definition split_sublattice leb (e : ensemble) (k : nat) (occu : list nat) (groups : list (list nat)) : option ensemble :=
  let? sl := nth_error (e_sls e) k in
  let? parts := split_by_species leb sl occu groups in
  let e' := mkEns (e_coefs e) (e_feat e) (e_dfeat e) (e_sites e)
                  (firstn k (e_sls e) ++ parts ++ skipn (S k) (e_sls e)) (e_params e) (e_mu e) in
  match e_mu e with
  | None => Some e'
  | Some (v, _) =>
      let? v' := opt_map (fun sp => let? x := sp_lookup sp v in Some (sp, x)) (nodup sp_dec (e_species e')) in
      assign_mu e' (Some v')
  end.
(** [restrict_sites] and [reset_restricted_sites], ensemble.py:365-382. *)
Definition map_sls (e : ensemble) (f : sublattice -> sublattice) : ensemble :=
  mkEns (e_coefs e) (e_feat e) (e_dfeat e) (e_sites e) (map f (e_sls e)) (e_params e) (e_mu e).

(** [compute_feature_vector], ensemble.py:312-339. *)
Definition e_features (e : ensemble) (occu : list nat) : option (list Qc) :=
  match e_mu e with
  | None => Some (e_feat e occu)
  | Some (_, t) => let? vals := site_values t occu in Some (e_feat e occu ++ [qsum vals])
  end.
(** [compute_feature_vector_change], ensemble.py:341-363: every flip is compared with the
    original occupancy. *)
Definition e_change (e : ensemble) (occu : list nat) (st : step) : option (list Qc) :=
  match e_mu e with
  | None => Some (e_dfeat e occu st)
  | Some (_, t) =>
      let? ds := opt_map (fun f : nat * nat =>
                   let? new := get_val t (fst f) (snd f) in
                   let? code := nth_error occu (fst f) in
                   let? old := get_val t (fst f) code in
                   Some (new - old)%Qc) st in
      Some (e_dfeat e occu st ++ [qsum ds])
  end.
