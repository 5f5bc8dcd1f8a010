(** Model of saving, loading and copying cluster expansions and processors: smol/cofe/expansion.py, smol/moca/processor/base.py, expansion.py, ewald.py and
    composite.py, smol/cofe/extern/ewald.py.

    Arrays are written to a dictionary with [tolist] and read with [np.array]: lists here.  The primitive structure, the matchers and the symmetry
    operations are saved and loaded by pymatgen and are the same before and after; so is what depends on them only (a [geometry]).
    Subspaces are instances of [ClusterSubspace] itself. *)
From Verif Require Export Prune SubspaceViews Ewald.
Set Implicit Arguments.
Open Scope nat_scope.

(** ** External terms *)
(** [EwaldTerm], extern/ewald.py:33-62; [et_use]: position in [ewald_term_options]. *)
Record eterm := mkET { et_eta : option Qc; et_real : option Qc; et_recip : option Qc; et_use : nat }.
Definition make_term (eta real recip : option Qc) (use : nat) : option eterm := if use <? 4 then Some (mkET eta real recip use) else None.
Definition default_term : eterm := mkET None None None 0.
(** Its dictionary, extern/ewald.py:189-217. *)
Notation term_dict := (option Qc * option Qc * option Qc * nat)%type.
Definition term_as_dict (t : eterm) : term_dict := (et_eta t, et_real t, et_recip t, et_use t).
Definition term_from_dict (d : term_dict) : option eterm := make_term (fst (fst (fst d))) (snd (fst (fst d))) (snd (fst d)) (snd d).

(** ** Subspaces with external terms *)
Record space := mkSpace { sp_sub : subspace; sp_ext : list eterm }.
(** [len(subspace)], clusterspace.py:1499-1501. *)
Definition space_len (s : space) : nat := sub_ncorr (sp_sub s) + length (sp_ext s).
(** [add_external_term], clusterspace.py:628-643: [EwaldTerm] is the only class of terms. *)
Definition add_term (t : eterm) (s : space) : option space := match sp_ext s with [] => Some (mkSpace (sp_sub s) [t]) | _ => None end.
(** [as_dict] and [from_dict], clusterspace.py:1545-1633.  An invalid term (AttributeError) is left out with a warning; a second one raises ValueError.
    The cached tables are set in the end. *)
Definition space_as_dict (s : space) : sub_dict * list term_dict := (sub_as_dict (sp_sub s), map term_as_dict (sp_ext s)).
Definition load_term (acc : option space) (d : term_dict) : option space :=
  let? s := acc in match term_from_dict d with Some t => add_term t s | None => Some s end.
Definition space_load (d : sub_dict * list term_dict) : option space :=
  let? st := sub_load (fst d) in fold_left load_term (snd d) (Some (mkSpace st [])).
(** [__eq__], clusterspace.py:1479-1493; external terms are compared by class. *)
Definition space_eqb (a b : space) : bool := sub_eqb (sp_sub a) (sp_sub b) (map (fun _ => 0) (sp_ext a)) (map (fun _ => 0) (sp_ext b)).
(** [get_orbit_indices], clusterspace.py:1225-1240, with the table kept in the cache. *)
Definition ask (gen : scmatrix -> nat -> ctable) (m : scmatrix) (s : space) : space := mkSpace (snd (orbit_indices gen m (sp_sub s))) (sp_ext s).

(** ** Processors *)
(** An [EwaldSummation] of pymatgen: supercell, cutoffs and screening parameter; its dictionary gives it back. *)
Notation summation := (scmatrix * option Qc * option Qc * option Qc)%type.
(** What the primitive structure determines for a supercell matrix: number of cells, tables of clusters, which allowed species are vacancies, and the matrix
    that a summation has for one of the options of [EwaldTerm]. *)
Record geometry := mkGeo {
  g_size : scmatrix -> nat; g_gen : scmatrix -> nat -> ctable; g_vac : scmatrix -> list (list bool); g_ewald : summation -> nat -> nat -> nat -> Qc
}.
Inductive pkind :=
| KExpansion (P : proc)
| KDecomposition (offset : Qc) (tensors : list (list Qc)) (P : proc)
| KEwald (t : eterm) (s : summation).
(** [pr_space]: the subspace object as it is now; evaluators and tables are those of the constructor. *)
Record processor := mkPr { pr_space : space; pr_mat : scmatrix; pr_coefs : list Qc; pr_kind : pkind }.
Section With_geometry.
Variable G : geometry.
(** [get_orbit_data], the evaluator and [get_orbit_indices] in either constructor, processor/expansion.py:103-111 and 305-316.
    The expansion processor has no interaction tensors; empty ones stand for them (its methods do not look at them). *)
Definition make_proc (sp : space) (m : scmatrix) (offset : Qc) (tensors : option (list (list Qc))) : option proc :=
  let? ds := opt_map orbit_data (sub_orbits (sp_sub sp)) in
  let inter := match tensors with Some ts => ts | None => map (fun _ => []) ds end in
  Some (mkProc (g_size G m) (mkEval ds (sub_norb (sp_sub sp)) (sub_ncorr (sp_sub sp)) offset inter) (fst (orbit_indices (g_gen G) m (sp_sub sp)))).
(** [ClusterExpansionProcessor], processor/expansion.py:92-111. *)
Definition make_expansion_proc (sp : space) (m : scmatrix) (coefs : list Qc) : option processor :=
  if length coefs =? sub_ncorr (sp_sub sp) then
    let? P := make_proc sp m (Q2Qc 0) None in Some (mkPr (ask (g_gen G) m sp) m coefs (KExpansion P))
  else None.
(** [ClusterDecompositionProcessor], processor/expansion.py:283-316; without coefficients it takes the multiplicities of orbits. *)
Definition default_coefs (sp : space) : list Qc := map Qc_of_nat (orbit_multiplicities (sub_orbits (sp_sub sp))).
Definition make_decomposition (sp : space) (m : scmatrix) (offset : Qc) (tensors : list (list Qc)) (coefs : option (list Qc)) : option processor :=
  if S (length tensors) =? sub_norb (sp_sub sp) then
    let? P := make_proc sp m offset (Some tensors) in
    Some (mkPr (ask (g_gen G) m sp) m (match coefs with Some cs => cs | None => default_coefs sp end) (KDecomposition offset tensors P))
  else None.
(** [EwaldProcessor], processor/ewald.py:38-84: a subspace without an Ewald term is given a default one.  The coefficient is an array of one number. *)
Definition with_ewald (sp : space) : space := match sp_ext sp with [] => mkSpace (sp_sub sp) [default_term] | _ => sp end.
Definition make_ewald (sp : space) (m : scmatrix) (t : eterm) (coefs : list Qc) : processor :=
  mkPr (with_ewald sp) m coefs (KEwald t (m, et_real t, et_recip t, et_eta t)).
(** Values of a processor. *)
Definition as_part (p : processor) : part :=
  match pr_kind p with
  | KExpansion P => ce_part P (pr_coefs p)
  | KDecomposition _ _ P => cd_part P (pr_coefs p)
  | KEwald t s =>
      let tab := ewald_structure (g_vac G (pr_mat p)) in
      ewald_part (snd tab) (g_ewald G s (et_use t)) (fst tab) (hd (Q2Qc 0) (pr_coefs p))
  end.

(** [as_dict], processor/base.py:305-319, expansion.py:422-432, ewald.py:167-177; the class is one of three. *)
Inductive kind_dict := DExpansion | DDecomposition (offset : Qc) (tensors : list (list Qc)) | DEwald (s : summation) (t : term_dict).
Record proc_dict := mkPD { pd_sub : sub_dict * list term_dict; pd_mat : scmatrix; pd_coefs : list Qc; pd_kind : kind_dict }.
Definition proc_as_dict (p : processor) : proc_dict :=
  mkPD (space_as_dict (pr_space p)) (pr_mat p) (pr_coefs p)
       (match pr_kind p with
        | KExpansion _ => DExpansion
        | KDecomposition o ts _ => DDecomposition o ts
        | KEwald t s => DEwald s (term_as_dict t)
        end).
(** [from_dict], processor/base.py:321-331, expansion.py:215-221 and 434-445, ewald.py:179-191. *)
Definition proc_load (d : proc_dict) : option processor :=
  match pd_kind d with
  | DExpansion => let? sp := space_load (pd_sub d) in make_expansion_proc sp (pd_mat d) (pd_coefs d)
  | DDecomposition o ts => let? sp := space_load (pd_sub d) in make_decomposition sp (pd_mat d) o ts None
  | DEwald s td =>
      let? sp := space_load (pd_sub d) in
      let? t := term_from_dict td in
      let p := make_ewald sp (pd_mat d) t (pd_coefs d) in
      Some (mkPr (pr_space p) (pr_mat p) (pr_coefs p) (KEwald t s))
  end.

(** ** Composite processors *)
Record composite := mkCo { co_space : space; co_mat : scmatrix; co_parts : list processor; co_coefs : list Qc }.
Inductive any_proc := One (p : processor) | Many (c : composite).
(** The constructor and [add_processor], composite.py:40-84. *)
Definition make_composite (sp : space) (m : scmatrix) : composite := mkCo sp m [] [].
Definition add_processor (c : composite) (a : any_proc) : option composite :=
  match a with
  | Many _ => None
  | One p =>
      if negb (space_eqb (co_space c) (pr_space p)) then None
      else if negb (mat_eqb (co_mat c) (pr_mat p)) then None
      else Some (mkCo (co_space c) (co_mat c) (co_parts c ++ [p]) (co_coefs c ++ pr_coefs p))
  end.
(** [as_dict] and [from_dict], composite.py:155-175. *)
Definition comp_as_dict (c : composite) : (sub_dict * list term_dict) * scmatrix * list proc_dict :=
  (space_as_dict (co_space c), co_mat c, map proc_as_dict (co_parts c)).
Definition comp_load (d : (sub_dict * list term_dict) * scmatrix * list proc_dict) : option composite :=
  let? sp := space_load (fst (fst d)) in
  fold_left (fun acc pd => let? c := acc in let? p := proc_load pd in add_processor c (One p)) (snd d) (Some (make_composite sp (snd (fst d)))).

(** ** Expansions *)
(** [RegressionData], cofe/expansion.py:26-91: names and parameters by a number; a feature matrix has at least one row, and rows of one length. *)
Record regression := mkReg { r_info : nat; r_features : list (list Qc); r_target : list Qc }.
Definition columns (m : list (list Qc)) : option nat := match m with [] => None | r :: rs => if forallb (fun row => length row =? length r) rs then Some (length r) else None end.
Record expansion := mkX { x_space : space; x_coefs : list Qc; x_reg : option regression; x_feat : option (list (list Qc)) }.
(** The constructor, cofe/expansion.py:121-170, with [_set_evaluator_data], lines 382-398. *)
Definition reg_fits (coefs : list Qc) (r : option regression) : bool :=
  match r with None => true | Some d => match columns (r_features d) with Some n => length coefs =? n | None => false end end.
Definition make_expansion (sp : space) (coefs : list Qc) (r : option regression) : option expansion :=
  if negb (reg_fits coefs r) then None
  else if negb (length coefs =? space_len sp) then None
  else
    let? sp' := space_load (space_as_dict sp) in
    let? it := interaction_tensors (sub_orbits (sp_sub sp')) coefs (length (sp_ext sp')) in
    Some (mkX sp' coefs r (option_map r_features r)).
(** [prune], cofe/expansion.py:335-375, with the feature matrix: the columns whose coefficients stay. *)
Definition prune_ids (thr : Qc) (with_mult : bool) (x : expansion) : option (list nat) :=
  let? sel := if with_mult then eci (sub_orbits (sp_sub (x_space x))) (x_coefs x) (length (sp_ext (x_space x))) else Some (x_coefs x) in
  Some (small_ids thr sel).
Definition x_prune (thr : Qc) (with_mult : bool) (x : expansion) : option expansion :=
  let? ids := prune_ids thr with_mult x in
  let? r := prune thr with_mult (x_coefs x) (length (sp_ext (x_space x))) (sp_sub (x_space x)) in
  Some (mkX (mkSpace (snd r) (sp_ext (x_space x))) (fst r) (x_reg x) (option_map (map (drop_at ids 0)) (x_feat x))).
(** [as_dict], cofe/expansion.py:517-541, and [from_dict], lines 486-515: the saved feature matrix is assigned to the class, not to the object. *)
Notation exp_dict := ((sub_dict * list term_dict) * list Qc * option regression * option (list (list Qc)))%type.
Definition x_as_dict (x : expansion) : exp_dict := (space_as_dict (x_space x), x_coefs x, x_reg x, x_feat x).
Definition x_load (d : exp_dict) : option expansion :=
  let? sp := space_load (fst (fst (fst d))) in make_expansion sp (snd (fst (fst d))) (snd (fst d)).
(** [copy], cofe/expansion.py:377-379. *)
Definition x_copy (x : expansion) : option expansion := x_load (x_as_dict x).
(** [predict], cofe/expansion.py:259-288, from the values of the external terms. *)
Definition x_predict (x : expansion) (m : scmatrix) (occu : list nat) (ext_values : list Qc) : option Qc :=
  let? P := make_proc (x_space x) m (Q2Qc 0) None in
  let? v := correlations (p_eval P) occu (p_tables P) in
  Prune.predict (x_coefs x) (v ++ ext_values).
End With_geometry.
