(** Model of the change of basis matrix of rotated site bases: [rotation_array], smol/cofe/space/orbit.py, and
    [site_rotation_matrix], smol/cofe/space/clusterspace.py, with the correlations of orbits over real site functions.

    The correlations are those of Subspace.v and Evaluator.v (exact rationals there); rotations need sines
    and square roots, so the few definitions needed are repeated over the reals. *)
From Verif Require Export Basis Subspace.
Set Implicit Arguments.
Open Scope R_scope.

(** The site bases of an orbit and its bit combinations. *)
Record rorbit := MkR { ro_bases : list basis; ro_combos : list (list (list nat)) }.

(** One entry of the outer product of site functions at the codes of a cluster, orbit.py:225-240. *)
Fixpoint product_value (bs : list basis) (bits codes : list nat) : R :=
  match bs, bits, codes with
  | b :: bs', i :: bits', c :: codes' => entry (function_array b) i c * product_value bs' bits' codes'
  | _, _, _ => 1
  end.
(** [correlation_tensors] at the codes of a cluster, orbit.py:212-242. *)
Definition combo_value (bs : list basis) (combo : list (list nat)) (codes : list nat) : R :=
  rsum (map (fun bits => product_value bs bits codes) combo) / INR (length combo).
(** The mean over the clusters of a supercell, evaluator.pyx:123-170 (Evaluator.v). *)
Definition corr_value (bs : list basis) (rows : list (list nat)) (occu : list nat) (combo : list (list nat)) : R :=
  rsum (map (fun row => combo_value bs combo (map (fun s => nth s occu 0%nat) row)) rows) / INR (length rows).
Definition corr_vector (os : list (rorbit * list (list nat))) (occu : list nat) : list R :=
  1 :: flat_map (fun q => map (corr_value (ro_bases (fst q)) (snd q) occu) (ro_combos (fst q))) os.

(** The factor of one site in [rotation_array], orbit.py:283-289. *)
Definition rot_factor (b : basis) (bi bj : nat) : R :=
  let n := length (b_space b) in
  sum n (fun s => sum n (fun t => entry (b_rot b) t s * entry (function_array b) bj t) *
                  (mu (b_space b) s * entry (function_array b) bi s)).
Fixpoint rot_product (bs : list basis) (bi bj : list nat) : R :=
  match bs, bi, bj with
  | b :: bs', i :: bi', j :: bj' => rot_factor b i j * rot_product bs' bi' bj'
  | _, _, _ => 1
  end.
(** [rotation_array], orbit.py:268-295. *)
Definition rot_element (bs : list basis) (ci cj : list (list nat)) : R :=
  rsum (flat_map (fun bi => map (rot_product bs bi) cj) ci) / INR (length ci).
Definition rotation_array (o : rorbit) : mat :=
  map (fun ci => map (rot_element (ro_bases o) ci) (ro_combos o)) (ro_combos o).
(** [scipy.linalg.block_diag]. *)
Definition width (m : mat) : nat := length (hd [] m).
Fixpoint block_diag (ms : list mat) : mat :=
  match ms with
  | [] => []
  | m :: ms' => let r := block_diag ms' in
                map (fun row => row ++ repeat 0 (width r)) m ++ map (fun row => repeat 0 (width m) ++ row) r
  end.
(** [site_rotation_matrix], clusterspace.py:471-479. *)
Definition site_rotation_matrix (os : list rorbit) : mat := block_diag ([[1]] :: map rotation_array os).
