(** The site indices of the clusters of an orbit in a supercell, [ClusterSubspace._gen_orbit_indices]
    (smol/cofe/space/clusterspace.py:1242-1278).

    Simplifications: exact arithmetic.  The inverse of the supercell matrix (numpy) is an input; supercells, their lattice points and the mapping of coordinates
    (pymatgen) are modelled as documented below. *)
From Verif Require Export OrbitGen.
Set Implicit Arguments.
Local Open Scope Qc_scope.

(** A row vector times a matrix, [np.dot]. *)
Fixpoint vmat (dim : nat) (x : list Qc) (A : list (list Qc)) : list Qc :=
  match x, A with
  | c :: x', r :: A' => qvadd (qvscale c r) (vmat dim x' A')
  | _, _ => repeat (Q2Qc 0) dim
  end.
Fixpoint zmat (dim : nat) (t : list Z) (M : list (list Z)) : list Z :=
  match t, M with
  | c :: t', r :: M' => map (fun p => (c * fst p + snd p)%Z) (combine r (zmat dim t' M'))
  | _, _ => repeat 0%Z dim
  end.

(** Equality up to integers, [pbc_diff] of pymatgen. *)
Definition pbc_close (tol : Qc) (x y : list Qc) : bool :=
  forallb (fun p => let d := fst p - snd p in Qcleb (qabs (d - Qc_of_Z (qround d))) tol) (combine x y).
(** [coord_list_mapping_pbc] of pymatgen (util/coord.py), called at clusterspace.py:1263: the index of the row of the second array that
    equals each row of the first one up to integers; no such row, or several, raise. *)
Definition pbc_matches (tol : Qc) (x : list Qc) (superset : list (list Qc)) : list nat :=
  map fst (filter (fun p => pbc_close tol x (snd p)) (combine (seq 0 (length superset)) superset)).
Definition pbc_mapping (tol : Qc) (subset superset : list (list Qc)) : option (list nat) :=
  opt_map (fun x => match pbc_matches tol x superset with [j] => Some j | _ => None end) subset.

(** [lattice_points_in_supercell] of pymatgen (util/coord.py), called at clusterspace.py:1252: the points of the lattice in the box around the supercell whose fractional
    coordinates in the supercell are at least zero and less than one (up to 1e-10, left out here), in lexicographic order. *)
Fixpoint corners (M : list (list Z)) (dim : nat) : list (list Z) :=
  match M with
  | [] => [repeat 0%Z dim]
  | r :: M' => let cs := corners M' dim in cs ++ map (fun c => map (fun p => (fst p + snd p)%Z) (combine r c)) cs
  end.
Definition zmin (l : list Z) : Z := match l with [] => 0%Z | a :: l' => fold_right Z.min a l' end.
Definition zmax (l : list Z) : Z := match l with [] => 0%Z | a :: l' => fold_right Z.max a l' end.
Definition zrange (a b : Z) : list Z := map (fun i => (a + Z.of_nat i)%Z) (seq 0 (Z.to_nat (b - a))).
Fixpoint grid (ranges : list (list Z)) : list (list Z) :=
  match ranges with [] => [[]] | r :: rs => flat_map (fun a => map (cons a) (grid rs)) r end.
Definition cell_points (dim : nat) (M : list (list Z)) (Minv : list (list Qc)) : list (list Z) :=
  let cs := corners M dim in
  let box := map (fun j => let col := map (fun c => nth j c 0%Z) cs in zrange (zmin col) (zmax col + 1)) (seq 0 dim) in
  filter (fun p => forallb (fun x => Qcleb 0 x && Qcltb x 1) (vmat dim (map Qc_of_Z p) Minv)) (grid box).
Definition frac_points (dim : nat) (M : list (list Z)) (Minv : list (list Qc)) : list (list Qc) :=
  map (fun p => vmat dim (map Qc_of_Z p) Minv) (cell_points dim M Minv).

(** The fractional coordinates of the sites of the supercell, [Structure.make_supercell] of pymatgen, called at clusterspace.py:1248: for every site
    of the structure one copy per lattice point.  (pymatgen may move them into the cell, which makes no difference up to integers.) *)
Definition supercell_coords (dim : nat) (Minv : list (list Qc)) (sites : list (list Qc)) (pts : list (list Qc)) : list (list Qc) :=
  flat_map (fun s => map (qvadd (vmat dim s Minv)) pts) sites.

(** [_gen_orbit_indices] for one orbit, clusterspace.py:1255-1275: one row for every equivalent cluster and lattice point. *)
Definition index_rows (dim : nat) (tol : Qc) (sites : list (list Qc)) (M : list (list Z)) (Minv : list (list Qc)) (clusters : list cluster)
  : option (list (list nat)) :=
  let pts := frac_points dim M Minv in
  opt_map (fun q => pbc_mapping tol (map (fun x => qvadd (vmat dim x Minv) (snd q)) (c_coords (fst q))) (supercell_coords dim Minv sites pts))
          (list_prod clusters pts).
