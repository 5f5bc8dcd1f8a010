(** Cluster subspaces from cutoffs and their orbits in supercells: [ClusterSubspace.from_cutoffs], the constructors of subspaces and orbits and the cluster tables
    of a supercell (smol/cofe/space/clusterspace.py:96-302 and 1225-1278, smol/cofe/space/orbit.py:55-210).

    Simplifications: exact arithmetic; every site of the structure is active; the symmetry operations (pymatgen) and the arrays of the site functions
    (see Basis.v) are inputs.  Structure matchers and the number of threads are left out. *)
From Verif Require Export OrbitIndices Subspace.
Set Implicit Arguments.
Local Open Scope nat_scope.

Section Build.
Variables (dim : nat) (tol : Qc) (ops : list symop) (nbits : list nat) (fb : nat -> list (list Qc)).
(** An orbit as the subspace uses it: [Orbit.__init__], orbit.py:55-110, with [multiplicity] (128-130), [bit_combos] (133-149) and [basis_arrays] (206-210).
    The key stands for the base cluster: the position of the orbit among the generated ones. *)
Definition make_orbit (key : nat) (o : gorbit) : option sorbit :=
  let? p := orbit_parts dim tol ops (g_base o) in
  let? cs := gen_combos (g_bits nbits o) (o_perms p) in
  Some (mkS key (length (o_clusters p)) (map fb (g_kinds o)) cs 0 0).
Fixpoint make_orbits (key : nat) (os : list gorbit) : option (list sorbit) :=
  match os with [] => Some [] | o :: os' => let? s := make_orbit key o in let? r := make_orbits (S key) os' in Some (s :: r) end.
Fixpoint make_items (key : nat) (D : orbit_dict) : option (list (nat * list sorbit)) :=
  match D with
  | [] => Some []
  | (k, os) :: D' => let? s := make_orbits key os in let? r := make_items (key + length os) D' in Some ((k, s) :: r)
  end.
(** The test of the constructor, clusterspace.py:163-171: every operation maps the sites onto sites, up to integers. *)
Definition keeps_sites (sites : list (list Qc)) : bool :=
  forallb (fun g => forallb (fun x => existsb (pbc_close tol (operate g x)) sites) sites) ops.
(** [ClusterSubspace.from_cutoffs], clusterspace.py:217-302, with the constructor (163-214).  The orbits are returned with the subspace. *)
Definition from_cutoffs (G : list (list Qc)) (nbrs : Qc -> list (nat * list Qc)) (sites : list (list Qc)) (cutoffs : list (nat * option Qc)) : option (orbit_dict * subspace) :=
  let? D := fst (gen_orbits dim tol ops nbits G nbrs sites cutoffs) in
  let? items := make_items 0 D in
  if keeps_sites sites then Some (D, new_sub items) else None.
(** [gen_orbit_indices] for all orbits of a subspace, clusterspace.py:1242-1278. *)
Definition space_tables (sites : list (list Qc)) (M : list (list Z)) (Minv : list (list Qc)) (D : orbit_dict) (st : subspace) : option (list ctable) :=
  opt_map (fun so => let? o := nth_error (flat_map snd D) (s_key so) in
                     let? p := orbit_parts dim tol ops (g_base o) in
                     index_rows dim tol sites M Minv (o_clusters p)) (sub_orbits st).
End Build.
