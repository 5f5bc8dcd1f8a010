(** Geometry of orbits: symmetrically equivalent clusters, the operations and site permutations of a
    cluster ([smol/cofe/space/orbit.py]), and the generation of all orbits within diameter cutoffs
    ([smol/cofe/space/clusterspace.py]).

    Simplifications: coordinates are exact rationals; lengths enter through the metric tensor of the
    lattice (the products of its vectors), and every comparison of lengths is done on squares.
    Site bases are represented by the index of the site of the prim structure they belong to. *)
From Verif Require Export Cluster Subspace Domain.
Set Implicit Arguments.
Local Open Scope Qc_scope.

(** ** Symmetry operations *)
(** [SymmOp] of pymatgen in fractional coordinates, and [operate_multi] on one row. *)
Record symop := mkOp { op_rot : list (list Qc); op_trans : list Qc }.
Definition operate (g : symop) (x : list Qc) : list Qc := qvadd (map (fun r => qdot r x) (op_rot g)) (op_trans g).

(** ** Lengths *)
(** Square of the distance of two points, for the metric tensor [G]. *)
Definition dist2 (G : list (list Qc)) (x y : list Qc) : Qc :=
  let v := qvsub x y in qdot v (map (fun r => qdot r v) G).
Definition qmax (x y : Qc) : Qc := if Qcleb x y then y else x.
(** Square of [diameter], cluster.py:79-84. *)
Definition diam2 (G : list (list Qc)) (A : list (list Qc)) : Qc :=
  fold_right qmax 0 (flat_map (fun x => map (dist2 G x) A) A).
(** Whether the length with square [d2] is greater than [d]. *)
Definition exceeds (d2 d : Qc) : bool := Qcltb d 0 || Qcltb (d * d) d2.

Section Geometry.
Variables (dim : nat) (tol : Qc) (ops : list symop).

(** [cluster in clusters]: Python compares the elements with the given one. *)
Definition mem_cluster (c : cluster) (l : list cluster) : bool := existsb (fun e => cluster_eq tol e c) l.

(** The loop of [Orbit.clusters], orbit.py:166-175. *)
Fixpoint equiv_loop (base : list (list Qc)) (gs : list symop) (acc : list cluster) : option (list cluster) :=
  match gs with
  | [] => Some acc
  | g :: gs' =>
      let? c := mk_cluster dim (map (operate g) base) in
      equiv_loop base gs' (if mem_cluster c acc then acc else acc ++ [c])
  end.
Definition equiv_clusters (b : cluster) : option (list cluster) := equiv_loop (c_coords b) ops [b].

(** [coord_list_mapping] of pymatgen (util/coord.py), called at orbit.py:424 and 450: for every row of the first array the index
    of the row of the second one that is close to it.  No close row, or several, raise.  numpy's
    relative tolerance is left out. *)
Definition matches (x : list Qc) (superset : list (list Qc)) : list nat :=
  map fst (filter (fun p => close tol x (snd p)) (combine (seq 0 (length superset)) superset)).
Definition coord_mapping (subset superset : list (list Qc)) : option (list nat) :=
  opt_map (fun x => match matches x superset with [j] => Some j | _ => None end) subset.

(** One turn of the loop of [_gen_cluster_symops], orbit.py:440-454: the site permutation, if the
    operation maps the cluster to a periodic image of itself. *)
Definition site_permutation (b : cluster) (g : symop) : option (option (list nat)) :=
  let? c := mk_cluster dim (map (operate g) (c_coords b)) in
  if cluster_eq tol c b then
    let recenter := map (fun x => Qc_of_Z (qround x)) (qvsub (c_centroid b) (c_centroid c)) in
    let? m := coord_mapping (c_coords b) (map (fun x => qvadd x recenter) (c_coords c)) in
    Some (Some m)
  else Some None.
Fixpoint symops_loop (b : cluster) (gs : list symop) : option (list (symop * list nat)) :=
  match gs with
  | [] => Some []
  | g :: gs' =>
      let? m := site_permutation b g in
      let? r := symops_loop b gs' in
      Some (match m with Some p => (g, p) :: r | None => r end)
  end.

(** What [Orbit] computes from its base cluster: [clusters] (162-180), [cluster_symops] and
    [cluster_permutations] (183-202, 436-460).  Each of them raises SymmetryError when the number of
    clusters times the number of operations of the cluster is not the number of operations. *)
Record parts := mkParts { o_clusters : list cluster; o_symops : list symop; o_perms : list (list nat) }.
Definition orbit_parts (b : cluster) : option parts :=
  let? cs := equiv_clusters b in
  let? ss := symops_loop b ops in
  if (length cs * length ss =? length ops)%nat then Some (mkParts cs (map fst ss) (unique_rows (map snd ss))) else None.

(** ** Orbits *)
(** An orbit: its base cluster and, for every site of it, the index of the site of the prim structure
    whose basis it has. *)
Record gorbit := mkG { g_base : cluster; g_kinds : list nat }.
(** [Orbit.__init__], orbit.py:55-110.  The site bases and the bits have one entry per site. *)
Definition mk_orbit (kinds : list nat) (coords : list (list Qc)) : option gorbit :=
  if (length coords =? length kinds)%nat then let? c := mk_cluster dim coords in Some (mkG c kinds) else None.

Variable nbits : list nat.
(** [Orbit.bits] as the generation fills them, clusterspace.py:1377 and 1454. *)
Definition g_bits (o : gorbit) : list (list nat) := map (fun k => seq 0 (nth k nbits 0%nat)) (g_kinds o).
(** [len(orbit)], orbit.py:490-495. *)
Definition orbit_len (o : gorbit) : option nat :=
  let? p := orbit_parts (g_base o) in
  let? cs := gen_combos (g_bits o) (o_perms p) in Some (length cs).
(** [orbit in orbits], orbit.py:497-501: an element equals the orbit when its base cluster is one of the
    clusters of the orbit.  Nothing is computed for an empty list. *)
Definition orbit_in (o : gorbit) (l : list gorbit) : option bool :=
  match l with
  | [] => Some false
  | _ => let? p := orbit_parts (g_base o) in Some (existsb (fun e => mem_cluster (g_base e) (o_clusters p)) l)
  end.
Definition add_orbit (o : gorbit) (acc : list gorbit) : option (list gorbit) :=
  let? b := orbit_in o acc in Some (if b then acc else acc ++ [o]).

Variable G : list (list Qc).
(** The keys of the sorts, clusterspace.py:1387-1393 and 1469-1476.  (Diameters are rounded to six
    decimals there.) *)
Definition sort_key (o : gorbit) : option (Qc * nat * nat) :=
  let? p := orbit_parts (g_base o) in let? n := orbit_len o in
  Some (diam2 G (c_coords (g_base o)), length (o_clusters p), n).
Definition key_leb (a b : Qc * nat * nat) : bool :=
  let '(d1, m1, n1) := a in let '(d2, m2, n2) := b in
  if Qcltb d1 d2 then true else if Qcltb d2 d1 then false
  else if (m2 <? m1)%nat then true else if (m1 <? m2)%nat then false else (n1 <=? n2)%nat.
Definition sort_orbits (l : list gorbit) : option (list gorbit) :=
  let? ks := opt_map (fun o => let? k := sort_key o in Some (k, o)) l in
  Some (map snd (sort_by (fun a b => key_leb (fst a) (fst b)) ks)).

(** [_gen_point_orbits], clusterspace.py:1352-1394.  All diameters are zero. *)
Fixpoint add_points (i : nat) (sites : list (list Qc)) (acc : list gorbit) : option (list gorbit) :=
  match sites with
  | [] => Some acc
  | x :: sites' =>
      let? o := mk_orbit [i] [map (fun c => c - Qc_of_Z (qfloor c)) x] in
      let? acc' := add_orbit o acc in add_points (S i) sites' acc'
  end.
Definition gen_points (sites : list (list Qc)) : option (list gorbit) :=
  let? l := add_points 0 sites [] in sort_orbits l.

(** The grace of the diameter test, clusterspace.py:1459. *)
Definition diam_eps : Qc := Qc_frac 1 100000000.
(** The loop over neighbors, clusterspace.py:1440-1463. *)
Definition try_neighbor (d : Qc) (o : gorbit) (acc : list gorbit) (nb : nat * list Qc) : option (list gorbit) :=
  if coord_subset tol [snd nb] (c_coords (g_base o)) then Some acc else
  let? n := mk_orbit (g_kinds o ++ [fst nb]) (c_coords (g_base o) ++ [snd nb]) in
  if exceeds (diam2 G (c_coords (g_base n))) (d + diam_eps) then Some acc else add_orbit n acc.
Fixpoint fold_opt {A B} (f : A -> B -> option A) (l : list B) (a : A) : option A :=
  match l with [] => Some a | x :: l' => let? a' := f a x in fold_opt f l' a' end.
(** The loop over the orbits of the next smaller size, clusterspace.py:1436-1463. *)
Definition extend_orbit (d : Qc) (nbs : list (nat * list Qc)) (acc : list gorbit) (o : gorbit) : option (list gorbit) :=
  if exceeds (diam2 G (c_coords (g_base o))) d then Some acc else fold_opt (try_neighbor d o) nbs acc.

(** The dictionary of orbits by size, in the order of insertion. *)
Definition orbit_dict := list (nat * list gorbit).
Definition get_size (k : nat) (D : orbit_dict) : option (list gorbit) := option_map snd (find (fun e => (fst e =? k)%nat) D).
(** One turn of the loop over cutoffs, clusterspace.py:1431-1476.  [nbrs d] are the neighbors found by
    pymatgen's [get_sites_in_sphere] for the cutoff [d], with the index of the site. *)
Definition multi_step (nbrs : Qc -> list (nat * list Qc)) (D : orbit_dict) (c : nat * Qc) : option orbit_dict :=
  match fst c with
  | O => None
  | S k =>
      let? prev := get_size k D in
      let? new := fold_opt (extend_orbit (snd c) (nbrs (snd c))) prev [] in
      match new with
      | [] => Some D
      | _ => let? s := sort_orbits new in Some (D ++ [(fst c, s)])
      end
  end.
(** [_gen_multi_orbits], clusterspace.py:1396-1477.  The sizes are distinct and greater than one. *)
Definition gen_multi (nbrs : Qc -> list (nat * list Qc)) (points : list gorbit) (cutoffs : list (nat * Qc)) : option orbit_dict :=
  fold_opt (multi_step nbrs) (sort_by (fun a b => (fst a <=? fst b)%nat) cutoffs) [(1%nat, points)].

(** [_gen_orbits_from_cutoffs], clusterspace.py:1280-1350: the orbits and what is left of the dictionary of cutoffs that was passed.
    A cutoff is a number or [None]; other sizes than one with [None] raise. *)
Definition is_point (c : nat * option Qc) : bool := (fst c =? 1)%nat.
Definition gen_orbits (nbrs : Qc -> list (nat * list Qc)) (sites : list (list Qc)) (cutoffs : list (nat * option Qc))
  : option orbit_dict * list (nat * option Qc) :=
  let rest := filter (fun c => negb (is_point c)) cutoffs in
  match find is_point cutoffs with
  | Some (_, None) => (match rest with [] => Some [] | _ => None end, rest)
  | _ =>
      (let? points := gen_points sites in
       match rest with
       | [] => Some [(1%nat, points)]
       | _ => let? cs := opt_map (fun c => option_map (pair (fst c)) (snd c)) rest in gen_multi nbrs points cs
       end, rest)
  end.
End Geometry.

(** The sites that [get_sites_in_sphere] finds, clusterspace.py:1426-1435: those within [d + max_lp] of the centre of the cell,
    where [max_lp] is the largest distance of a site of the structure from the centre plus the
    tolerance.  [sqrt x2 <= r + sqrt m2] is decided on squares, for [r >= 0]. *)
Definition centre (dim : nat) : list Qc := repeat (Qc_frac 1 2) dim.
Definition max_lp2 (dim : nat) (G : list (list Qc)) (sites : list (list Qc)) : Qc := fold_right qmax 0 (map (dist2 G (centre dim)) sites).
Definition sqrt_le (x2 r m2 : Qc) : bool :=
  let l := x2 - r * r - m2 in Qcleb l 0 || Qcleb (l * l) (Q2Qc 4 * (r * r) * m2).
Definition in_sphere (dim : nat) (tol : Qc) (G : list (list Qc)) (sites : list (list Qc)) (d : Qc) (x : list Qc) : bool :=
  sqrt_le (dist2 G (centre dim) x) (d + tol) (max_lp2 dim G sites).
