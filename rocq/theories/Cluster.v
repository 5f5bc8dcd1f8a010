(** Clusters as point sets in fractional coordinates: normalisation and equality
    (smol/cofe/space/cluster.py).

    Simplifications: coordinates are exact rationals instead of floats, the lattice and the
    site spaces are left out because neither normalisation nor equality reads them. *)
From Verif Require Export QcLib.
From Coq Require Export Qround.
Set Implicit Arguments.
Local Open Scope Qc_scope.

(** [np.floor] of one number. *)
Definition qfloor (x : Qc) : Z := Qfloor (this x).

(** [np.round] of one number: to the nearest integer, halves to the even one. *)
Definition qround (x : Qc) : Z :=
  let f := qfloor x in
  let d := x - Qc_of_Z f in
  if Qcltb d (Qc_frac 1 2) then f
  else if Qcltb (Qc_frac 1 2) d then (f + 1)%Z
  else if Z.even f then f else (f + 1)%Z.

(** Absolute value, [np.abs]. *)
Definition qabs (x : Qc) : Qc := if Qcltb x 0 then - x else x.

(** A cluster: centroid and coordinates after normalisation, and the coordinates the [Site]
    objects keep, cluster.py:54-66.  The sites are made from the coordinates that were passed,
    not from the shifted ones. *)
Record cluster := mkCluster { c_centroid : list Qc; c_coords : list (list Qc); c_sites : list (list Qc) }.

(** [np.average(frac_coords, axis=0)], cluster.py:55. *)
Definition average (dim : nat) (coords : list (list Qc)) : list Qc :=
  map (fun j => qsum (map (fun x => nth j x 0) coords) / Qc_of_nat (length coords)) (seq 0 dim).

(** [Cluster.__init__], cluster.py:44-67.  [dim] is three in smol.  An empty list of sites has
    no average; rows of different lengths make no array. *)
Definition mk_cluster (dim : nat) (coords : list (list Qc)) : option cluster :=
  if negb (length coords =? 0)%nat && forallb (fun x => (length x =? dim)%nat) coords then
    let c := average dim coords in
    let shift := map (fun x => Qc_of_Z (qfloor x)) c in
    Some (mkCluster (qvsub c shift) (map (fun x => qvsub x shift) coords) coords)
  else None.

(** [is_coord_subset] of pymatgen (util/coord.py), called at cluster.py:219: every row of the
    first array has a row of the second one that differs by less than [tol] in every component. *)
Definition close (tol : Qc) (x y : list Qc) : bool :=
  forallb (fun p => Qcltb (qabs (fst p - snd p)) tol) (combine x y).
Definition coord_subset (tol : Qc) (a b : list (list Qc)) : bool :=
  forallb (fun x => existsb (close tol x) b) a.

(** Rows and columns of the coordinate array. *)
Definition shape (a : list (list Qc)) : nat * nat := (length a, length (hd [] a)).

(** [Cluster.__eq__], cluster.py:214-219. *)
Definition cluster_eq (tol : Qc) (a b : cluster) : bool :=
  if (fst (shape (c_coords a)) =? fst (shape (c_coords b)))%nat &&
     (snd (shape (c_coords a)) =? snd (shape (c_coords b)))%nat
  then
    let shift := map (fun x => Qc_of_Z (qround x)) (qvsub (c_centroid a) (c_centroid b)) in
    coord_subset tol (c_coords a) (map (fun y => qvadd y shift) (c_coords b))
  else false.

(** [from_sites], cluster.py:207-212, also used by [copy] (112-116) and [from_dict] (281-298):
    the coordinates of the sites are normalised again. *)
Definition rebuild (dim : nat) (c : cluster) : option cluster := mk_cluster dim (c_sites c).
