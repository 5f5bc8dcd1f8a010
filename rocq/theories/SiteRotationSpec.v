(** Specification for C104: orthonormal bases, rotated subspaces, and matrices applied to vectors. *)
From Verif Require Import SubspaceSpec.
From Verif Require Export SiteRotation BasisProps.
Import Basis.
Set Implicit Arguments.
Open Scope R_scope.

(** The constant function and the others, orthonormal with respect to the measure. *)
Definition orthonormal_basis (b : basis) : Prop :=
  let n := length (b_space b) in
  rect n n (b_f b) /\ (0 < n)%nat /\ nth 0 (b_f b) [] = repeat 1 n /\
  forall i j, (i < n)%nat -> (j < n)%nat -> inner (b_space b) (nth i (b_f b) []) (nth j (b_f b) []) = if Nat.eqb i j then 1 else 0.
(** The number of functions of a site. *)
Definition nfun (b : basis) : nat := (length (b_space b) - 1)%nat.

(** Rotations of site bases, given for each site space (equal bases are rotated together, C84). *)
Definition turn (calls : site_space -> list call) (b : basis) : basis := rotate_all (calls (b_space b)) b.
Definition turn_orbit (calls : site_space -> list call) (o : rorbit) : rorbit := MkR (map (turn calls) (ro_bases o)) (ro_combos o).

(** A basis that was not rotated before: uniform measure, orthonormal, two or more species; the calls do not pair a function with itself,
    and with two species there is none or an odd number of them. *)
Record fresh_basis (calls : site_space -> list call) (b : basis) : Prop := {
  fr_uniform : uniform (b_space b);
  fr_on : orthonormal_basis b;
  fr_rot : b_rot b = eye (length (b_space b));
  fr_calls : (3 <= length (b_space b))%nat /\ (forall c, In c (calls (b_space b)) -> distinct_functions (length (b_space b)) c) \/
             length (b_space b) = 2%nat /\ (calls (b_space b) = [] \/ Nat.Odd (length (calls (b_space b))))
}.

(** Sites that a symmetry of the cluster exchanges have the same basis. *)
Definition sym_bases (bs : list basis) (ps : list (list nat)) : Prop :=
  forall p i j, In p ps -> nth_error p i = Some j -> nth_error bs j = nth_error bs i.
(** The functions of the sites: all but the constant one. *)
Definition bits_lists (bs : list basis) : list (list nat) := map (fun b => seq 0 (nfun b)) bs.
(** An orbit with all its functions. *)
Definition full_orbit (o : rorbit) : Prop :=
  exists ps, perm_group (length (ro_bases o)) ps /\ sym_bases (ro_bases o) ps /\ gen_combos (bits_lists (ro_bases o)) ps = Some (ro_combos o).
(** Every code is that of a species allowed there. *)
Definition valid_rows (o : rorbit) (rows : list (list nat)) (occu : list nat) : Prop :=
  forall row, In row rows -> Forall2 (fun b s => (nth s occu 0%nat < length (b_space b))%nat) (ro_bases o) row.

(** Matrix times vector. *)
Definition dotp (u v : list R) : R := rsum (map (fun p => fst p * snd p) (combine u v)).
Definition mat_vec (m : mat) (v : list R) : list R := map (fun row => dotp row v) m.
