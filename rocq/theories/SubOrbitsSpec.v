(** Specification for C96 and C97: clusters inside clusters and functions that are factors of others. *)
From Verif Require Export SubOrbits OrbitGenSpec.
Set Implicit Arguments.
Unset Strict Implicit.
Local Open Scope Qc_scope.

Section Spec.
Variables (dim : nat) (tol : Qc) (sites : list (list Qc)) (ops : list symop) (sp : nat -> nat).

(** A symmetry image of [B], moved by a lattice vector, is part of [A]. *)
Definition contains (A B : list (list Qc)) : Prop :=
  exists g t, In g ops /\ length t = dim /\ incl (map (fun x => shift (operate g x) t) B) A.
(** The positions [m] of [A] hold, in order, a symmetry image of [B], moved by a lattice vector. *)
Definition embeds (A B : list (list Qc)) (m : list nat) : Prop :=
  length m = length B /\ (forall i, In i m -> (i < length A)%nat) /\
  exists g t, In g ops /\ length t = dim /\
    forall i x, nth_error B i = Some x -> exists j, nth_error m i = Some j /\ nth_error A j = Some (shift (operate g x) t).
(** Some product of site functions of the group [F] on the sites [A] has a factor on a symmetry image of the sites [B] that is
    a product of the group [H]. *)
Definition factor (A B : list (list Qc)) (F H : list (list nat)) : Prop :=
  exists f h m, In f F /\ In h H /\ embeds A B m /\ forall i j, nth_error m i = Some j -> nth_error h i = nth_error f j.
(** Symmetry operations preserve site spaces. *)
Definition same_spaces : Prop := forall g x i j, In g ops -> is_site dim sites i x -> is_site dim sites j (operate g x) -> sp i = sp j.

(** Orbits of a crystal, as the generation makes them, with some of the groups of symmetric bit combinations. *)
Definition orbit_made (o : gorbit) : Prop :=
  (exists A, site_cluster dim sites A /\ mk_cluster dim A = Some (g_base o)) /\ Forall2 (is_site dim sites) (g_kinds o) (c_coords (g_base o)).
Definition combos_made (o : forbit) : Prop :=
  exists bits P cs, orbit_parts dim tol ops (g_base (f_geo o)) = Some P /\ length bits = size (f_geo o) /\ sym_bits bits (o_perms P) /\
    gen_combos bits (o_perms P) = Some cs /\ incl (f_combos o) cs.
(** A dictionary of orbits by size; ids are numbered from one in order, and every orbit's functions after those of the orbits before it. *)
Record subspace_made (D : forbits) : Prop := {
  sm_sizes : NoDup (map fst D);
  sm_size : forall k os o, In (k, os) D -> In o os -> size (f_geo o) = k;
  sm_orbit : forall o, In o (all_forbits D) -> orbit_made (f_geo o);
  sm_combos : forall o, In o (all_forbits D) -> combos_made o;
  sm_id : forall i o, nth_error (all_forbits D) i = Some o -> f_id o = S i;
  sm_bit : forall l1 o l2, all_forbits D = l1 ++ o :: l2 -> f_bit o = S (list_sum (map (fun x => length (f_combos x)) l1))
}.
(** The sizes below [sz] that are asked for: [level] sizes down, or all of them for no level, or a negative or too large one; and not below [min_size]. *)
Definition asked_size (sz : nat) (level : option Z) (min_size : Z) (k : nat) : Prop :=
  (1 <= k)%nat /\ (k < sz)%nat /\ (min_size <= Z.of_nat k)%Z /\
  match level with Some l => (0 <= l)%Z -> (Z.of_nat sz - l <= Z.of_nat k)%Z | None => True end.
(** The level stops the search above size zero, or no minimal size is asked for. *)
Definition min_size_works (sz : nat) (level : option Z) (min_size : Z) : Prop :=
  (min_size <= 1)%Z \/ match level with Some l => (0 <= l < Z.of_nat sz)%Z | None => False end.
End Spec.
