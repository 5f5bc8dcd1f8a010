(** Site bases (smol/cofe/space/basis.py) and their rotation in a cluster
    subspace (smol/cofe/space/clusterspace.py:930-971).
    Simplifications: numbers are exact reals.  The code sets entries below ten
    machine epsilons to zero after a factorisation or rotation to hide rounding
    errors (basis.py:247-248, 326-329); there are none here, and this step is
    left out.  [numpy.linalg.qr] is a parameter.  The polynomials of
    [numpy.polynomial] are given by their recurrences. *)
From Verif Require Export Lib RLib Domain.
From Coq Require Import Bool.
Set Implicit Arguments.
Open Scope R_scope.

(** Two-dimensional arrays as lists of rows, and finite sums. *)
Definition mat := list (list R).
Definition entry (m : mat) (i j : nat) : R := nth j (nth i m []) 0.
Definition build (n m : nat) (f : nat -> nat -> R) : mat :=
  map (fun i => map (f i) (seq 0 m)) (seq 0 n).
Definition sum (n : nat) (f : nat -> R) : R := rsum (map f (seq 0 n)).
Definition eye (n : nat) : mat := build n n (fun i j => if Nat.eqb i j then 1 else 0).

(** The classes of basis iterators with a flavor, basis.py:435-545. *)
Inductive flavor := Indicator | Sinusoid | Polynomial | Chebyshev | Legendre.

(** A dictionary from species to their positions, basis.py:468, 497, and
    [species.index], line 507.  (Species are different: they are the keys of a
    dictionary.) *)
Fixpoint encode (l : list species) (s : species) : option nat :=
  match l with
  | [] => None
  | x :: l' => if sp_eqb x s then Some 0%nat else option_map S (encode l' s)
  end.

(** [np.linspace(low, high, n)] at position [i], basis.py:496; the defaults of
    [low] and [high] are -1 and 1 (line 484). *)
Definition linspace (low high : R) (n i : nat) : R :=
  low + INR i * ((high - low) / INR (n - 1)).

(** [polyval], [chebval], [legval] for the coefficients [n * [0] + [1]]
    (basis.py:508-511): the n-th power, Chebyshev and Legendre polynomial.  A
    recursion gives the n-th and the next one. *)
Fixpoint cheb2 (n : nat) (x : R) : R * R :=
  match n with
  | O => (1, x)
  | S n' => let (a, b) := cheb2 n' x in (b, 2 * x * b - a)
  end.
Definition cheb n x := fst (cheb2 n x).
Fixpoint leg2 (n : nat) (x : R) : R * R :=
  match n with
  | O => (1, x)
  | S n' => let (a, b) := leg2 n' x in
            (b, ((2 * INR n + 1) * x * b - INR n * a) / (INR n + 1))
  end.
Definition leg n x := fst (leg2 n x).

(** [sinusoid_factory], [sin_f], [cos_f], basis.py:560-573.  The ceiling of n/2
    is [(n + 1) / 2]. *)
Definition sinusoid (n m s : nat) : R :=
  let a := ((n + 1) / 2)%nat in
  if Nat.even n then - sin (2 * PI * INR a * INR s / INR m)
  else - cos (2 * PI * INR a * INR s / INR m).

(** The [k]-th function (from 0) of an iterator over [sps] at the species [s]:
    [IndicatorIterator], [SinusoidIterator], [NumpyPolyIterator] [__next__],
    basis.py:443-446, 470-476, 505-512, with [indicator] 555-557 and
    [encode_domain] 576-591.  [None] is a KeyError. *)
Definition site_function (fl : flavor) (sps : list species) (k : nat) (s : species)
  : option R :=
  let m := length sps in
  let? sp := nth_error sps k in
  match fl with
  | Indicator => Some (if sp_eqb s sp then 1 else 0)
  | Sinusoid => let? i := encode sps sp in let? j := encode sps s in
                Some (sinusoid (i + 1) m j)
  | Polynomial => let? i := encode sps sp in let? j := encode sps s in
                  Some (linspace (-1) 1 m j ^ (i + 1))
  | Chebyshev => let? i := encode sps sp in let? j := encode sps s in
                 Some (cheb (i + 1) (linspace (-1) 1 m j))
  | Legendre => let? i := encode sps sp in let? j := encode sps s in
                Some (leg (i + 1) (linspace (-1) 1 m j))
  end.

(** [orthonormalization_array]: [None], an array, or [np.array(None)], which
    [from_dict] makes from [None] (basis.py:357). *)
Inductive rarray := RNone | RArrayNone | RArray (m : mat).

Record basis := MkBasis {
  b_space : site_space;
  b_flavor : flavor;
  b_f : mat;        (* _f_array, with the constant function as row 0 *)
  b_r : rarray;     (* _r_array *)
  b_rot : mat       (* _rot_array *)
}.

(** [function_array], basis.py:216-219, and [measure_vector], 109-112. *)
Definition function_array (b : basis) : mat := tl (b_f b).
Definition measure (s : site_space) : list R := map (fun p => Qc2R (snd p)) s.
Definition mu (s : site_space) (j : nat) : R := nth j (measure s) 0.

(** [DiscreteBasis.__init__] and [StandardBasis.__init__] with
    [_construct_function_array], basis.py:69-77, 199-214.  [None]: the species
    differ (ValueError), or there is no function beside the constant
    (IndexError). *)
Definition standard_basis (space : site_space) (fl : flavor) (sps : list species)
  : option basis :=
  let dom := map fst space in
  let has l s := existsb (sp_eqb s) l in
  if forallb (has sps) dom && forallb (has dom) sps then
    let? rows := opt_map (fun k => opt_map (site_function fl sps k) dom)
                         (removelast (seq 0 (length sps))) in
    match rows with
    | [] => None
    | row :: _ =>
        Some (MkBasis space fl (map (fun _ => 1) row :: rows) RNone (eye (length row)))
    end
  else None.

(** [basis_factory], basis.py:594-612, for the class of the given flavor. *)
Definition basis_factory (fl : flavor) (space : site_space) : option basis :=
  standard_basis space fl (map fst space).

(** Inner products with respect to the measure, basis.py:118 and 125. *)
Definition prods (space : site_space) (f : mat) : mat :=
  build (length f) (length f) (fun i j =>
    sum (length space) (fun k => mu space k * entry f i k * entry f j k)).

(** [np.allclose] with its default tolerances. *)
Definition close (a b : R) : bool :=
  if Rle_dec (Rabs (a - b)) (/ 100000000 + / 100000 * Rabs b) then true else false.
Definition all_close (n : nat) (f g : nat -> nat -> R) : bool :=
  forallb (fun i => forallb (fun j => close (f i j) (g i j)) (seq 0 n)) (seq 0 n).

(** [is_orthogonal], basis.py:114-120: columns are divided by the diagonal.  A
    zero on the diagonal gives 0/0 = nan, which is close to nothing. *)
Definition is_orthogonal (b : basis) : bool :=
  let n := length (b_f b) in
  let p := prods (b_space b) (b_f b) in
  if existsb (fun j => if Req_EM_T (entry p j j) 0 then true else false) (seq 0 n)
  then false
  else all_close n (fun i j => entry p i j / entry p j j) (entry (eye n)).

(** [is_orthonormal], basis.py:122-126. *)
Definition is_orthonormal (b : basis) : bool :=
  let n := length (b_f b) in
  let p := prods (b_space b) (b_f b) in
  all_close n (entry p) (entry (eye n)).

(** [orthonormalize], basis.py:231-251.  The arrays are n x n for n species.  The
    factorisation is an argument.  Left out: values below 10 machine epsilons are
    set to zero (lines 247-248). *)
Definition orthonormalize (qr : mat -> mat * mat) (b : basis) : basis :=
  let n := length (b_space b) in
  let k := length (b_f b) in
  let a := build n k (fun j i => sqrt (mu (b_space b) j) * entry (b_f b) i j) in
  let (q, r) := qr a in
  MkBasis (b_space b) (b_flavor b)
    (build n n (fun i j => entry q j i / entry q j 0))
    (RArray (build k n (fun i j =>
       entry q j 0 / sqrt (mu (b_space b) j) * entry r j i)))
    (b_rot b).

(** [np.linalg.norm] of a row, and the product with a matrix from the right. *)
Definition norm (n : nat) (v : nat -> R) : R := sqrt (sum n (fun k => v k * v k)).

(** A Python index into [n] rows. *)
Definition py_index (n : nat) (i : Z) : nat :=
  Z.to_nat (if (i <? 0)%Z then i + Z.of_nat n else i)%Z.

(** The rotation matrix, basis.py:312-324. *)
Definition rotation (n : nat) (angle : R) (v1 v2 : nat -> R) : mat :=
  build n n (fun i j =>
    (if Nat.eqb i j then 1 else 0)
    + (v1 i * v2 j - v2 i * v1 j) * sin angle
    + (v1 i * v1 j + v2 i * v2 j) * (cos angle - 1)).

Definition mul (n : nat) (a b : mat) : mat :=
  build n n (fun i j => sum n (fun k => entry a i k * entry b k j)).

(** [rotate], basis.py:253-331.  [None]: an exception, which is raised before
    anything is changed.  (A non-uniform measure only gives a warning.)  Left
    out: values below 10 machine epsilons are set to zero (lines 326-329). *)
Definition rotate (angle : R) (i1 i2 : Z) (b : basis) : option basis :=
  let n := length (b_space b) in
  let f := b_f b in
  let uniform := forallb (fun x => close x (mu (b_space b) 0)) (measure (b_space b)) in
  if uniform && negb (is_orthogonal b) then None
  else if Nat.eqb n 2 then
    let rot := build n n (fun i j => - 1 * entry (b_rot b) i j) in
    Some (MkBasis (b_space b) (b_flavor b)
      (build 2 n (fun i j => if Nat.eqb i 1 then entry f 1 j * - 1 else entry f i j))
      (b_r b) (mul n rot (b_rot b)))
  else if (i1 =? i2)%Z then None
  else if (Z.abs i1 >? Z.of_nat n - 2)%Z then None
  else if (Z.abs i2 >? Z.of_nat n - 2)%Z then None
  else
    let row i := entry (function_array b) (py_index (length (function_array b)) i) in
    let v1 := fun j => row i1 j / norm n (row i1) in
    let v2 := fun j => row i2 j / norm n (row i2) in
    let rot := rotation n angle v1 v2 in
    Some (MkBasis (b_space b) (b_flavor b)
      (build (length f) n (fun i j =>
         match i with
         | O => entry f 0 j
         | _ => sum n (fun k => entry f i k * entry rot j k)
         end))
      (b_r b) (mul n rot (b_rot b))).

(** [as_dict], basis.py:128-136, 333-341.  The site space is stored as its
    composition (domain.py:226-230), from which it was made. *)
Record basis_dict := MkDict {
  d_comp : composition;
  d_flavor : flavor;
  d_func : mat;
  d_orth : option mat;
  d_rot : option mat
}.
Definition as_dict (comp : composition) (b : basis) : basis_dict :=
  MkDict comp (b_flavor b) (b_f b)
    (match b_r b with RArray m => Some m | _ => None end) (Some (b_rot b)).

(** [from_dict], basis.py:343-361. *)
Definition from_dict (leb : species -> species -> bool) (d : basis_dict) : option basis :=
  let? space := mk_site_space leb (d_comp d) in
  let? b := basis_factory (d_flavor d) space in
  Some (MkBasis (b_space b) (b_flavor b) (d_func d)
    (match d_orth d with None => RArrayNone | Some m => RArray m end)
    (match d_rot d with None => b_rot b | Some m => m end)).

(** [ClusterSubspace.rotate_site_basis], clusterspace.py:930-971.  Basis objects
    live in a store; an orbit is the list of the positions of its site bases.
    [points] is the number of point orbits, which come first.  [None] is an
    exception.  [not in rotated] compares objects, since bases define no
    equality.  The reset of cached arrays (lines 966-971) is left out; see C33. *)
Definition rotate_store (angle : R) (i1 i2 : Z) (store : list basis) (o : nat)
  : option (list basis) :=
  let? b := nth_error store o in
  let? b' := rotate angle i1 i2 b in
  Some (upd store o b').

Definition rotate_next (angle : R) (i1 i2 : Z) (space : site_space)
  (st : option (list basis * list nat)) (o : nat) : option (list basis * list nat) :=
  let? sr := st in
  let (store, rotated) := sr in
  let? b := nth_error store o in
  if site_space_eqb (b_space b) space && negb (existsb (Nat.eqb o) rotated) then
    let? store' := rotate_store angle i1 i2 store o in
    Some (store', rotated ++ [o])
  else Some (store, rotated).

Definition rotate_site_basis (store : list basis) (orbits : list (list nat))
  (points : nat) (singlet_id : Z) (angle : R) (i1 i2 : Z) : option (list basis) :=
  if ((1 <=? singlet_id) && (singlet_id <? Z.of_nat points + 1))%Z%bool then
    let? orbit := nth_error orbits (Z.to_nat singlet_id - 1) in
    let? o := nth_error orbit 0 in
    let? b := nth_error store o in
    let? store1 := rotate_store angle i1 i2 store o in
    let? sr := fold_left (fun st orbit => fold_left (rotate_next angle i1 i2 (b_space b)) orbit st)
                 orbits (Some (store1, [o])) in
    Some (fst sr)
  else None.
