(** Model of khepri/expansion.py and of the lattice helpers of khepri/tools.py.
    Definitions only. *)
From Coq Require Import Reals ZArith.
From mathcomp Require Import all_ssreflect all_algebra.
From Coquelicot Require Import Complex.
From Verif Require Import Base CField CFun.
Set Implicit Arguments. Unset Strict Implicit. Unset Printing Implicit Defensive.
Import GRing.Theory.
Local Open Scope ring_scope.

Definition vec2 := (R * R)%type.

(** khepri/constants.py:6 twopi; np.pi is the real number pi. *)
Definition twopi : R := (2 * PI)%Re.

(** khepri/tools.py:60-62 unitcellarea. *)
Definition unitcellarea (a1 a2 : vec2) : R := Rabs (a1.1 * a2.2 - a1.2 * a2.1)%Re.

(** khepri/tools.py:64-69 reciproc.  Collinear vectors: division by zero. *)
Definition reciproc (a1 a2 : vec2) : res (vec2 * vec2) :=
  let det := (a1.1 * a2.2 - a1.2 * a2.1)%Re in
  if Req_EM_T det 0%Re then Err NonFinite else
  let coef := (twopi / det)%Re in
  let b1 := ((a2.2 * coef)%Re, (- a2.1 * coef)%Re) in
  let b2 := ((- a1.2 * coef)%Re, (a1.1 * coef)%Re) in
  Ok (b1, b2).

(** np.arange(-M, M+1): 2M+1 consecutive integers. *)
Definition arange_sym (M : nat) : seq Z :=
  [seq Z.sub (Z.of_nat i) (Z.of_nat M) | i <- iota 0 M.*2.+1].

(** khepri/expansion.py:4-16 generate_expansion_indices.  The (2, prod(pw))
    array is the list of its columns (m, n); np.meshgrid(m, n) with the default
    indexing gives rows of constant n, flattened row by row. *)
Definition generate_expansion_indices (pw : nat * nat) : res (seq (Z * Z)) :=
  if ~~ odd pw.1 then Err AssertionError else
  if ~~ odd pw.2 then Err AssertionError else
  let M := ((pw.1 - 1) %/ 2)%N in
  let N := ((pw.2 - 1) %/ 2)%N in
  Ok (flatten [seq [seq (m, n) | m <- arange_sym M] | n <- arange_sym N]).

(** khepri/expansion.py:37-40 (and :89-92): m*b1 + n*b2 for each column. *)
Definition gvecs (b : vec2 * vec2) (idx : seq (Z * Z)) : seq vec2 :=
  [seq ((IZR mn.1 * b.1.1 + IZR mn.2 * b.2.1)%Re,
        (IZR mn.1 * b.1.2 + IZR mn.2 * b.2.2)%Re) | mn <- idx].

(** khepri/expansion.py:29-41 the attributes of an Expansion that other code
    reads.  [e_lhs_rhs] are the g-vectors of expansion_lhs / expansion_rhs
    (:71-72), present only on sums; the object identity of the two operands is
    modelled in ModelExtension. *)
Record expansion := Expansion_
  { e_pw : nat * nat; e_reciprocal : vec2 * vec2; e_g : seq vec2; e_sigma : R;
    e_lhs_rhs : option (seq vec2 * seq vec2) }.

(** khepri/expansion.py:30-41 Expansion.__init__ with the lattice given. *)
Definition mk_expansion (pw : nat * nat) (lattice : vec2 * vec2) : res expansion :=
  do b <- reciproc lattice.1 lattice.2;
  do idx <- generate_expansion_indices pw;
  Ok (Expansion_ pw b (gvecs b idx) (unitcellarea lattice.1 lattice.2) None).

(** khepri/expansion.py:33 the default lattice. *)
Definition unit_lattice : vec2 * vec2 := ((1%Re, 0%Re), (0%Re, 1%Re)).

(** khepri/tools.py:23-24 rotation_matrix, applied to a column vector. *)
Definition rotate2 (theta : R) (g : vec2) : vec2 :=
  ((cos theta * g.1 + - sin theta * g.2)%Re, (sin theta * g.1 + cos theta * g.2)%Re).

(** khepri/expansion.py:52-53 Expansion.rotate (in place; here the new object). *)
Definition rotate (theta : R) (e : expansion) : expansion :=
  Expansion_ (e_pw e) (e_reciprocal e) [seq rotate2 theta g | g <- e_g e] (e_sigma e) (e_lhs_rhs e).

Definition add2 (g h : vec2) : vec2 := ((g.1 + h.1)%Re, (g.2 + h.2)%Re).

(** khepri/expansion.py:55-73 Expansion.__add__.  np.stack (:70) raises
    ValueError when the two operands have different numbers of g-vectors. *)
Definition add_expansion (self rhs : expansion) : res expansion :=
  let g_sum := flatten [seq [seq add2 g1 g2 | g1 <- e_g rhs] | g2 <- e_g self] in
  let pw_sum := ((e_pw self).1 ^ 2, (e_pw self).2 ^ 2)%N in
  do e <- mk_expansion pw_sum unit_lattice;
  if size (e_g self) != size (e_g rhs) then Err ValueError else
  Ok (Expansion_ pw_sum (e_reciprocal e) g_sum (e_sigma e) (Some (e_g self, e_g rhs))).

(** khepri/expansion.py:86-92 g_vectors_expanded: the g-vectors and epw. *)
Definition g_vectors_expanded (e : expansion) (mul : nat) : res (seq vec2 * (nat * nat)) :=
  let f x := (if 1 < x then x * mul else 1)%N in
  let epw := (f (e_pw e).1, f (e_pw e).2) in
  do idx <- generate_expansion_indices epw;
  Ok (gvecs (e_reciprocal e) idx, epw).

(** khepri/expansion.py:19-26 kz_from_kplanar. *)
Definition kz_from_kplanar (kx ky : C) (k0 : R) (eps : C) : C :=
  let arg := RtoC k0 ^+ 2 * Cconj eps - kx ^+ 2 - ky ^+ 2 in
  Cconj (csqrt arg).

(** The number of columns of the k-vector array, khepri/expansion.py:44. *)
Definition e_size (e : expansion) : nat := ((e_pw e).1 * (e_pw e).2)%N.

(** khepri/expansion.py:43-50 and :95-97 k_vectors(k_parallel, wavelength,
    epsilon): the rows kx, ky, kz.  The assignment at :46 broadcasts: it fails
    when the number of g-vectors is neither prod(pw) nor 1.  [krows] returns
    rows of a length [n] fixed by the caller; when the expansion has another
    size, later numpy operations with matrices of size n fail (ValueError),
    which the model reports here. *)
Definition krows (n : nat) (e : expansion) (kp : C * C) (wavelength : R) (eps : C) :
    res ('rV[C]_n * 'rV[C]_n * 'rV[C]_n) :=
  if Req_EM_T wavelength 0%Re then Err ZeroDivisionError else
  let k0 := (2 * PI / wavelength)%Re in
  if e_size e != n then Err ValueError else
  if (size (e_g e) != n) && (size (e_g e) != 1)%N then Err ValueError else
  let g (j : 'I_n) := if size (e_g e) == n then nth (0%Re, 0%Re) (e_g e) j
                      else nth (0%Re, 0%Re) (e_g e) 0%N in
  let kx j := kp.1 + RtoC (g j).1 in
  let ky j := kp.2 + RtoC (g j).2 in
  Ok (\row_j (kx j / RtoC k0), \row_j (ky j / RtoC k0),
      \row_j (kz_from_kplanar (kx j) (ky j) k0 eps / RtoC k0)).
Definition k_vectors (e : expansion) (kp : C * C) (wavelength : R) (eps : C) :
    res ('rV[C]_(e_size e) * 'rV[C]_(e_size e) * 'rV[C]_(e_size e)) :=
  krows (e_size e) e kp wavelength eps.

(** np.deg2rad *)
Definition deg2rad (x : R) : R := (x * PI / 180)%Re.

(** khepri/tools.py:17-21 compute_kplanar (cmath.sqrt of eps_inc). *)
Definition compute_kplanar (eps_inc : C) (wavelength theta_deg phi_deg : R) : res (C * C) :=
  if Req_EM_T wavelength 0%Re then Err NonFinite else
  let phi := deg2rad phi_deg in
  let theta := deg2rad theta_deg in
  let f (c : R) := RtoC c * csqrt eps_inc * 2%:R * RtoC PI / RtoC wavelength * RtoC (sin theta) in
  Ok (f (cos phi), f (sin phi)).

(** khepri/crystal.py:359-360: k0 and kzi of set_source. *)
Definition source_kzi (k0 : R) (epsi : C) (kp : C * C) : C :=
  Cconj (csqrt (RtoC k0 ^+ 2 * epsi - kp.1 ^+ 2 - kp.2 ^+ 2)).
