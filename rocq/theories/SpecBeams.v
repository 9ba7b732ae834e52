(** Specification vocabulary for beams. *)
From Coq Require Import Reals ZArith.
From mathcomp Require Import all_ssreflect all_algebra.
From Coquelicot Require Import Complex Hierarchy Derive.
From Verif Require Import Base CField CFun RField ModelExpansion.
Set Implicit Arguments. Unset Strict Implicit. Unset Printing Implicit Defensive.
Import GRing.Theory.
Local Open Scope ring_scope.

(** * Rotations *)
(** The direction of the polar angle [t] and the azimuth [p]. *)
Definition direction (t p : R) : 'cV[R]_3 :=
  \col_(i < 3) if nat_of_ord i == 0%N then (cos p * sin t)%Re else if nat_of_ord i == 1%N then (sin p * sin t)%Re else cos t.
Definition e_z : 'cV[R]_3 := \col_(i < 3) if nat_of_ord i == 2%N then 1%Re else 0%Re.
Definition sqnorm (v : 'cV[C]_3) : R := \sum_i (Cmod (v i ord0) * Cmod (v i ord0))%Re.
Definition rsqnorm (v : 'cV[R]_3) : R := \sum_i (v i ord0 * v i ord0)%Re.
Definition real_mx {m n} (A : 'M[R]_(m, n)) : 'M[C]_(m, n) := \matrix_(i, j) RtoC (A i j).

(** * Brillouin zone *)
(** The middle of the i-th of n equal intervals of [-1/2, 1/2]. *)
Definition middle (n i : nat) : R := ((INR i + 1 / 2) / INR n - 1 / 2)%Re.
Definition in_basis (bb : vec2 * vec2) (u v : R) : vec2 :=
  ((bb.1.1 * u + bb.2.1 * v)%Re, (bb.1.2 * u + bb.2.2 * v)%Re).
Definition opposite (p : vec2) : vec2 := ((- p.1)%Re, (- p.2)%Re).
Definition independent (bb : vec2 * vec2) : Prop := (bb.1.1 * bb.2.2 - bb.1.2 * bb.2.1 <> 0)%Re.

(** The given reciprocal basis, or the one of the square lattice of period [a]. *)
Definition basis_of (a : R) (reciproc : option (vec2 * vec2)) : vec2 * vec2 :=
  odflt (((2 * PI / a)%Re, 0%Re), (0%Re, (2 * PI / a)%Re)) reciproc.

(** * Paraxial beams *)
(** Derivative of a complex function of a real variable. *)
Definition has_deriv (f : R -> C) (x : R) (d : C) : Prop :=
  is_derive (fun t => fst (f t)) x (fst d) /\ is_derive (fun t => snd (f t)) x (snd d).
Definition second_deriv (f : R -> C) (x : R) (d : C) : Prop :=
  exists2 f' : R -> C, (forall t, has_deriv f t (f' t)) & has_deriv f' x d.
(** The field E, a carrier exp(i q z) times an envelope, obeys the paraxial wave
    equation 2 i q du/dz + d2u/dx2 + d2u/dy2 = 0 at (x, y, z). *)
Definition envelope (q : R) (E : R -> R -> R -> C) x y z : C := E x y z * cexp (- ci * RtoC (q * z)%Re).
Definition paraxial_at (q : R) (E : R -> R -> R -> C) (x y z : R) : Prop :=
  exists dz dxx dyy, [/\ has_deriv (fun t => envelope q E x y t) z dz,
    second_deriv (fun t => envelope q E t y z) x dxx, second_deriv (fun t => envelope q E x t z) y dyy &
    RtoC (2 * q)%Re * ci * dz + dxx + dyy = 0].
(** The wave number of a medium. *)
Definition wavenumber (wl er : R) : R := (2 * PI * sqrt er / wl)%Re.

(** * Amplitudes *)
(** A combination of the plane waves of wavevectors kp + g, with amplitudes [amp]. *)
Definition plane_waves (kp : vec2) (G : seq vec2) (amp : nat -> C) (x y : R) : C :=
  \sum_(m < size G) amp m *
    cexp (ci * RtoC ((kp.1 + (nth (0%Re, 0%Re) G m).1) * x + (kp.2 + (nth (0%Re, 0%Re) G m).2) * y)%Re).
(** Samples of cells of side [a], [NS] per side; x varies along the columns. *)
Definition grid_x (a : R) (NS r c : nat) : R := (a * INR c / INR NS)%Re.
Definition grid_y (a : R) (NS r c : nat) : R := (a * INR r / INR NS)%Re.
(** A reciprocal vector of the square lattice of period [a], and a vector of the grid
    of the Brillouin zone that a supercell of bzs.1 x bzs.2 cells resolves. *)
Definition order_vec (a : R) (o : Z * Z) : vec2 := ((2 * PI * IZR o.1 / a)%Re, (2 * PI * IZR o.2 / a)%Re).
Definition zone_vec (a : R) (bzs : nat * nat) (s : Z * Z) : vec2 :=
  ((2 * PI * IZR s.1 / (INR bzs.1 * a))%Re, (2 * PI * IZR s.2 / (INR bzs.2 * a))%Re).
Definition vadd (u v : vec2) : vec2 := ((u.1 + v.1)%Re, (u.2 + v.2)%Re).
(** Different orders, no two of them [NS] or more apart. *)
Definition separated (NS : nat) (os : seq (Z * Z)) : Prop :=
  forall i j, (i < size os)%N -> (j < size os)%N ->
    let o k := nth (Z0, Z0) os k in
    [/\ Z.lt (Z.abs (Z.sub (o i).1 (o j).1)) (Z.of_nat NS), Z.lt (Z.abs (Z.sub (o i).2 (o j).2)) (Z.of_nat NS) &
     o i = o j -> i = j].
(** bzs.1 x bzs.2 square cells of NS x NS samples. *)
Definition square_cells (N0 N1 : nat) (bzs : nat * nat) (NS : nat) : Prop :=
  [/\ (0 < bzs.1)%N, (0 < bzs.2)%N, (0 < NS)%N, N0 = (bzs.2 * NS)%N & N1 = (bzs.1 * NS)%N].
