(** Specification vocabulary for the T-matrix API's lattice. *)
From Coq Require Import Reals ZArith.
From mathcomp Require Import all_ssreflect all_algebra.
From Coquelicot Require Import Complex.
From Verif Require Import Base CField CFun ModelExpansion ModelFourier ModelLattice.
Set Implicit Arguments. Unset Strict Implicit. Unset Printing Implicit Defensive.
Import GRing.Theory.
Local Open Scope ring_scope.

(** No order of the window is grazing in the medium. *)
Definition no_anomaly (L : lattice) (eps : num) (wavelength : R) (kp : vec2) : Prop :=
  forall g, (g < l_ng L)%N ->
    num_val eps * RtoC ((2 * PI / wavelength) ^ 2)%Re <>
    RtoC ((kp.1 + (l_g L g).1) ^ 2 + (kp.2 + (l_g L g).2) ^ 2)%Re.
(** A permittivity whose np.sqrt is a number. *)
Definition has_sqrt (eps : num) : Prop := match eps with Float r => (0 <= r)%Re | Complex _ => True end.

(** The order (m1, m2) of the lattice. *)
Definition order_vector (b : vec2 * vec2) (m1 m2 : Z) : vec2 :=
  ((IZR m1 * b.1.1 + IZR m2 * b.2.1)%Re, (IZR m1 * b.1.2 + IZR m2 * b.2.2)%Re).
Definition minus2 (g h : vec2) : vec2 := ((g.1 - h.1)%Re, (g.2 - h.2)%Re).
(** Numbers of orders: the same in both directions, or a single one along the second. *)
Definition window_fits (p : nat * nat) : Prop := p.2 = p.1 \/ p.2 = 1%N.
(** The standard list of orders of a grid of the given shape. *)
Definition standard_orders (rows cols : nat) (indices : seq (Z * Z)) : Prop :=
  size indices = (rows * cols)%N /\ forall g, (g < rows * cols)%N ->
    nth (Z0, Z0) indices g = (Z.sub (Z.of_nat (g %% rows)) (Z.of_nat (rows %/ 2)),
                              Z.sub (Z.of_nat (g %/ rows)) (Z.of_nat (cols %/ 2))).

(** Every in-plane vector of the window is zero or not tiny. *)
Definition not_tiny (L : lattice) (kp : vec2) : Prop :=
  forall g, (g < l_ng L)%N -> let u := ((kp.1 + (l_g L g).1) ^ 2 + (kp.2 + (l_g L g).2) ^ 2)%Re in
    u = 0%Re \/ (/ 2 ^ 52 <= u)%Re.

(** The contract of the matrix exponential. *)
Definition exponential (n : nat) (expm : 'M[C]_n -> 'M[C]_n) : Prop :=
  (forall P Q M, P *m Q = 1%:M -> expm (P *m M *m Q) = P *m expm M *m Q) /\
  (forall d : 'rV[C]_n, expm (diag_mx d) = diag_mx (map_mx cexp d)).

(** The matrix that multiplies each of the four amplitudes of order g by f g. *)
Definition each_order (n : nat) (f : 'I_n -> C) : 'M[C]_((n + n) + (n + n)) :=
  diag_mx (row_mx (row_mx (\row_g f g) (\row_g f g)) (row_mx (\row_g f g) (\row_g f g))).

(** Every order is propagating or clearly evanescent. *)
Definition clear_orders (L : lattice) (eps : num) (wavelength : R) (kp : vec2) : Prop :=
  forall g, (g < l_ng L)%N -> let kz := compute_kz eps wavelength kp (l_g L g) in
    snd kz = 0%Re \/ (/ 2 ^ 52 < Rabs (snd kz))%Re.
(** Waves that come from the left, in propagating orders only. *)
Definition from_left (n : nat) (L : lattice) (wavelength : R) (kp : vec2) (pin : 'cV[C]_((n + n) + (n + n))) : Prop :=
  dsubmx pin = 0 /\ forall g : 'I_n, snd (compute_kz (l_incid L) wavelength kp (l_g L g)) = 0%Re \/
    (usubmx (usubmx pin) g 0 = 0 /\ dsubmx (usubmx pin) g 0 = 0).
