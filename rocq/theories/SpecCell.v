(** Specification vocabulary for averages over the unit cell. *)
From Coq Require Import Reals.
From mathcomp Require Import all_ssreflect all_algebra.
From Coquelicot Require Import Complex.
From Verif Require Import Base CField CFun.
Set Implicit Arguments. Unset Strict Implicit. Unset Printing Implicit Defensive.
Import GRing.Theory.
Local Open Scope ring_scope.

(** The point (r / N1) a1 + (s / N2) a2 of the cell of edges a1 and a2. *)
Definition cell_point (a1 a2 : R * R) (N1 N2 r s : nat) : R * R :=
  ((INR r / INR N1 * a1.1 + INR s / INR N2 * a2.1)%Re, (INR r / INR N1 * a1.2 + INR s / INR N2 * a2.2)%Re).

(** The average of [f] over the N1 x N2 points of that grid. *)
Definition cell_mean (a1 a2 : R * R) (N1 N2 : nat) (f : R -> R -> C) : C :=
  (\sum_(r < N1) \sum_(s < N2) f (cell_point a1 a2 N1 N2 r s).1 (cell_point a1 a2 N1 N2 r s).2) / RtoC (INR N1 * INR N2)%Re.

(** E x conj(H). *)
Definition energy_cross (E H : C * C * C) : C * C * C :=
  (E.1.2 * Cconj H.2 - E.2 * Cconj H.1.2, E.2 * Cconj H.1.1 - E.1.1 * Cconj H.2, E.1.1 * Cconj H.1.2 - E.1.2 * Cconj H.1.1).

(** The electric and the stored magnetic field of the order [j], from the tangential
    components (Ex, Ey, ux, uy) and the normal ones. *)
Definition order_E {n} (v : 'cV[C]_((n + n) + (n + n))) (w : 'cV[C]_n * 'cV[C]_n) (j : 'I_n) : C * C * C :=
  (usubmx v (lshift n j) 0, usubmx v (rshift n j) 0, w.1 j 0).
Definition order_H {n} (v : 'cV[C]_((n + n) + (n + n))) (w : 'cV[C]_n * 'cV[C]_n) (j : 'I_n) : C * C * C :=
  (dsubmx v (lshift n j) 0, dsubmx v (rshift n j) 0, w.2 j 0).
