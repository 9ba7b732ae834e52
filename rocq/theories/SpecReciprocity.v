(** Specification vocabulary for reciprocity.

    Two illuminations of one device: the first with in-plane wavevector k, the
    second with -k.  Their lateral Fourier orders are opposite: the order [j] of
    the first interferes with the order [rev_ord j] (wavevector opposite) of the
    second when E x H' is averaged over the unit cell. *)
From Coq Require Import Reals.
From mathcomp Require Import all_ssreflect all_algebra.
From Coquelicot Require Import Complex.
From Verif Require Import Base CField CFun ModelRedheffer SpecScatter SpecLayer.
Set Implicit Arguments. Unset Strict Implicit. Unset Printing Implicit Defensive.
Import GRing.Theory.
Local Open Scope ring_scope.

Section Spec.
Variable n : nat.
Notation fields := ('cV[C]_(n + n) * 'cV[C]_(n + n))%type.

(** The z component of E x H' - E' x H averaged over the unit cell, for
    tangential fields (E, H) and (E', H'): rows 0..n-1 are the x components of
    the orders, rows n..2n-1 the y components. *)
Definition lorentz (f g : fields) : C :=
  \sum_(j < n)
    ((f.1 (lshift n j) 0 * g.2 (rshift n (rev_ord j)) 0
      - f.1 (rshift n j) 0 * g.2 (lshift n (rev_ord j)) 0)
     - (g.1 (lshift n (rev_ord j)) 0 * f.2 (rshift n j) 0
        - g.1 (rshift n (rev_ord j)) 0 * f.2 (lshift n j) 0)).

(** [S] and [S'] describe one reciprocal scatterer seen with k and with -k: the
    Lorentz form of any two solutions is the same on both sides.  The modes of
    the media on the left and on the right are given for both illuminations. *)
Definition reciprocal (L L' R R' : 'M[C]_(n + n) * 'M[C]_(n + n))
    (S S' : smat C_fieldType (n + n)) : Prop :=
  forall a1 a2 b1 b2 a1' a2' b1' b2' : 'cV[C]_(n + n),
    scatters S a1 a2 b1 b2 -> scatters S' a1' a2' b1' b2' ->
    lorentz (tangential L.1 L.2 a1 b1) (tangential L'.1 L'.2 a1' b1') =
    lorentz (tangential R.1 R.2 b2 a2) (tangential R'.1 R'.2 b2' a2').

(** The Lorentz form of a right-going wave [a] and a left-going wave [b] of one
    medium with modes [M] (for k) and [M'] (for -k): the amount of power the two
    exchange; a symmetric form that normalises amplitudes to powers. *)
Definition exchange (M M' : 'M[C]_(n + n) * 'M[C]_(n + n)) (a b : 'cV[C]_(n + n)) : C :=
  lorentz (tangential M.1 M.2 a 0) (tangential M'.1 M'.2 0 b).
(** No non-zero amplitude is invisible to the exchange form: the amplitudes on one
    side of a reciprocity relation determine those on the other side. *)
Definition nondegenerate (M M' : 'M[C]_(n + n) * 'M[C]_(n + n)) : Prop :=
  (forall b, (forall a, exchange M M' a b = 0) -> b = 0) /\
  (forall a, (forall b, exchange M M' a b = 0) -> a = 0).
End Spec.
