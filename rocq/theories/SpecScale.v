(** Specification vocabulary for C98: the same device with all lengths multiplied by
    [s].  Wavevectors are divided by [s], areas multiplied by its square. *)
From Coq Require Import Reals ZArith String.
From mathcomp Require Import all_ssreflect all_algebra.
From Coquelicot Require Import Complex Rbar.
From Verif Require Import Base CField CFun ModelExpansion ModelFourier ModelDevice SpecDevice.
Set Implicit Arguments. Unset Strict Implicit. Unset Printing Implicit Defensive.
Import GRing.Theory.
Local Open Scope ring_scope.

Section Scale.
Variable s : R.

Definition longer (v : vec2) : vec2 := ((s * v.1)%Re, (s * v.2)%Re).
Definition slower (g : vec2) : vec2 := ((/ s * g.1)%Re, (/ s * g.2)%Re).
Definition slower_kp (kp : C * C) : C * C := (RtoC (/ s)%Re * kp.1, RtoC (/ s)%Re * kp.2).

(** The lattice: vectors, or the name with the pitch given apart. *)
Definition longer_lattice (l : lattice_arg) : lattice_arg :=
  match l with LatticeName m => LatticeName m | LatticeVectors v => LatticeVectors (longer v.1, longer v.2) end.
Definition longer_expansion (e : expansion) : expansion :=
  Expansion_ (e_pw e) (slower (e_reciprocal e).1, slower (e_reciprocal e).2) (map slower (e_g e)) (s * s * e_sigma e)%Re
    (omap (fun p => (map slower p.1, map slower p.2)) (e_lhs_rhs e)).

Definition longer_shape (sh : shape) : shape :=
  match sh with
  | Rectangle x0 y0 x1 y1 => Rectangle (s * x0) (s * y0) (s * x1) (s * y1)
  | Disc x y r => Disc (s * x) (s * y) (s * r)
  | Uniform => Uniform
  | OtherShape => OtherShape
  end.
Definition longer_islands (l : seq (shape * C)) : seq (shape * C) := [seq (longer_shape i.1, i.2) | i <- l].
Definition longer_form (f : formulation) : formulation :=
  if f is ANALYTICAL islands host then ANALYTICAL (longer_islands islands) host else f.
Definition longer_layer (l : layer) : layer :=
  Layer (longer_expansion (l_exp l)) (longer_form (l_form l)) (s * l_depth l)%Re (l_fields l).

(** The calls on the longer device. *)
Definition longer_call (o : op) : op :=
  match o with
  | AddUniform name eps d => AddUniform name eps (s * d)
  | AddPixmap name p d => AddPixmap name p (s * d)
  | AddPixmapOrUniform name p d => AddPixmapOrUniform name p (s * d)
  | AddAnalytical name isl h d => AddAnalytical name (longer_islands isl) h (s * d)
  | AddLayer name l => AddLayer name (longer_layer l)
  | AddExtended name who l => AddExtended name who (longer_layer l)
  | SetDevice stack mask => SetDevice stack mask
  | SetSource wl te tm th ph kp => SetSource (s * wl) te tm th ph (omap slower_kp kp)
  | Solve => Solve
  end.

(** Where the code compares lengths with fixed numbers: the transform of a disc
    replaces wavevectors below 1e-8 by zero.  [resolved b] excludes that for all
    vectors of the reciprocal lattice except zero. *)
Definition resolved (b : vec2 * vec2) : Prop := forall i j : Z, (i, j) <> (Z0, Z0) ->
  (1 / 100000000 < Rabs (IZR i * b.1.1 + IZR j * b.2.1) \/ 1 / 100000000 < Rabs (IZR i * b.1.2 + IZR j * b.2.2))%Re.
Definition has_disc (l : seq (shape * C)) : bool := has (fun i => if i.1 is Disc _ _ _ then true else false) l.
Definition resolved_islands (e : expansion) (l : seq (shape * C)) : Prop :=
  has_disc l -> resolved (e_reciprocal e) /\ resolved (slower (e_reciprocal e).1, slower (e_reciprocal e).2).
Definition resolved_layer (l : layer) : Prop := if l_form l is ANALYTICAL isl _ then resolved_islands (l_exp l) isl else True.
(** [e] is the expansion of the crystal. *)
Definition resolved_call (e : expansion) (o : op) : Prop :=
  match o with
  | AddAnalytical _ isl _ _ => resolved_islands e isl
  | AddLayer _ l | AddExtended _ _ l => resolved_layer l
  | _ => True
  end.

(** The polarisation frame of the source changes at |kp| = 1e-8: both in-plane
    wavevectors are on the same side. *)
Definition same_side (kp : C * C) : Prop :=
  let norm (k : C * C) := sqrt (fst k.1 * fst k.1 + snd k.1 * snd k.1 + (fst k.2 * fst k.2 + snd k.2 * snd k.2))%Re in
  (norm kp < 1 / 100000000 <-> norm (slower_kp kp) < 1 / 100000000)%Re.

(** A point of the axis, infinite ones included. *)
Definition longer_bar (p : Rbar) : Rbar := if p is Finite x then Finite (s * x)%Re else p.
End Scale.
