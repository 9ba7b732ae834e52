(** Specification vocabulary for Fourier integrals over the unit cell. *)
From Coq Require Import Reals ZArith.
From mathcomp Require Import all_ssreflect all_algebra.
From Coquelicot Require Import Complex RInt Hierarchy.
From Verif Require Import Base CField CFun ModelExpansion ModelFourier.
Set Implicit Arguments. Unset Strict Implicit. Unset Printing Implicit Defensive.
Import GRing.Theory.
Local Open Scope ring_scope.

(** [v] is the Riemann integral of the complex function [f] from [a] to [b]. *)
Definition cint (f : R -> C) (a b : R) (v : C) : Prop :=
  is_RInt (V := R_NormedModule) (fun x => fst (f x)) a b (fst v) /\
  is_RInt (V := R_NormedModule) (fun x => snd (f x)) a b (snd v).

(** The integral over the rectangle [a,b] x [c,d], along x first. *)
Definition cint2 (f : R -> R -> C) (a b c d : R) (v : C) : Prop :=
  exists g : R -> C, (forall y, cint (fun x => f x y) a b (g y)) /\ cint g c d v.

(** The plane wave exp(-iG.r). *)
Definition planewave (G : vec2) (x y : R) : C :=
  (cos (G.1 * x + G.2 * y), (- sin (G.1 * x + G.2 * y))%Re).

(** [v] is the Fourier coefficient at [G] of the map [f] given on the rectangular
    cell [0,Lx] x [0,Ly]. *)
Definition fourier_integral (Lx Ly : R) (f : R -> R -> C) (G : vec2) (v : C) : Prop :=
  cint2 (fun x y => f x y * planewave G x y) 0 Lx 0 Ly (RtoC (Lx * Ly)%Re * v).

(** A half-open rectangle and its indicator. *)
Definition in_rect (r : R * R * R * R) (x y : R) : bool :=
  let: (l0, l1, u0, u1) := r in
  (if Rle_dec l0 x then true else false) && (if Rlt_dec x u0 then true else false) &&
  ((if Rle_dec l1 y then true else false) && (if Rlt_dec y u1 then true else false)).
Definition indicator (p : R -> R -> bool) (x y : R) : C := if p x y then 1 else 0.

(** The map with the value of the first island that contains the point, else the
    host. *)
Fixpoint drawn (islands : seq ((R -> R -> bool) * C)) (host : C) (x y : R) : C :=
  match islands with
  | [::] => host
  | (p, e) :: rest => if p x y then e else drawn rest host x y
  end.
(** No point of the plane lies in two islands of the list. *)
Fixpoint disjoint (islands : seq ((R -> R -> bool) * C)) : Prop :=
  match islands with
  | [::] => True
  | (p, _) :: rest =>
      (forall q e x y, List.In (q, e) rest -> p x y -> q x y = false) /\ disjoint rest
  end.

(** The numbers on which the closed formula of fexpz is used, or which are 0. *)
Definition off_small_branch (t : R) : Prop := t = 0%Re \/ (1 / 100 < Rabs t)%Re.

(** Lists of rectangular islands: the rectangle (lower left, upper right corner)
    and its permittivity. *)
Definition rect_inside (Lx Ly : R) (r : R * R * R * R) : Prop :=
  let: (l0, l1, u0, u1) := r in
  (0 <= l0)%Re /\ (l0 <= u0)%Re /\ (u0 <= Lx)%Re /\ (0 <= l1)%Re /\ (l1 <= u1)%Re /\ (u1 <= Ly)%Re.
Definition rect_area (r : R * R * R * R) : R := let: (l0, l1, u0, u1) := r in ((u0 - l0) * (u1 - l1))%Re.
Definition regions (rects : seq (R * R * R * R * C)) : seq ((R -> R -> bool) * C) :=
  [seq (in_rect p.1, p.2) | p <- rects].
(** The bound on the error made on the small-argument branch. *)
Definition branch_error (Lx Ly : R) (rects : seq (R * R * R * R * C)) (host : C) : R :=
  \sum_(p <- rects) (Cmod (p.2 - host)%R * (rect_area p.1 / (Lx * Ly) * / 10 ^ 18))%Re.
(** No rectangle uses the small-argument branch at [G]. *)
Definition rects_clear (rects : seq (R * R * R * R * C)) (G : vec2) : Prop :=
  forall l0 l1 u0 u1 e, List.In (l0, l1, u0, u1, e) rects ->
    off_small_branch (G.1 * (u0 - l0))%Re /\ off_small_branch (G.2 * (u1 - l1))%Re.
(** The island list given to Layer.analytical. *)
Definition islands_of (rects : seq (R * R * R * R * C)) : seq (shape * C) :=
  [seq (let: (l0, l1, u0, u1) := p.1 in Rectangle l0 l1 u0 u1, p.2) | p <- rects].
(** The transforms of all islands, khepri/layer.py:162. *)
Definition island_transforms (J1 : R -> R) (islands : seq (shape * C)) (G : seq vec2) (sigma : R) :
    res (seq (seq C * C)) :=
  mapM (fun isl => do t <- transform J1 isl.1 G sigma; Ok (t, isl.2)) islands.
Definition sub2 (g h : vec2) : vec2 := ((g.1 - h.1)%Re, (g.2 - h.2)%Re).
Definition swap2 (g : vec2) : vec2 := (g.2, g.1).
