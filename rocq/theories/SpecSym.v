(** Specification vocabulary for the symmetries of a crystal: two sequences of calls
    that describe the same device in different ways. *)
From Coq Require Import Reals ZArith String.
From mathcomp Require Import all_ssreflect all_algebra.
From Coquelicot Require Import Complex.
From Verif Require Import Base CField CFun ModelExpansion ModelFourier ModelDevice SpecEig SpecDevice SpecScale.
Set Implicit Arguments. Unset Strict Implicit. Unset Printing Implicit Defensive.
Import GRing.Theory.
Local Open Scope ring_scope.

(** The rotations ([s] = 1) and reflections ([s] = -1) of the plane. *)
Definition isometry (a b s : R) : Prop := (a * a + b * b = 1 /\ (s = 1 \/ s = -1))%Re.
Definition turn (a b s : R) (v : vec2) : vec2 := ((a * v.1 + b * v.2)%Re, (- (s * b) * v.1 + s * a * v.2)%Re).
Definition turn_kp (a b s : R) (k : C * C) : C * C :=
  (RtoC a * k.1 + RtoC b * k.2, - (RtoC s * RtoC b) * k.1 + RtoC s * RtoC a * k.2).

(** What is asked of numpy.linalg.eig: eigenvalues and eigenvectors, and a basis of
    them whenever there is one. *)
Definition eig_complete (eig : forall m, 'M[C]_m -> 'rV[C]_m * 'M[C]_m) : Prop :=
  eigen_equation eig /\ forall m (M : 'M[C]_m) lW, diagonalises M lW -> (eig m M).2 \in unitmx.

(** The arguments of set_source other than the wavelength. *)
Definition source_args := (C * C * R * R * option (C * C))%type.

(** Two calls that differ by a relation between pictures, between lists of islands and
    between sources. *)
Section Alike.
Variables (pic : array2 -> array2 -> Prop) (isl : seq (shape * C) -> seq (shape * C) -> Prop)
  (src : source_args -> source_args -> Prop).
Definition alike (o o' : op) : Prop :=
  match o, o' with
  | AddUniform x eps d, AddUniform x' eps' d' => [/\ x' = x, eps' = eps & d' = d]
  | AddPixmap x p d, AddPixmap x' p' d' => [/\ x' = x, pic p p' & d' = d]
  | AddPixmapOrUniform x p d, AddPixmapOrUniform x' p' d' => [/\ x' = x, pic p p' & d' = d]
  | AddAnalytical x l h d, AddAnalytical x' l' h' d' => [/\ x' = x, isl l l', h' = h & d' = d]
  | SetDevice st m, SetDevice st' m' => st' = st /\ m' = m
  | SetSource wl te tm th ph kp, SetSource wl' te' tm' th' ph' kp' =>
      wl' = wl /\ src (te, tm, th, ph, kp) (te', tm', th', ph', kp')
  | Solve, Solve => True
  | _, _ => False
  end.
Fixpoint all_alike (l l' : seq op) : Prop :=
  match l, l' with
  | [::], [::] => True
  | o :: r, o' :: r' => alike o o' /\ all_alike r r'
  | _, _ => False
  end.
End Alike.

(** Pictures displaced cyclically by the fractions [u], [v] of their sides. *)
Definition picture_moved (u v : R) (A A' : array2) : Prop :=
  [/\ a_rows A' = a_rows A, a_cols A' = a_cols A &
   exists i j : nat, [/\ INR i = (u * INR (a_rows A))%Re, INR j = (v * INR (a_cols A))%Re &
     forall x y, (x < a_rows A)%N -> (y < a_cols A)%N ->
       a_at A' ((x + i) %% a_rows A)%N ((y + j) %% a_cols A)%N = a_at A x y]].
(** Islands displaced by a vector. *)
Definition shape_moved (r : vec2) (sh : shape) : shape :=
  match sh with
  | Rectangle x0 y0 x1 y1 => Rectangle (x0 + r.1) (y0 + r.2) (x1 + r.1) (y1 + r.2)
  | Disc x y d => Disc (x + r.1) (y + r.2) d
  | sh => sh
  end.
(** [b] is the reciprocal lattice: see [resolved]. *)
Definition islands_moved (b : vec2 * vec2) (r : vec2) (l l' : seq (shape * C)) : Prop :=
  l' = [seq (shape_moved r i.1, i.2) | i <- l] /\ (has_disc l -> resolved b).
(** No islands, no pictures. *)
Definition no_islands (l l' : seq (shape * C)) : Prop := False.
Definition no_pictures (A A' : array2) : Prop := False.
(** The vector of coordinates [u], [v] on the lattice. *)
Definition on_lattice (lat : vec2 * vec2) (u v : R) : vec2 :=
  ((u * lat.1.1 + v * lat.2.1)%Re, (u * lat.1.2 + v * lat.2.2)%Re).

(** Both sides of the threshold at which the code changes its polarisation frame. *)
Definition in_plane (k : C * C) : R :=
  sqrt (fst k.1 * fst k.1 + snd k.1 * snd k.1 + (fst k.2 * fst k.2 + snd k.2 * snd k.2))%Re.
Definition oblique (k : C * C) : Prop := (1 / 100000000 <= in_plane k)%Re.
Definition near_normal (k : C * C) : Prop := (in_plane k < 1 / 100000000)%Re.
Section Turned.
Variables a b s : R.
(** The direction of a source, turned. *)
Definition direction_turned (th phi : R) (kp : option (C * C)) (th' phi' : R) (kp' : option (C * C)) : Prop :=
  match kp, kp' with
  | Some k, Some k' => k' = turn_kp a b s k
  | None, None => th' = th /\ (cos (deg2rad phi'), sin (deg2rad phi')) = turn a b s (cos (deg2rad phi), sin (deg2rad phi))
  | _, _ => False
  end.
(** Its polarisation: TE and TM amplitudes away from the normal, where a reflection
    changes the sign of TE; two components along the axes near the normal. *)
Definition source_turned (x x' : source_args) : Prop :=
  let: (te, tm, th, phi, kp) := x in let: (te', tm', th', phi', kp') := x' in
  [/\ te' = RtoC s * te, tm' = tm & direction_turned th phi kp th' phi' kp'].
Definition source_turned_normal (x x' : source_args) : Prop :=
  let: (te, tm, th, phi, kp) := x in let: (te', tm', th', phi', kp') := x' in
  (te', tm') = turn_kp a b s (te, tm) /\ direction_turned th phi kp th' phi' kp'.
(** Discs turned about the origin; no rectangles.  [r] is the reciprocal lattice. *)
Definition shape_turned (sh : shape) : shape :=
  match sh with
  | Disc x y d => let c := turn a b s (x, y) in Disc c.1 c.2 d
  | sh => sh
  end.
Definition round (sh : shape) : Prop := if sh is Rectangle _ _ _ _ then False else True.
Definition islands_turned (r : vec2 * vec2) (l l' : seq (shape * C)) : Prop :=
  [/\ l' = [seq (shape_turned i.1, i.2) | i <- l], forall i, List.In i l -> round i.1,
      resolved r & resolved (turn a b s r.1, turn a b s r.2)].
End Turned.

(** The picture with its axes exchanged, and the picture read backwards along its
    first axis (the first row stays in place). *)
Definition picture_transposed (A A' : array2) : Prop :=
  [/\ a_rows A' = a_cols A, a_cols A' = a_rows A &
   forall x y, (x < a_rows A)%N -> (y < a_cols A)%N -> a_at A' y x = a_at A x y].
Definition picture_reversed (A A' : array2) : Prop :=
  [/\ a_rows A' = a_rows A, a_cols A' = a_cols A &
   forall x y, (x < a_rows A)%N -> (y < a_cols A)%N -> a_at A' ((a_rows A - x) %% a_rows A)%N y = a_at A x y].
(** The same order in a table of [P] by [Q] orders and in one of [Q] by [P]. *)
Definition same_order (P Q : nat) (i i' : nat) : Prop := (i %% P = i' %/ Q)%N /\ (i %/ P = i' %% Q)%N.
(** Opposite first indices in two tables of [P] by [Q] orders. *)
Definition opposite_order (P : nat) (i i' : nat) : Prop := (i %% P = P - 1 - i' %% P)%N /\ (i %/ P = i' %/ P)%N.
(** Windows of orders for which the table of a layer of islands is read consistently. *)
Definition line_or_square (pw : nat * nat) : Prop := pw.1 = 1%N \/ pw.2 = 1%N \/ pw.1 = pw.2.
(** The same islands; the islands of a turned crystal. *)
Definition islands_kept (pw : nat * nat) (l l' : seq (shape * C)) : Prop := l' = l /\ line_or_square pw.
Definition islands_mirrored (a b s : R) (pw : nat * nat) (r : vec2 * vec2) (l l' : seq (shape * C)) : Prop :=
  islands_turned a b s r l l' /\ line_or_square pw.
(** Windows of a single row or column of orders. *)
Definition islands_on_line (pw : nat * nat) (l l' : seq (shape * C)) : Prop := l' = l /\ (pw.1 = 1%N \/ pw.2 = 1%N).
(** Devices that are their own mirror image in the diagonal of the cell. *)
Definition picture_symmetric (A A' : array2) : Prop := A' = A /\ picture_transposed A A.
Definition islands_symmetric (pw : nat * nat) (r : vec2 * vec2) (l l' : seq (shape * C)) : Prop :=
  [/\ l' = l, forall i, List.In i l -> if i.1 is Disc x y _ then x = y else round i.1, line_or_square pw & resolved r].
(** The two components of the polarisation exchanged, at normal incidence. *)
Definition source_exchanged (x x' : source_args) : Prop :=
  let: (te, tm, th, phi, kp) := x in let: (te', tm', th', phi', kp') := x' in
  [/\ te' = tm, tm' = te, th' = 0%Re /\ th = 0%Re & kp = None /\ kp' = None].
