(** Specification vocabulary for drawings. *)
From Coq Require Import Reals ZArith String.
From mathcomp Require Import all_ssreflect all_algebra.
From Verif Require Import Base CField CFun ModelDraw.
Set Implicit Arguments. Unset Strict Implicit. Unset Printing Implicit Defensive.

Section Spec.
Variable V : eqType.
Implicit Types (o : op V) (d : drawing V).

(** The points of a shape.  A parallelogram is sheared along x, with respect to the
    x axis of the drawing. *)
Definition inside o (X Y : R) : Prop :=
  match o with
  | ODisc x y r _ => (0 < r /\ (X - x) * (X - x) + (Y - y) * (Y - y) < r * r)%Re
  | ORectangle x y w h _ => (x - w / 2 <= X <= x + w / 2 /\ y - h / 2 <= Y <= y + h / 2)%Re
  | OEllipse x y a b r _ =>
      let u := (cos r * (X - x) + sin r * (Y - y))%Re in
      let v := (cos r * (Y - y) - sin r * (X - x))%Re in
      (u / a * (u / a) + v / b * (v / b) < 1)%Re
  | OParallelogram x y b h t _ =>
      (y - h / 2 < Y < y + h / 2 /\ - (b / 2) < X - x - tan t * Y <= b / 2)%Re
  end.
Definition color o : V :=
  match o with ODisc _ _ _ e | ORectangle _ _ _ _ e | OEllipse _ _ _ _ _ e | OParallelogram _ _ _ _ _ e => e end.
Definition is_parallelogram o : bool := if o is OParallelogram _ _ _ _ _ _ then true else false.
Definition flat o : Prop := if o is OEllipse _ _ a b _ _ then a = 0%Re \/ b = 0%Re else False.

(** What is seen at a point: the last shape that contains it, else the background. *)
Definition seen (os : seq (op V)) (bg : V) (X Y : R) (v : V) : Prop :=
  (exists os1 o os2, [/\ os = os1 ++ o :: os2, inside o X Y, v = color o & forall o', List.In o' os2 -> ~ inside o' X Y]) \/
  (v = bg /\ forall o, List.In o os -> ~ inside o X Y).

(** The rows of pixels are horizontal lines, from bottom to top. *)
Definition aligned (l : lattice22) : Prop := l01 l = 0%Re /\ (0 < l11 l)%Re.

(** Drawing changes neither the pixels' places nor the background. *)
Definition same_frame d d' : Prop := [/\ d_shape d' = d_shape d, d_lattice d' = d_lattice d & d_background d' = d_background d].

(** [found] are the maximal runs of the pixels of [X] before [n] that are not
    background: one after the other, of one value each, missing no pixel. *)
Definition runs (X : seq V) (bg v0 : V) (n : nat) (found : seq (nat * nat * V)) : Prop :=
  [/\ forall a b e, (a, b, e) \in found -> [/\ a < b, b <= n, e <> bg & forall i, a <= i < b -> nth v0 X i = e],
      pairwise (fun p q => p.1.2 <= q.1.1) found &
      forall i, i < n -> nth v0 X i <> bg -> exists a b, (a, b, nth v0 X i) \in found /\ a <= i < b].

(** A 1-D picture, stretched over the unit cell: pixel [i] of [L] fills the interval
    from i/L to (i+1)/L. *)
Definition in_pixel (L i : nat) (t : R) : Prop := (INR i < t * INR L < INR i + 1)%Re.
(** The rectangle of an entry contains a point. *)
Definition in_bounds (it : item V) (x y : R) : Prop :=
  exists x0 y0 x1 y1, it_params it = [:: x0; y0; x1; y1] /\ (x0 <= x <= x1 /\ y0 <= y <= y1)%Re.
(** The disc of an entry contains a point. *)
Definition in_disc (it : item V) (x y : R) : Prop :=
  exists c0 c1 r, it_params it = [:: c0; c1; r] /\ (0 < r /\ (x - c0) * (x - c0) + (y - c1) * (y - c1) < r * r)%Re.
End Spec.

Section Lists.
Variable V : eqType.
Implicit Types (o : op V) (it : item V).
(** The entry that stands for a shape.  The origin of the cell is its corner. *)
Definition listed o it : Prop :=
  match o with
  | ODisc x y r e => it = Item "disc" [:: (1 / 2 + x)%Re; (1 / 2 + y)%Re; r] e
  | ORectangle x y w h e =>
      it = Item "rectangle" [:: (1 / 2 + (x - w / 2))%Re; (1 / 2 + (y - h / 2))%Re;
                                (1 / 2 + (x + w / 2))%Re; (1 / 2 + (y + h / 2))%Re] e
  | OEllipse x y a b r e => it = Item "ellipse" [:: x; y; a; b; r] e
  | OParallelogram _ _ _ _ _ _ => False
  end.
(** A parallelogram centred at (x, y). *)
Definition centred (x y b h t X Y : R) : Prop :=
  (y - h / 2 < Y < y + h / 2 /\ - (b / 2) < X - x - tan t * (Y - y) <= b / 2)%Re.
(** Two points of the plane are the same point of the crystal. *)
Definition same_site (l : lattice22) (X Y X' Y' : R) : Prop :=
  exists m n : Z, X' = (X + IZR m * l00 l + IZR n * l10 l)%Re /\ Y' = (Y + IZR m * l01 l + IZR n * l11 l)%Re.
End Lists.
