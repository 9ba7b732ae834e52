(** Model of khepri/draw.py.  Definitions only.  Permittivities are values of any
    type with equality; the conversions numpy makes when a value does not have the
    type of the canvas are not modelled. *)
From Coq Require Import Reals ZArith String.
From mathcomp Require Import all_ssreflect all_algebra.
From Coquelicot Require Import Complex.
From Verif Require Import Base CField CFun StringEq ModelExpansion ModelFourier.
Set Implicit Arguments. Unset Strict Implicit. Unset Printing Implicit Defensive.

Definition Rltb (x y : R) : bool := if Rlt_dec x y then true else false.
Definition Rleb (x y : R) : bool := if Rle_dec x y then true else false.

(** np.linspace(-0.5, 0.5, n)[k]; a single point is the start. *)
Definition linspace (n k : nat) : R :=
  if n == 1 then (- (1 / 2))%Re else (- (1 / 2) + INR k / INR (n - 1))%Re.

(** np.arctan2 (signed zeros are not modelled). *)
Definition atan2 (y x : R) : R :=
  if Rlt_dec 0 x then atan (y / x)%Re
  else if Rlt_dec x 0 then (if Rlt_dec y 0 then atan (y / x) - PI else atan (y / x) + PI)%Re
  else if Rlt_dec 0 y then (PI / 2)%Re
  else if Rlt_dec y 0 then (- (PI / 2))%Re else 0%Re.

Section Draw.
Variable V : eqType.

(** One entry of geometric_description. *)
Record item := Item { it_type : string; it_params : seq R; it_eps : V }.
(** The lattice is [[l00, l01], [l10, l11]]. *)
Record lattice22 := Lat { l00 : R; l01 : R; l10 : R; l11 : R }.
Definition square : lattice22 := Lat 1 0 0 1.

(** The attributes of khepri/draw.py:21-38 Drawing.  x0, y0, x1, y1, x and y only serve
    canvas(shape), see ModelRest.v. *)
Record drawing := Drawing { d_shape : nat * nat; d_lattice : lattice22; d_background : V;
                            d_canvas : nat -> nat -> V; d_items : seq item }.
(** khepri/draw.py:21-38 Drawing.__init__; np.min fails on empty arrays. *)
Definition mk_drawing (shape : nat * nat) (eps : V) (lattice : option lattice22) : res drawing :=
  if (shape.1 == 0) || (shape.2 == 0) then Err ValueError else
  Ok (Drawing shape (if lattice is Some l then l else square) eps (fun _ _ => eps) [::]).

(** khepri/draw.py:30-35 the coordinates of pixel (i, j). *)
Definition dX (d : drawing) (i j : nat) : R :=
  (l00 (d_lattice d) * linspace (d_shape d).1 i + l10 (d_lattice d) * linspace (d_shape d).2 j)%Re.
Definition dY (d : drawing) (i j : nat) : R :=
  (l01 (d_lattice d) * linspace (d_shape d).1 i + l11 (d_lattice d) * linspace (d_shape d).2 j)%Re.

(** self._canvas[mask] = epsilon, and the entry that is appended, if any. *)
Definition paint (d : drawing) (mask : nat -> nat -> bool) (eps : V) (new : seq item) : drawing :=
  Drawing (d_shape d) (d_lattice d) (d_background d)
    (fun i j => if mask i j then eps else d_canvas d i j) (d_items d ++ new).

(** khepri/draw.py:41-44 disc. *)
Definition draw_disc (d : drawing) (x y radius : R) (eps : V) : drawing :=
  paint d (fun i j => Rltb (sqrt ((dX d i j - x) * (dX d i j - x) + (dY d i j - y) * (dY d i j - y)))%Re radius) eps
    [:: Item "disc" [:: (1 / 2 + x)%Re; (1 / 2 + y)%Re; radius] eps].

(** khepri/draw.py:46-55 rectangle. *)
Definition draw_rectangle (d : drawing) (x0 y0 w h : R) (eps : V) : drawing :=
  let x := (x0 - w / 2)%Re in let y := (y0 - h / 2)%Re in
  paint d (fun i j => (Rleb x (dX d i j) && Rleb (dX d i j) (x + w)%Re) && (Rleb y (dY d i j) && Rleb (dY d i j) (y + h)%Re)) eps
    [:: Item "rectangle" [:: (1 / 2 + x)%Re; (1 / 2 + y)%Re; (1 / 2 + x + w)%Re; (1 / 2 + y + h)%Re] eps].

(** khepri/draw.py:57-67 ellipse; 1/a**2 fails for a = 0. *)
Definition draw_ellipse (d : drawing) (x y a b r : R) (eps : V) : res drawing :=
  if Req_EM_T a 0 then Err ZeroDivisionError else if Req_EM_T b 0 then Err ZeroDivisionError else
  let A := (cos r * cos r / (a * a) + sin r * sin r / (b * b))%Re in
  let B := (cos r * cos r / (b * b) + sin r * sin r / (a * a))%Re in
  let C := (2 * cos r * sin r * (1 / (a * a) - 1 / (b * b)))%Re in
  Ok (paint d (fun i j =>
    let dx := (dX d i j - x)%Re in let dy := (dY d i j - y)%Re in
    let dsqr := (dx * dx + dy * dy)%Re in
    let theta := atan2 dy dx in
    let irsqr := (A * (cos theta * cos theta) + B * (sin theta * sin theta) + C * sin theta * cos theta)%Re in
    Rltb dsqr (1 / irsqr)) eps
    [:: Item "ellipse" [:: x; y; a; b; r] eps]).

(** khepri/draw.py:78-86: the columns of the canvas that the loop reaches, and those
    that it paints. *)
Definition all_below (d : drawing) (y : R) (j : nat) : bool := all (fun i => Rleb (dY d i j) y) (iota 0 (d_shape d).1).
Definition all_above (d : drawing) (y h : R) (j : nat) : bool :=
  all (fun i => Rleb h (dY d i j - y)%Re) (iota 0 (d_shape d).1).
Fixpoint painted_columns (d : drawing) (y h : R) (js : seq nat) : seq nat :=
  match js with
  | [::] => [::]
  | j :: js' => if all_below d y j then painted_columns d y h js'
                else if all_above d y h j then [::] else j :: painted_columns d y h js'
  end.
(** khepri/draw.py:69-86 parallelogram: nothing is appended to geometric_description.
    tan is the quotient of sin and cos; its poles are never hit exactly. *)
Definition draw_parallelogram (d : drawing) (x y0 b h tilt : R) (eps : V) : drawing :=
  let y := (y0 - h / 2)%Re in
  let columns := painted_columns d y h (iota 0 (d_shape d).2) in
  paint d (fun i j => (j \in columns) &&
    (let start := (x - b / 2 + tan tilt * dY d 0 j)%Re in
     Rltb start (dX d i j) && Rleb (dX d i j) (start + b)%Re)) eps [::].

(** Drawing instructions, one after the other. *)
Inductive op :=
| ODisc (x y radius : R) (eps : V)
| ORectangle (x y w h : R) (eps : V)
| OEllipse (x y a b r : R) (eps : V)
| OParallelogram (x y b h tilt : R) (eps : V).
Definition draw1 (d : drawing) (o : op) : res drawing :=
  match o with
  | ODisc x y r e => Ok (draw_disc d x y r e)
  | ORectangle x y w h e => Ok (draw_rectangle d x y w h e)
  | OEllipse x y a b r e => draw_ellipse d x y a b r e
  | OParallelogram x y b h t e => Ok (draw_parallelogram d x y b h t e)
  end.
Fixpoint draw_all (d : drawing) (os : seq op) : res drawing :=
  match os with [::] => Ok d | o :: os' => do d' <- draw1 d o; draw_all d' os' end.

(** khepri/draw.py:108-109 islands. *)
Definition islands (d : drawing) : seq item := d_items d.
(** khepri/fourier.py:23-25: the transform that belongs to an entry. *)
Definition item_shape (it : item) : res ModelFourier.shape :=
  let p := it_params it in
  if String.eqb (it_type it) "rectangle" then
    if size p == 4 then Ok (Rectangle (nth 0%Re p 0) (nth 0%Re p 1) (nth 0%Re p 2) (nth 0%Re p 3)) else Err TypeError
  else if String.eqb (it_type it) "disc" then
    if size p == 3 then Ok (Disc (nth 0%Re p 0) (nth 0%Re p 1) (nth 0%Re p 2)) else Err TypeError
  else Err AttributeError.

(** * from_numpy *)
(** The order in which np.unique sorts. *)
Variable le : rel V.

(** khepri/draw.py:160-177: the state of the loop over the pixels. *)
Record scan := Scan { sc_current : nat; sc_previous : nat; sc_start : nat; sc_found : seq (nat * nat * V) }.
Section Scan.
Variables (X : seq V) (v0 : V) (materials : seq V) (background_material : nat).
Definition material_at (i : nat) : nat := index (nth v0 X i) materials.
(** khepri/draw.py:166-174 one turn of the loop. *)
Definition scan_step (s : scan) (i : nat) : scan :=
  let current := material_at i in
  if current != sc_previous s then
    if sc_previous s != background_material then
      Scan current current i (rcons (sc_found s) (sc_start s, i, nth v0 materials (sc_previous s)))
    else Scan current current i (sc_found s)
  else Scan current (sc_previous s) (sc_start s) (sc_found s).
(** khepri/draw.py:160-177. *)
Definition scan_all : seq (nat * nat * V) :=
  let s := foldl scan_step (Scan (material_at 0) (material_at 0) 0 [::]) (iota 1 (size X - 1)) in
  if sc_current s != background_material then rcons (sc_found s) (sc_start s, size X, nth v0 materials (sc_current s))
  else sc_found s.
End Scan.

(** khepri/draw.py:180-185 one interval. *)
Definition draw_interval (length : nat) (d : drawing) (it : nat * nat * V) : drawing :=
  let: (a, b, e) := it in
  let lo := ((INR a - INR length / 2) / INR length)%Re in
  let hi := ((INR b - INR length / 2) / INR length)%Re in
  draw_rectangle d ((hi + lo) / 2)%Re 0 (hi - lo)%Re 1 e.

(** khepri/draw.py:142-185 from_numpy, given the shape of the picture and its values
    in C order.  An empty picture fails at X[0]; when only the background occurs
    in an interval list, the array of intervals is empty and its slice fails (this
    cannot happen with two materials). *)
Definition from_numpy (d : drawing) (shape : seq nat) (X : seq V) : res drawing :=
  if (1 < size shape) && (1 < nth 0 shape 0) && (1 < nth 0 shape 1) then Err NotImplementedError else
  let materials := sort le (undup X) in
  match X with
  | [::] => Err IndexError
  | v0 :: _ =>
      if size materials == 1 then
        Ok (Drawing (d_shape d) (d_lattice d) v0 (d_canvas d) (d_items d))
      else if d_background d \notin materials then Err ValueError else
      let found := scan_all X v0 materials (index (d_background d) materials) in
      if found is [::] then Err IndexError else
      Ok (foldl (draw_interval (size X)) d found)
  end.
End Draw.
