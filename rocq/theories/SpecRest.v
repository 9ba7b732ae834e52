(** Specification vocabulary for C90-C96. *)
From Coq Require Import Reals ZArith String Ascii.
From mathcomp Require Import all_ssreflect all_algebra.
From Coquelicot Require Import Complex.
From Verif Require Import Base CField CFun ModelRedheffer ModelExpansion ModelFourier ModelDevice ModelLattice ModelDraw.
Set Implicit Arguments. Unset Strict Implicit. Unset Printing Implicit Defensive.
Import GRing.Theory.
Local Open Scope ring_scope.

(** A function that returns S and, on request, the modes (LI, WI, VI), and a layer
    object that keeps S and, on request, the modes (W, V, L): the same error, or the
    same matrices. *)
Definition same_answer {n : nat}
    (f : res (smat C_fieldType (n + n) * option ('rV[C]_(n + n) * 'M[C]_(n + n) * 'M[C]_(n + n)))) (l : res (solved n)) : Prop :=
  match f, l with
  | Ok r, Ok s => sl_S s = Some r.1 /\ forall W V L, sl_modes s = Some (W, V, L) <-> r.2 = Some (L, W, V)
  | Err e, Err e' => e = e'
  | _, _ => False
  end.

(** Rods of width w along an axis, repeated with period 1; y is the coordinate
    across. *)
Definition in_rods (w : R) (centres : seq R) (y : R) : Prop :=
  exists (m : Z) c, List.In c centres /\ (Rabs (y - c - IZR m) <= w / 2)%Re.
(** The position of the k-th of n points from -1/2 to 1/2. *)
Definition position (n k : nat) : R := (- (1 / 2) + INR k / INR (n - 1))%Re.
(** A picture of rods of permittivity eps in vacuum across the second axis. *)
Definition rods_across (A : array2) (rows cols : nat) (w eps : R) (centres : seq R) : Prop :=
  [/\ a_rows A = rows, a_cols A = cols &
  forall i j, (i < rows)%N -> (j < cols)%N ->
    (in_rods w centres (position cols j) -> a_at A i j = RtoC eps) /\
    (~ in_rods w centres (position cols j) -> a_at A i j = 1)].
Definition exchanged (A B : array2) : Prop :=
  [/\ a_rows B = a_cols A, a_cols B = a_rows A & forall i j, a_at B i j = a_at A j i].
(** The layer of a crystal under a name is this picture with this thickness. *)
Definition holds_picture {n} (c : crystal n) (name : string) (A : array2) (depth : R) : Prop :=
  exists x, dict_get (c_layers c) name = Some x /\ exists e b, x.1 = Plain (Layer e (FFT A) depth b).
(** The point at the centre of a pixel: the cell is spanned by the rows of the lattice. *)
Definition pixel_point (d : drawing R_eqType) (i j : nat) : R * R :=
  let a := position (d_shape d).1 i in let b := position (d_shape d).2 j in
  (l00 (d_lattice d) * a + l10 (d_lattice d) * b, l01 (d_lattice d) * a + l11 (d_lattice d) * b)%Re.

(** The in-plane wavevectors of a lattice of the T-matrix API as the arrays kx, ky. *)
Definition kx_array (L : lattice) (kp : vec2) : array2 :=
  Array2 (w_rows (window L)) (w_cols (window L)) (fun i j => RtoC (kp.1 + (w_at (window L) i j).1)%Re).
Definition ky_array (L : lattice) (kp : vec2) : array2 :=
  Array2 (w_rows (window L)) (w_cols (window L)) (fun i j => RtoC (kp.2 + (w_at (window L) i j).2)%Re).
(** The field of n plane waves at (x, y). *)
Definition wave_sum (n : nat) (v : nat -> C) (k : nat -> vec2) (x y : R) : C :=
  \sum_(g < n) v g * cexp (ci * RtoC ((k g).1 * x + (k g).2 * y)%Re).
Definition shifted (kp : vec2) (g : vec2) : vec2 := ((kp.1 + g.1)%Re, (kp.2 + g.2)%Re).
(** A vector of m * m items as an array, row by row (numpy's reshape). *)
Definition reshaped (m : nat) (v : nat -> C) : array2 := Array2 m m (fun i j => v (i * m + j)%N).
(** The field of the m x m orders of a square lattice of period a at (x, y), with the
    in-plane wavevector kp. *)
Definition bloch_sum (m : nat) (A : nat -> nat -> C) (a : R) (kp : vec2) (x y : R) : C :=
  let order (i : nat) := (INR i - INR (m %/ 2))%Re in
  \sum_(i < m) \sum_(j < m) A i j *
    cexp (ci * RtoC ((kp.1 + 2 * PI / a * order i) * x + (kp.2 + 2 * PI / a * order j) * y)%Re).

(** A text without colons. *)
Definition colon_free (s : string) : Prop := forall i, String.get i s <> Some ":"%char.
(** Points in equal steps from a to b. *)
Definition equal_steps (a b : R) (n : nat) (f : nat -> R) : Prop :=
  [/\ f 0%N = a, (1 < n)%N -> f (n - 1)%N = b &
      forall i, (i.+1 < n)%N -> (f i.+1 - f i = (b - a) / INR (n - 1))%Re].
