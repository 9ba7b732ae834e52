(** Specification vocabulary for C112-C114: piles turned about the normal or reflected,
    on lattices whose vectors are named differently (T-matrix API). *)
From Coq Require Import Reals ZArith String.
From mathcomp Require Import all_ssreflect all_algebra.
From Coquelicot Require Import Complex.
From Verif Require Import Base CField CFun ModelExpansion SpecExpansion ModelFourier ModelDevice ModelTmat ModelLattice SpecScale SpecSym SpecBloch.
Set Implicit Arguments. Unset Strict Implicit. Unset Printing Implicit Defensive.
Import GRing.Theory.
Local Open Scope ring_scope.

(** Names of the lattice vectors: the first or the second reversed, then exchanged. *)
Record naming := Naming { rev1 : bool; rev2 : bool; swapped : bool }.
Definition same_names : naming := Naming false false false.
Definition signed (r : bool) (v : vec2) : vec2 := if r then ((- v.1)%Re, (- v.2)%Re) else v.
Definition renamed (t : naming) (v : vec2 * vec2) : vec2 * vec2 :=
  let x := signed (rev1 t) v.1 in let y := signed (rev2 t) v.2 in if swapped t then (y, x) else (x, y).
(** The windows of [p] orders that contain the order -g with each order g, and those
    that are square. *)
Definition nameable (t : naming) (p : nat * nat) : Prop :=
  (rev1 t || rev2 t -> odd p.1 && odd p.2) /\ (swapped t -> p.1 = p.2).
(** Where the order [g] is found under the new names (the first index varies faster). *)
Definition reversed (r : bool) (p i : nat) : nat := (if r then p - i.+1 else i)%N.
Definition new_place (t : naming) (p : nat * nat) (g : nat) : nat :=
  let i := reversed (rev1 t) p.1 (g %% p.1) in let j := reversed (rev2 t) p.2 (g %/ p.1) in
  (if swapped t then j + p.1 * i else i + p.1 * j)%N.

Section Turned.
Variables a b s : R.
(** The image of a shape.  Rectangles are only kept, or have their axes exchanged. *)
Definition image (sh sh' : shape) : Prop :=
  match sh, sh' with
  | Disc x y r, Disc x' y' r' => (x', y') = turn a b s (x, y) /\ r' = r
  | Rectangle x0 y0 x1 y1, Rectangle x0' y0' x1' y1' =>
      (a = 1%Re /\ b = 0%Re /\ s = 1%Re /\ sh' = sh) \/
      (a = 0%Re /\ b = 1%Re /\ s = (- 1)%Re /\ sh' = Rectangle y0 x0 y1 x1)
  | Uniform, Uniform => True
  | _, _ => False
  end.
(** Discs: the axes go to axes, or neither reciprocal lattice is too fine. *)
Definition discs_turned (r : vec2 * vec2) (l : seq (shape * C)) : Prop :=
  has_disc l -> a = 0%Re \/ b = 0%Re \/ (resolved r /\ resolved (turn a b s r.1, turn a b s r.2)).
Definition recipe_turned (r : vec2 * vec2) (q q' : recipe) : Prop :=
  let: (isl, host, d, pow) := q in let: (isl', host', d', pow') := q' in
  [/\ host' = host, d' = d, pow' = pow, discs_turned r isl & List.Forall2 (fun i i' => image i.1 i'.1 /\ i'.2 = i.2) isl isl'].
Definition recipes_turned (r : vec2 * vec2) (q q' : string -> option recipe) : Prop :=
  forall name, match q name, q' name with Some x, Some x' => recipe_turned r x x' | None, None => True | _, _ => False end.

(** The orders whose wavevector has no in-plane direction: an arbitrary frame is used. *)
Definition tiny (u : vec2) : bool := if Rlt_dec (u.1 ^ 2 + u.2 ^ 2) (/ 2 ^ 52) then true else false.
(** Turns of a quarter or half turn need nothing; others need transparent or absorbing
    media, and that the wavevectors without direction vanish. *)
Definition turnable (L : lattice) (wl : R) (kp : vec2) : Prop :=
  b = 0%Re \/ [/\ (0 < wl)%Re, (0 <= snd (num_val (l_incid L)))%Re, (0 <= snd (num_val (l_emerg L)))%Re &
    forall g, (g < l_ng L)%N -> let u := uvec kp (l_g L g) in tiny u -> u = (0%Re, 0%Re)].

(** How much of the polarisation [to] the turned wave has when the wave has the
    polarisation [from] ([false]: s, [true]: p). *)
Definition pol_turn (up : bool) (u : vec2) (to from : bool) : R :=
  if tiny u then
    let c := if up then b else (- b)%Re in
    match to, from with false, false => (s * a)%Re | false, true => (- (s * c))%Re | true, false => c | true, true => a end
  else match to, from with false, false => s | true, true => 1%Re | _, _ => 0%Re end.
(** The same for all the waves of a window: forward and backward, s and p, by orders. *)
Definition turned_half {n} (t : naming) (p : nat * nat) (L : lattice) (kp : vec2) (up : bool) : 'M[C]_(n + n) :=
  let M to from : 'M[C]_n := \matrix_(i, j) (if (i : nat) == new_place t p j then RtoC (pol_turn up (uvec kp (l_g L j)) to from) else 0) in
  block_mx (M false false) (M false true) (M true false) (M true true).
Definition turned_waves {n} (t : naming) (p : nat * nat) (L : lattice) (kp : vec2) : 'M[C]_((n + n) + (n + n)) :=
  block_mx (turned_half t p L kp true) 0 0 (turned_half t p L kp false).
End Turned.
