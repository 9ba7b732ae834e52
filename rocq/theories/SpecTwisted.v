(** Specification vocabulary for devices with layers of several lattices. *)
From Coq Require Import Reals String.
From mathcomp Require Import all_ssreflect all_algebra.
From Coquelicot Require Import Complex.
From Verif Require Import Base CField CFun ModelExpansion SpecExpansion ModelFourier SpecFourier ModelDevice SpecDevice SpecExtension.
Set Implicit Arguments. Unset Strict Implicit. Unset Printing Implicit Defensive.
Import GRing.Theory.
Local Open Scope ring_scope.

(** The layer [l] may enter a crystal of expansion [e] through add_layer with
    extended=True: [e] is the sum of two expansions, one of which is the layer's. *)
Definition summand (e : expansion) (who : operand) (l : layer) : Prop :=
  exists lhs rhs, [/\ built lhs, built rhs, add_expansion lhs rhs = Ok e & l_exp l = if who is IsLhs then lhs else rhs].

(** A slab: anything but an outer medium. *)
Definition is_slab (f : formulation) : Prop :=
  match f with FFT _ | UNIFORM _ | ANALYTICAL _ _ => True | _ => False end.
(** A slab of a lossless material. *)
Definition lossless_slab (f : formulation) : Prop :=
  match f with
  | FFT p => real_picture p
  | UNIFORM eps => snd eps = 0%Re
  | ANALYTICAL isl h => snd h = 0%Re /\ forall i, (i < size isl)%N -> snd (nth (OtherShape, 0) isl i).2 = 0%Re
  | _ => False
  end.
(** A pixmap or uniform slab of a passive material (time e^{+iwt}). *)
Definition passive_slab (f : formulation) : Prop :=
  match f with FFT p => passive_picture p | UNIFORM eps => (snd eps <= 0)%Re | _ => False end.

(** Calls on a crystal of expansion [e] that register slabs satisfying [P] (of
    formulation and depth), of the crystal's lattice or of one of the two lattices
    it is the sum of, and leave the names of the outer media alone. *)
Definition slab_call (P : formulation -> R -> Prop) (e : expansion) (o : op) : Prop :=
  match o with
  | AddUniform name eps d => user_name name /\ P (UNIFORM eps) d
  | AddPixmap name p d => user_name name /\ P (FFT p) d
  | AddPixmapOrUniform name p d => [/\ user_name name, P (FFT p) d & P (UNIFORM (a_at p 0 0)) d]
  | AddAnalytical name isl h d => user_name name /\ P (ANALYTICAL isl h) d
  | AddLayer name l => [/\ user_name name, l_exp l = e & P (l_form l) (l_depth l)]
  | AddExtended name who l => [/\ user_name name, summand e who l & P (l_form l) (l_depth l)]
  | SetDevice stack _ => user_stack stack
  | SetSource _ _ _ _ _ _ | Solve => True
  end.

(** The matrix [CJ] acts on the orders of the sum as [Cm] on those of the own
    lattice, leaving the orders of the other lattice alone. *)
Definition acts_on_own (kind N : nat) (Cm : 'M[C]_N) (CJ : 'M[C]_(N * N)) : Prop :=
  forall (i j : 'I_(N * N)) (m m' : nat) (r c : 'I_N), (m < N)%N -> (m' < N)%N ->
  i = place kind N m r :> nat -> j = place kind N m' c :> nat -> CJ i j = if m == m' then Cm r c else 0.

(** The matrix [Cm] by which the permittivity of a slab acts on the orders of the
    expansion [ex]: that of the formulation. *)
Definition permittivity_matrix (J1 : R -> R) (ex : expansion) (f : formulation) {N} (Cm : 'M[C]_N) : Prop :=
  match f with
  | FFT p => convolution_matrix N p (e_pw ex) = Ok Cm
  | ANALYTICAL isl h => analytical_matrix J1 N ex isl h = Ok Cm
  | UNIFORM eps => Cm = eps%:M
  | _ => False
  end.
