(** Specification of the Bloch waves of piles of layers (T-matrix API). *)
From Coq Require Import Reals String.
From mathcomp Require Import all_ssreflect all_algebra.
From Coquelicot Require Import Complex.
From Verif Require Import Base CField CFun ModelExpansion ModelFourier ModelTmat ModelLattice ModelEz.
Set Implicit Arguments. Unset Strict Implicit. Unset Printing Implicit Defensive.
Import GRing.Theory.
Local Open Scope ring_scope.

(** What a layer is made of: islands with their permittivities, host medium, depth,
    and the number of halvings of the depth. *)
Definition recipe := (seq (shape * C) * C * R * nat)%type.
Definition lossless_recipe (r : recipe) : Prop :=
  let: (islands, host, _, _) := r in snd host = 0%Re /\ forall s e, List.In (s, e) islands -> snd e = 0%Re.

(** The matrices of named layers, computed at the in-plane wavevector [kp]. *)
Definition computed_at (J1 : R -> R) (n : nat) (expm : 'M[C]_((n + n) + (n + n)) -> 'M[C]_((n + n) + (n + n)))
    (p : nat * nat) (L : lattice) (wl : R) (kp : vec2) (recipes : string -> option recipe)
    (req : string -> option 'M[C]_((n + n) + (n + n))) : Prop :=
  forall name, match recipes name with
  | None => req name = None
  | Some (islands, host, depth, pow) =>
      exists2 M, req name = Some M & scattering_matrix_islands J1 expm p L islands host wl kp depth pow = Ok M
  end.
(** [S] is the matrix of the pile [name]. *)
Definition pile_at J1 n (expm : 'M[C]_((n + n) + (n + n)) -> 'M[C]_((n + n) + (n + n))) p L wl kp recipes
    (stacking : stackings) (d : nat) (name : string) (S : 'M[C]_((n + n) + (n + n))) : Prop :=
  exists2 req, computed_at J1 expm p L wl kp recipes req & @stack_s C_fieldType (n + n) stacking req d name = Ok (Some S).

(** The power through a plane, from the Fourier coefficients (Ex, Ey, Hx, Hy) of the
    fields: the mean over the cell of Re (E x H* )_z. *)
Definition power {n} (F : 'cV[C]_((n + n) + (n + n))) : R :=
  let Ex := usubmx (usubmx F) in let Ey := dsubmx (usubmx F) in
  let Hx := usubmx (dsubmx F) in let Hy := dsubmx (dsubmx F) in
  fst (\sum_g (Ex g 0 * Cconj (Hy g 0) - Ey g 0 * Cconj (Hx g 0))).

(** The opposite in-plane wavevector. *)
Definition opposite (kp : vec2) : vec2 := ((- kp.1)%Re, (- kp.2)%Re).

(** A wave: its order and its polarisation ([false]: the s, [true]: the p wave). *)
Definition wave {n} (pol : bool) (g : 'I_n) : 'I_(n + n) := if pol then rshift n g else lshift n g.
(** What normalises the amplitude of a wave: its normal wavevector, with a sign since the
    vectors of the polarisations depend on the direction of the in-plane wavevector
    (unless it vanishes). *)
Definition weight (L : lattice) (eps : num) (wl : R) (kp : vec2) {n} (pol : bool) (g : 'I_n) : C :=
  let u := ((kp.1 + (l_g L g).1)%Re, (kp.2 + (l_g L g).2)%Re) in
  (if pol then -1 else 1) * (if Rlt_dec (u.1 ^ 2 + u.2 ^ 2) (/ 2 ^ 52) then 1 else -1) * compute_kz eps wl kp (l_g L g).
(** [S] is the matrix of a pile closed by the interface to the emergent medium. *)
Definition closed_at J1 n (expm : 'M[C]_((n + n) + (n + n)) -> 'M[C]_((n + n) + (n + n))) p L wl kp recipes
    (stacking : stackings) (d : nat) (name : string) (S : 'M[C]_((n + n) + (n + n))) : Prop :=
  exists A B, [/\ pile_at J1 expm p L wl kp recipes stacking d name A, scattering_interface n L wl kp = Ok B & multS A B = Ok S].
