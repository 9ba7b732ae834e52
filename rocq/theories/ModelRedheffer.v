(** Model of the scattering-matrix algebra of khepri/alternative.py.
    Definitions only. *)
From mathcomp Require Import all_ssreflect all_algebra.
From Verif Require Import Base.
Set Implicit Arguments. Unset Strict Implicit. Unset Printing Implicit Defensive.
Import GRing.Theory.
Local Open Scope ring_scope.

Section Model.
Variable F : fieldType.

(** numpy.linalg.solve(A, B), imported at khepri/alternative.py:14: raises
    LinAlgError exactly when A is singular (exact arithmetic). *)
Definition solve {n p} (A : 'M[F]_n) (B : 'M[F]_(n, p)) : res 'M[F]_(n, p) :=
  if A \in unitmx then Ok (invmx A *m B) else Err LinAlgError.

(** numpy.linalg.inv(A), imported at khepri/alternative.py:14. *)
Definition inv {n} (A : 'M[F]_n) : res 'M[F]_n :=
  if A \in unitmx then Ok (invmx A) else Err LinAlgError.

(** khepri/alternative.py:6-9 (module docstring) and :29: a scattering matrix
    is a numpy array of shape (2,2,n,n), S[0,0]=S11, S[0,1]=S12, S[1,0]=S21,
    S[1,1]=S22.  Simplified: all four blocks are square of one size (the only
    case in which every product of the code is defined). *)
Record smat (n : nat) := Smat
  { s11 : 'M[F]_n; s12 : 'M[F]_n; s21 : 'M[F]_n; s22 : 'M[F]_n }.

(** khepri/alternative.py:19-30 redheffer_product. *)
Definition redheffer_product {n} (SA SB : smat n) : res (smat n) :=
  let I := 1%:M in
  let D := I - s11 SB *m s22 SA in
  let F := I - s22 SA *m s11 SB in
  do x1 <- solve D (s11 SB);
  let S11 := s11 SA + s12 SA *m x1 *m s21 SA in
  do x2 <- solve D (s12 SB);
  let S12 := s12 SA *m x2 in
  do x3 <- solve F (s21 SA);
  let S21 := s21 SB *m x3 in
  do x4 <- solve F (s22 SA);
  let S22 := s22 SB + s21 SB *m x4 *m s12 SB in
  Ok (Smat S11 S12 S21 S22).

(** khepri/alternative.py:220-232 scattering_identity, block=True
    (n stands for 2*prod(pw)). *)
Definition scattering_identity (n : nat) : smat n := Smat 0 1%:M 1%:M 0.

(** khepri/alternative.py:227-231 scattering_identity, block=False, and
    khepri/tools.py:26-30 block2dense: the dense 2n x 2n layout. *)
Definition dense {n} (S : smat n) : 'M[F]_(n + n) :=
  block_mx (s11 S) (s12 S) (s21 S) (s22 S).

End Model.
