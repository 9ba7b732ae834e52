(** Specification vocabulary for power: adjoint matrices, total power carried
    by a vector of amplitudes, unitary and passive scatterers. *)
From Coq Require Import Reals.
From mathcomp Require Import all_ssreflect all_algebra.
From Coquelicot Require Import Complex.
From Verif Require Import Base CField CFun ModelRedheffer SpecScatter.
Set Implicit Arguments. Unset Strict Implicit. Unset Printing Implicit Defensive.
Import GRing.Theory.
Local Open Scope ring_scope.

(** Conjugate transpose. *)
Definition adj {m n} (A : 'M[C]_(m, n)) : 'M[C]_(n, m) := map_mx Cconj A^T.

(** |z|^2 and the sum of |v_i|^2. *)
Definition sqmod (z : C) : R := (fst z * fst z + snd z * snd z)%Re.
Definition power {n} (v : 'cV[C]_n) : R := \sum_i sqmod (v i 0).

Definition unitary_smat {n} (S : smat _ n) : Prop := adj (dense S) *m dense S = 1%:M.

(** Never more power out than in. *)
Definition passive_smat {n} (S : smat C_fieldType n) : Prop :=
  forall a1 a2 b1 b2, scatters S a1 a2 b1 b2 ->
    (power b1 + power b2 <= power a1 + power a2)%Re.

(** The Hermitian flux of the waves [r] going right and [l] going left for a
    Hermitian form on each kind: r^* P r - l^* P l + cross terms; an arbitrary
    sesquilinear form in the pair. *)
Definition flux {n} (J : 'M[C]_(n + n)) (r l : 'cV[C]_n) : C :=
  (adj (col_mx r l) *m J *m col_mx r l) 0 0.
