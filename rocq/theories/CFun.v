(** Complex exponential and principal square root over Coquelicot's C. *)
From Coq Require Import Reals Lra.
From mathcomp Require Import all_ssreflect all_algebra.
From Coquelicot Require Import Complex.
From Verif Require Import CField.
Set Implicit Arguments. Unset Strict Implicit. Unset Printing Implicit Defensive.
Import GRing.Theory.
Local Open Scope ring_scope.

(** numpy.exp on complex numbers. *)
Definition cexp (z : C) : C :=
  ((exp (fst z) * cos (snd z))%Re, (exp (fst z) * sin (snd z))%Re).

(** numpy.sqrt / numpy.lib.scimath.sqrt / cmath.sqrt on complex numbers: the
    principal branch, Re >= 0, and on the negative real axis Im >= 0 (signed
    zeros are not modelled). *)
Definition csqrt (z : C) : C :=
  (sqrt ((Cmod z + fst z) / 2)%Re,
   (if Rlt_dec (snd z) 0 then - sqrt ((Cmod z - fst z) / 2) else sqrt ((Cmod z - fst z) / 2))%Re).

(** 1j *)
Definition ci : C := (0%Re, 1%Re).

Lemma cexpD (x y : C) : cexp (x + y) = cexp x * cexp y.
Proof.
case: x y => a b [c d]; apply: C_ext => /=;
 rewrite exp_plus ?cos_plus ?sin_plus; ring.
Qed.
Lemma cexp0 : cexp 0 = 1.
Proof. by apply: C_ext => /=; rewrite exp_0 ?cos_0 ?sin_0; ring. Qed.
Lemma cexp_neq0 (x : C) : cexp x != 0.
Proof.
apply/eqP => h; have := cexpD x (- x).
by rewrite h mul0r subrr cexp0 => /eqP; rewrite oner_eq0.
Qed.
Lemma cexpN (x : C) : cexp (- x) = (cexp x)^-1.
Proof.
apply: (mulfI (cexp_neq0 x)); rewrite -cexpD subrr cexp0 divff //.
exact: cexp_neq0.
Qed.
Lemma cexp_conj (x : C) : Cconj (cexp x) = cexp (Cconj x).
Proof. apply: C_ext => /=; rewrite ?cos_neg ?sin_neg; ring. Qed.

Lemma Cmod_sqr (z : C) : (Cmod z * Cmod z = fst z * fst z + snd z * snd z)%Re.
Proof.
rewrite /Cmod sqrt_sqrt; first by rewrite /=; ring.
apply: Rplus_le_le_0_compat; exact: pow2_ge_0.
Qed.
Lemma Cmod_ge_abs_re (z : C) : (Rabs (fst z) <= Cmod z)%Re.
Proof.
apply: Rsqr_incr_0; [|exact: Rabs_pos|exact: Cmod_ge_0].
rewrite -Rsqr_abs /Rsqr Cmod_sqr; nra.
Qed.
Lemma Cmod_re_bounds (z : C) : (0 <= Cmod z + fst z)%Re /\ (0 <= Cmod z - fst z)%Re.
Proof.
have := Cmod_ge_abs_re z; rewrite /Rabs; case: Rcase_abs => ? ?; lra.
Qed.

Lemma csqrt_sqr (z : C) : csqrt z * csqrt z = z.
Proof.
case: z => x y; have [h1 h2] := Cmod_re_bounds (x, y).
have hm := Cmod_sqr (x, y); rewrite /= in h1 h2 hm.
set m := Cmod (x, y) in h1 h2 hm *.
have s1 : (sqrt ((m + x) / 2) * sqrt ((m + x) / 2) = (m + x) / 2)%Re by apply: sqrt_sqrt; lra.
have s2 : (sqrt ((m - x) / 2) * sqrt ((m - x) / 2) = (m - x) / 2)%Re by apply: sqrt_sqrt; lra.
have p : (sqrt ((m + x) / 2) * sqrt ((m - x) / 2) = Rabs y / 2)%Re.
  rewrite -sqrt_mult; [|lra|lra].
  have -> : ((m + x) / 2 * ((m - x) / 2) = (y / 2)²)%Re by rewrite /Rsqr; nra.
  rewrite sqrt_Rsqr_abs Rabs_mult (Rabs_right (/ 2)) //; lra.
apply: C_ext; rewrite /= -/m; case: Rlt_dec => hy; rewrite /=.
- have := s2; have := s1; nra.
- have := s2; have := s1; nra.
- move: p; rewrite Rabs_left //; nra.
- move: p; rewrite Rabs_right; [nra|lra].
Qed.
Lemma csqrt_re_ge0 (z : C) : (0 <= fst (csqrt z))%Re.
Proof. exact: sqrt_pos. Qed.
Lemma csqrt_eq0 (z : C) : (csqrt z == 0) = (z == 0).
Proof.
apply/eqP/eqP => [h|->]; first by rewrite -(csqrt_sqr z) h mul0r.
by have /eqP := csqrt_sqr 0; rewrite mulf_eq0 orbb => /eqP.
Qed.
