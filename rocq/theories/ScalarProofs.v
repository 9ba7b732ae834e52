(** Scattering matrices whose blocks are scalar matrices: closed forms used by
    the examples and by the one-plane-wave (thin film) results. *)
From mathcomp Require Import all_ssreflect all_algebra.
From Verif Require Import Base ModelRedheffer SpecScatter RedhefferProofs.
Set Implicit Arguments. Unset Strict Implicit. Unset Printing Implicit Defensive.
Import GRing.Theory.
Local Open Scope ring_scope.

Section Scalar.
Variables (F : fieldType) (n : nat).
Definition scS (a b c d : F) : smat F n := Smat a%:M b%:M c%:M d%:M.

Lemma scal_unit (a : F) : a != 0 -> a%:M \in @unitmx F n.
Proof. by move=> h; rewrite unitmxE det_scalar unitfE expf_neq0. Qed.
Lemma scal_inv (a : F) : a != 0 -> invmx a%:M = (a^-1)%:M :> 'M[F]_n.
Proof. by move=> h; rewrite invmx_scalar. Qed.
Lemma solve_scal (a b : F) : a != 0 -> solve a%:M b%:M = Ok ((a^-1 * b)%:M : 'M[F]_n).
Proof. by move=> h; rewrite /solve scal_unit // scal_inv // -scalar_mxM. Qed.
Lemma rh_scal a b c d a' b' c' d' : 1 - a' * d != 0 ->
  redheffer_product (scS a b c d) (scS a' b' c' d') =
  Ok (scS (a + b * ((1 - a' * d)^-1 * a') * c) (b * ((1 - a' * d)^-1 * b'))
          (c' * ((1 - a' * d)^-1 * c)) (d' + c' * ((1 - a' * d)^-1 * d) * b')).
Proof.
move=> h; rewrite /redheffer_product /= -!scalar_mxM -!raddfB /= (mulrC d).
by rewrite !solve_scal //= -!scalar_mxM -!raddfD.
Qed.
(** The same with the inverse given explicitly. *)
Lemma rh_scal_x x a b c d a' b' c' d' : x * (1 - a' * d) = 1 ->
  redheffer_product (scS a b c d) (scS a' b' c' d') =
  Ok (scS (a + b * (x * a') * c) (b * (x * b')) (c' * (x * c)) (d' + c' * (x * d) * b')).
Proof.
move=> h; have hn : 1 - a' * d != 0.
  by apply/eqP => h0; move: h => /eqP; rewrite h0 mulr0 eq_sym oner_eq0.
by rewrite rh_scal // (_ : (1 - a' * d)^-1 = x) //; apply: (mulIf hn); rewrite h mulVf.
Qed.
End Scalar.
Lemma solve_scal_err (F : fieldType) n (B : 'M[F]_(n.+1)) : solve (0%:M : 'M[F]_(n.+1)) B = Err LinAlgError.
Proof. by rewrite /solve unitmxE det_scalar expr0n /= unitr0. Qed.
Lemma rh_scal_err (F : fieldType) n (a b c d a' b' c' d' : F) : 1 - a' * d = 0 ->
  redheffer_product (scS n.+1 a b c d) (scS n.+1 a' b' c' d') = Err LinAlgError.
Proof.
by move=> h; rewrite /redheffer_product /= -!scalar_mxM -!raddfB /= h solve_scal_err.
Qed.
