(** Lemmas about the rotation of beams. *)
From Coq Require Import Reals Lra.
From mathcomp Require Import all_ssreflect all_algebra.
From Coquelicot Require Import Complex.
From Verif Require Import Base CField CFun RField ModelRedheffer RedhefferProofs ModelBeams SpecBeams.
Set Implicit Arguments. Unset Strict Implicit. Unset Printing Implicit Defensive.
Import GRing.Theory.
Local Open Scope ring_scope.

Lemma mx3_ext (A B : 'M[R]_3) : (forall i j : 'I_3, A i j = B i j) -> A = B.
Proof. by move=> h; apply/matrixP. Qed.
Lemma cs1 t : (cos t * cos t = 1 - sin t * sin t)%Re.
Proof. by have := sin2_cos2 t; rewrite /Rsqr; lra. Qed.

Ltac entries3 := case=> [[|[|[|?]]] //= ?] [[|[|[|?]]] //= ?].
Lemma rotation_y_orth t : (rotation_y t)^T *m rotation_y t = 1%:M.
Proof.
apply: mx3_ext; entries3; rewrite !mxE !big_ord_recl big_ord0 !mxE /=; toR; have := cs1 t; simpl; nra.
Qed.
Lemma rotation_z_orth t : (rotation_z t)^T *m rotation_z t = 1%:M.
Proof.
apply: mx3_ext; entries3; rewrite !mxE !big_ord_recl big_ord0 !mxE /=; toR; have := cs1 t; simpl; nra.
Qed.
Lemma rotation_p_orth ux uy uz c s : (c * c + s * s = 1)%Re -> (ux * ux + uy * uy + uz * uz = 1)%Re ->
  (rotation_p ux uy uz c s)^T *m rotation_p ux uy uz c s = 1%:M.
Proof.
move=> hc hu.
have es : (s * s = 1 - c * c)%Re by lra.
have eu : (uz * uz = 1 - ux * ux - uy * uy)%Re by lra.
apply: mx3_ext; entries3; rewrite !mxE !big_ord_recl big_ord0 !mxE /=; toR; simpl; ring [es eu].
Qed.

Lemma det2 (T : comRingType) (A : 'M[T]_2) : \det A = A ord0 ord0 * A ord_max ord_max - A ord0 ord_max * A ord_max ord0.
Proof.
rewrite (expand_det_row _ ord0) !big_ord_recl big_ord0 addr0 /cofactor !det_mx11 !mxE /= ?expr0 ?expr1 ?mul1r ?mulN1r mulrN.
by congr (_ * _ - _ * _); congr (A _ _); apply: val_inj.
Qed.
Lemma det3 (A : 'M[R]_3) : let a (i j : nat) := A (inord i) (inord j) in
  \det A = (a 0%N 0%N * (a 1%N 1%N * a 2%N 2%N - a 1%N 2%N * a 2%N 1%N) - a 0%N 1%N * (a 1%N 0%N * a 2%N 2%N - a 1%N 2%N * a 2%N 0%N) +
            a 0%N 2%N * (a 1%N 0%N * a 2%N 1%N - a 1%N 1%N * a 2%N 0%N))%Re.
Proof.
move=> a; have ae (i j : 'I_3) : A i j = a i j by rewrite /a !inord_val.
rewrite (expand_det_row _ ord0) !big_ord_recl big_ord0 addr0 /cofactor !det2 !mxE !ae /=.
rewrite /bump /= ?expr0 ?expr1 !addn0 !add0n !addn1 expr2; clearbody a.
move: (a 0%N 0%N) (a 0%N 1%N) (a 0%N 2%N) (a 1%N 0%N) (a 1%N 1%N) (a 1%N 2%N) (a 2%N 0%N) (a 2%N 1%N) (a 2%N 2%N).
by move=> *; toR; rewrite /=; ring.
Qed.
Lemma det3_mat3 a b c d e f g h i : \det (mat3 a b c d e f g h i) =
  (a * (e * i - f * h) - b * (d * i - f * g) + c * (d * h - e * g))%Re.
Proof. by rewrite det3 !mxE !inordK. Qed.
Lemma rotation_det polar azimuthal polarization : \det (rotation_matrix polar azimuthal polarization) = 1.
Proof.
rewrite /rotation_matrix !det_mulmx !det3_mat3.
have h1 := cs1 polar; have h2 := cs1 azimuthal; have h3 := cs1 polarization.
have -> : (cos polar * (1 * cos polar - 0 * 0) - 0 * (0 * cos polar - 0 * - sin polar) + sin polar * (0 * 0 - 1 * - sin polar) = 1)%Re by lra.
have -> : (cos azimuthal * (cos azimuthal * 1 - 0 * 0) - - sin azimuthal * (sin azimuthal * 1 - 0 * 0) + 0 * (sin azimuthal * 0 - cos azimuthal * 0) = 1)%Re by lra.
rewrite !mulr1; toR; move: (cos polarization) (sin polarization) h3 => c s h3; ring [h1 h2 h3].
Qed.

Lemma rotation_orth polar azimuthal polarization :
  let M := rotation_matrix polar azimuthal polarization in M^T *m M = 1%:M.
Proof.
rewrite /rotation_matrix; set P := rotation_p _ _ _ _ _.
have oP : P^T *m P = 1%:M.
  apply: rotation_p_orth; first by have := cs1 polarization; lra.
  have h1 := cs1 polar; have h2 := cs1 azimuthal; ring [h1 h2].
rewrite !trmx_mul -!mulmxA (mulmxA P^T) oP mul1mx (mulmxA (rotation_z _)^T) rotation_z_orth mul1mx.
exact: rotation_y_orth.
Qed.
Lemma rotation_direction polar azimuthal polarization :
  rotation_matrix polar azimuthal polarization *m e_z = direction polar azimuthal.
Proof.
have h1 := cs1 polar; have h2 := cs1 azimuthal.
rewrite /rotation_matrix -!mulmxA.
have -> : rotation_y polar *m e_z = vec3 (sin polar) 0 (cos polar).
  by apply/matrixP => i j; rewrite !mxE !big_ord_recl big_ord0 !mxE /=; case: i => [[|[|[|?]]] //= ?]; toR; rewrite /=; ring.
have -> : rotation_z azimuthal *m vec3 (sin polar) 0 (cos polar) = direction polar azimuthal.
  by apply/matrixP => i j; rewrite !mxE !big_ord_recl big_ord0 !mxE /=; case: i => [[|[|[|?]]] //= ?]; toR; rewrite /=; ring.
apply/matrixP => i j; rewrite !mxE !big_ord_recl big_ord0 !mxE /=; case: i => [[|[|[|?]]] //= ?]; toR; rewrite /=; ring [h1 h2].
Qed.
Lemma rotation_unit polar azimuthal polarization : rotation_matrix polar azimuthal polarization \in unitmx.
Proof. by rewrite unitmxE rotation_det unitr1. Qed.

(** Rotated fields. *)
Lemma rotated_fields field_fn r origin polar azimuthal polarization :
  let M := rotation_matrix polar azimuthal polarization in
  shifted_rotated_fields field_fn r origin polar azimuthal polarization =
  bind (field_fn (M^T *m (r - origin))) (fun eh => Ok (real_mx M *m eh.1, real_mx M *m eh.2)).
Proof.
move=> M; have oM : M^T *m M = 1%:M by apply: rotation_orth.
have uM : M \in unitmx by apply: rotation_unit.
have iM : invmx M = M^T by apply: (can_inj (mulmxK uM)); rewrite mulVmx // oM.
rewrite /shifted_rotated_fields -/M /solve uM /= -mulmxBr iM.
case: (field_fn _) => [[e h]|//] /=.
by have -> : map_mx RtoC M = real_mx M by apply/matrixP => i j; rewrite !mxE.
Qed.
Lemma sqnormE (v : 'cV[C]_3) : RtoC (sqnorm v) = ((map_mx Cconj v)^T *m v) ord0 ord0.
Proof.
rewrite mxE /sqnorm raddf_sum; apply: eq_bigr => i _; rewrite !mxE Cmod_sqr.
by apply: C_ext => /=; ring.
Qed.
Lemma real_mx_norm (M : 'M[R]_3) (v : 'cV[C]_3) : M^T *m M = 1%:M -> sqnorm (real_mx M *m v) = sqnorm v.
Proof.
move=> oM; apply: RtoC_inj; rewrite !sqnormE map_mxM trmx_mul.
have e1 : map_mx Cconj (real_mx M) = real_mx M by apply/matrixP => i j; rewrite !mxE; apply: C_ext => //=; ring.
have e2 : (real_mx M)^T *m real_mx M = 1%:M.
  have eM : real_mx M = map_mx RtoC M by apply/matrixP => i j; rewrite !mxE.
  by rewrite eM map_trmx -map_mxM oM map_scalar_mx.
by rewrite e1 -mulmxA (mulmxA (real_mx M)^T) e2 mul1mx.
Qed.
