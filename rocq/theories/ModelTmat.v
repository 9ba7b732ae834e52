(** Model of the matrix algebra of khepri/tmat (matrices.py, scattering.py) and of
    khepri/eigentricks.py.  Definitions only.

    The arrays of shape (4ng, 4ng) are matrices of size k + k with k = 2ng; the
    slices p = 0:2ng and m = 2ng:4ng are the two halves. *)
From mathcomp Require Import all_ssreflect all_algebra.
From Verif Require Import Base ModelRedheffer.
Set Implicit Arguments. Unset Strict Implicit. Unset Printing Implicit Defensive.
Import GRing.Theory.
Local Open Scope ring_scope.

Section Tmat.
Variable F : fieldType.

(** M[p,p], M[p,m], M[m,p], M[m,m], khepri/tmat/matrices.py:170-171, 199-200. *)
Definition pp {k} (M : 'M[F]_(k + k)) : 'M[F]_k := ulsubmx M.
Definition pm {k} (M : 'M[F]_(k + k)) : 'M[F]_k := ursubmx M.
Definition mp {k} (M : 'M[F]_(k + k)) : 'M[F]_k := dlsubmx M.
Definition mm {k} (M : 'M[F]_(k + k)) : 'M[F]_k := drsubmx M.

(** khepri/tmat/matrices.py:168-177 matrix_s. *)
Definition matrix_s {k} (T : 'M[F]_(k + k)) : res 'M[F]_(k + k) :=
  do spp <- inv (pp T);
  let spm := - spp *m pm T in
  let smp := mp T *m spp in
  let smm := mm T + mp T *m spm in
  Ok (block_mx spp spm smp smm).

(** khepri/tmat/matrices.py:194-212 multS (scipy.linalg.solve raises LinAlgError on
    a singular matrix). *)
Definition multS {k} (S1 S2 : 'M[F]_(k + k)) : res 'M[F]_(k + k) :=
  let I0 := 1%:M in
  let I := I0 - pm S1 *m mp S2 in
  do G1 <- solve I (pp S1);
  let spp := pp S2 *m G1 in
  let smp := mp S1 + mm S1 *m mp S2 *m G1 in
  do G2 <- solve I (pm S1);
  let spm := pm S2 + pp S2 *m G2 *m mm S2 in
  let smm := mm S1 *m (I0 + mp S2 *m G2) *m mm S2 in
  Ok (block_mx spp spm smp smm).

(** khepri/tmat/scattering.py:9-23 LayerMatrix.__matmul__: the right operand is a
    LayerMatrix or an array. *)
Inductive operand (k p : nat) := LayerMatrix of 'M[F]_(k + k) | Array of 'M[F]_(k + k, p).
Definition layer_matmul {k p} (S : 'M[F]_(k + k)) (rhs : operand k p) : res (operand k p) :=
  match rhs with
  | LayerMatrix S2 => do S' <- multS S S2; Ok (LayerMatrix p S')
  | Array a => Ok (Array (S *m a))
  end.

(** khepri/tmat/scattering.py:123-129 scattering_identity (an array). *)
Definition tmat_identity (k : nat) : 'M[F]_(k + k) := block_mx 0 1%:M 1%:M 0.

(** khepri/tmat/scattering.py:76-79: [n] doublings. *)
Fixpoint doublings {k} (n : nat) (S : 'M[F]_(k + k)) : res 'M[F]_(k + k) :=
  match n with
  | 0 => Ok S
  | n'.+1 => do S' <- multS S S; doublings n' S'
  end.

(** khepri/tmat/scattering.py:41-51 and :71-81, the end of scattering_matrix and
    scattering_matrix_islands, for the matrices U, A, Vi of the layer.
    [expm] is scipy.linalg.expm. *)
Definition sliced_layer {k} (expm : 'M[F]_(k + k) -> 'M[F]_(k + k)) (U A Vi : 'M[F]_(k + k))
    (depth : F) (slicing_pow : nat) : res 'M[F]_(k + k) :=
  let slice_depth := depth / (2%:R ^+ slicing_pow) in
  let T := U *m expm (slice_depth *: - A) *m Vi in
  do S <- matrix_s T;
  doublings slicing_pow S.

(** khepri/tmat/scattering.py:130-134 scattering_interface, for the matrices U and
    Ve of the lattice. *)
Definition interface {k} (U Ve : 'M[F]_(k + k)) : res 'M[F]_(k + k) := matrix_s (U *m Ve).

(** khepri/eigentricks.py:5-22 scattering_splitlr. *)
Definition scattering_splitlr {k} (S : 'M[F]_(k + k)) : 'M[F]_(k + k) * 'M[F]_(k + k) :=
  (block_mx (pp S) 0 (mp S) (- 1%:M), block_mx 1%:M (- pm S) 0 (- mm S)).

(** khepri/eigentricks.py:24-28 scattering_det. *)
Definition scattering_det {k} (S : 'M[F]_(k + k)) : res F :=
  do i <- inv (mm S);
  Ok (\det (pp S - pm S *m i *m mp S) * \det (mm S)).
End Tmat.
