(** Contract of the eigenvalue oracle (numpy.linalg.eig): it returns
    eigenvalues [l] and an invertible matrix of eigenvectors (columns). *)
From mathcomp Require Import all_ssreflect all_algebra.
Set Implicit Arguments. Unset Strict Implicit. Unset Printing Implicit Defensive.
Import GRing.Theory.
Local Open Scope ring_scope.

Definition diagonalises {F : fieldType} {m} (M : 'M[F]_m) (lW : 'rV[F]_m * 'M[F]_m) : Prop :=
  lW.2 \in unitmx /\ M *m lW.2 = lW.2 *m diag_mx lW.1.

(** Any choice of mode matrix [W], mode constants [lam] and associated [V] for
    the first order system  E' ~ P H, H' ~ Q E. *)
Definition modal_decomposition {F : fieldType} {m} (P Q W V : 'M[F]_m) (lam : 'rV[F]_m) : Prop :=
  [/\ W \in unitmx,
      P *m Q *m W = W *m diag_mx (map_mx (fun l => l ^+ 2) lam),
      Q *m W = V *m diag_mx lam & forall j, lam 0 j != 0].
