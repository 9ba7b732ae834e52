(** Model of khepri/extension.py: joining the matrices of sub-lattices.
    Definitions only. *)
From mathcomp Require Import all_ssreflect all_algebra.
From Verif Require Import Base ModelRedheffer.
Set Implicit Arguments. Unset Strict Implicit. Unset Printing Implicit Defensive.
Import GRing.Theory.
Local Open Scope ring_scope.

Section Joint.
Variable F : fieldType.

(** A C-contiguous numpy buffer, addressed by the flat index (in items). *)
Definition buffer := nat -> F.

(** The buffer of a copied (contiguous) matrix of shape (2N, 2N). *)
Definition flat {m} (M : 'M[F]_m) : buffer := fun k =>
  if insub (k %/ m)%N is Some i then
    if insub (k %% m)%N is Some j then M i j else 0
  else 0.

(** khepri/extension.py:35-42: flat index of view[a, b, i, r, c], for kind 0 and
    kind 1. *)
Definition off_view (kind N a b i r c : nat) : nat :=
  match kind with
  | 0 => a * (2 * N ^ 4) + b * N ^ 2 + i * (2 * N ^ 3 + N) + r * (2 * N ^ 2) + c
  | _ => a * (2 * N ^ 4) + b * N ^ 2 + i * (2 * N ^ 2 + 1) + r * (2 * N ^ 3) + c * N
  end%N.

(** khepri/extension.py:49: flat index of view_smat[a, b, r, c]. *)
Definition off_sub (N a b r c : nat) : nat := (a * (2 * N ^ 2) + b * N + r * (2 * N) + c)%N.

(** khepri/extension.py:50: view[:, :, i] = view_smat, as a list of moves
    (destination, source), done one after the other. *)
Definition moves (kind N i : nat) : seq (nat * nat) :=
  flatten [seq flatten [seq flatten [seq [seq (off_view kind N a b i r c, off_sub N a b r c)
    | c <- iota 0 N] | r <- iota 0 N] | b <- iota 0 2] | a <- iota 0 2].
Definition write (s : buffer) (buf : buffer) (mv : nat * nat) : buffer :=
  fun k => if k == mv.1 then s mv.2 else buf k.

(** khepri/extension.py:48-50: the loop.  The third axis of the view has length
    N: a longer list raises IndexError. *)
Fixpoint joint_loop (kind N i : nat) (subs : seq buffer) (buf : buffer) : res buffer :=
  match subs with
  | [::] => Ok buf
  | s :: rest =>
      if (i < N)%N then joint_loop kind N i.+1 rest (foldl (write s) buf (moves kind N i))
      else Err IndexError
  end.

(** khepri/extension.py:10-51 _joint_subspace of matrices of shape (2N, 2N).  The
    result has shape (2N^2, 2N^2); [n] is the size fixed by the caller (N^2): when
    they differ later numpy operations fail, which the model reports here.
    Simplified: all submatrices have the same shape and item size. *)
Definition joint_subspace1 {N} (n : nat) (subs : seq 'M[F]_(N + N)) (kind : nat) : res 'M[F]_(n + n) :=
  if size subs == 0%N then Err IndexError else
  if (1 < kind)%N then Err NotImplementedError else
  if n != (N * N)%N then Err ValueError else
  do buf <- joint_loop kind N 0 (map flat subs) (fun _ => 0);
  Ok (\matrix_(i, j) buf (i * (2 * N ^ 2) + j)%N).

(** khepri/extension.py:54-63 joint_subspace. *)
Definition joint_subspace {N} (n : nat) (subs : seq (smat F (N + N))) (kind : nat) : res (smat F (n + n)) :=
  do b11 <- joint_subspace1 n (map (@s11 F _) subs) kind;
  do b12 <- joint_subspace1 n (map (@s12 F _) subs) kind;
  do b21 <- joint_subspace1 n (map (@s21 F _) subs) kind;
  do b22 <- joint_subspace1 n (map (@s22 F _) subs) kind;
  Ok (Smat b11 b12 b21 b22).
End Joint.
