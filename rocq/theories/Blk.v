(** Two-by-two block matrices with diagonal blocks: everything reduces to
    2x2 algebra order by order. *)
From mathcomp Require Import all_ssreflect all_algebra.
Set Implicit Arguments. Unset Strict Implicit. Unset Printing Implicit Defensive.
Import GRing.Theory.
Local Open Scope ring_scope.

Section Blk.
Variables (F : fieldType) (n : nat).
Implicit Types a b c d : 'I_n -> F.

Definition dgf a : 'M[F]_n := diag_mx (\row_j a j).
Definition blk2 a b c d : 'M[F]_(n + n) := block_mx (dgf a) (dgf b) (dgf c) (dgf d).
Definition twof a : 'rV[F]_(n + n) := row_mx (\row_j a j) (\row_j a j).

Lemma eq_dgf a a' : a =1 a' -> dgf a = dgf a'.
Proof. by move=> h; congr diag_mx; apply/rowP => j; rewrite !mxE h. Qed.
Lemma eq_blk2 a b c d a' b' c' d' : a =1 a' -> b =1 b' -> c =1 c' -> d =1 d' ->
  blk2 a b c d = blk2 a' b' c' d'.
Proof. by move=> *; rewrite /blk2; congr block_mx; apply: eq_dgf. Qed.
Lemma dgfM a b : dgf a *m dgf b = dgf (fun j => a j * b j).
Proof. by rewrite mulmx_diag; congr diag_mx; apply/rowP => j; rewrite !mxE. Qed.
Lemma dgfD a b : dgf a + dgf b = dgf (fun j => a j + b j).
Proof. by rewrite -raddfD; congr diag_mx; apply/rowP => j; rewrite !mxE. Qed.
Lemma dgfN a : - dgf a = dgf (fun j => - a j).
Proof. by rewrite -raddfN; congr diag_mx; apply/rowP => j; rewrite !mxE. Qed.
Lemma dgfB a b : dgf a - dgf b = dgf (fun j => a j - b j).
Proof. by rewrite dgfN dgfD. Qed.
Lemma dgf_scal (k : F) : k%:M = dgf (fun _ => k).
Proof. by apply/matrixP => i j; rewrite !mxE. Qed.
Lemma dgfZ k a : k *: dgf a = dgf (fun j => k * a j).
Proof. by rewrite -mul_scalar_mx dgf_scal dgfM. Qed.
Lemma diag_dgf (r : 'rV[F]_n) : diag_mx r = dgf (fun j => r 0 j).
Proof. by congr diag_mx; apply/rowP => j; rewrite !mxE. Qed.
Lemma dgf_inj a b : dgf a = dgf b -> a =1 b.
Proof. by move=> /matrixP h j; have := h j j; rewrite !mxE eqxx !mulr1n. Qed.

Lemma blk2M a b c d a' b' c' d' :
  blk2 a b c d *m blk2 a' b' c' d' =
  blk2 (fun j => a j * a' j + b j * c' j) (fun j => a j * b' j + b j * d' j)
       (fun j => c j * a' j + d j * c' j) (fun j => c j * b' j + d j * d' j).
Proof. by rewrite mulmx_block !dgfM !dgfD. Qed.
Lemma blk2D a b c d a' b' c' d' :
  blk2 a b c d + blk2 a' b' c' d' =
  blk2 (fun j => a j + a' j) (fun j => b j + b' j) (fun j => c j + c' j) (fun j => d j + d' j).
Proof. by rewrite add_block_mx !dgfD. Qed.
Lemma blk2Z k a b c d : k *: blk2 a b c d =
  blk2 (fun j => k * a j) (fun j => k * b j) (fun j => k * c j) (fun j => k * d j).
Proof. by rewrite scale_block_mx !dgfZ. Qed.
Lemma blk2N a b c d : - blk2 a b c d =
  blk2 (fun j => - a j) (fun j => - b j) (fun j => - c j) (fun j => - d j).
Proof. by rewrite opp_block_mx !dgfN. Qed.
Lemma blk2_scal k : k%:M = blk2 (fun _ => k) (fun _ => 0) (fun _ => 0) (fun _ => k).
Proof.
have z : dgf (fun _ => 0) = 0 by rewrite -dgf_scal raddf0.
by rewrite /blk2 z -dgf_scal -scalar_mx_block.
Qed.
Lemma blk2_1 : 1%:M = blk2 (fun _ => 1) (fun _ => 0) (fun _ => 0) (fun _ => 1).
Proof. exact: blk2_scal. Qed.
Lemma blk2_diag a : diag_mx (twof a) = blk2 a (fun _ => 0) (fun _ => 0) a.
Proof.
have z : dgf (fun _ => 0) = 0 by rewrite -dgf_scal raddf0.
by rewrite /blk2 z /twof diag_mx_row.
Qed.
Lemma blk2_tr a b c d : (blk2 a b c d)^T = blk2 a c b d.
Proof. by rewrite tr_block_mx !tr_diag_mx. Qed.
Lemma blk2_inj a b c d a' b' c' d' : blk2 a b c d = blk2 a' b' c' d' ->
  [/\ a =1 a', b =1 b', c =1 c' & d =1 d'].
Proof. by move=> /eq_block_mx [/dgf_inj ? /dgf_inj ? /dgf_inj ? /dgf_inj ?]. Qed.

Lemma blk2_unit a b c d : (forall j, a j * d j - b j * c j != 0) -> blk2 a b c d \in unitmx.
Proof.
move=> h; pose e j := (a j * d j - b j * c j)^-1.
have he j : e j * (a j * d j - b j * c j) = 1 by rewrite mulVf.
have E : blk2 a b c d *m blk2 (fun j => e j * d j) (fun j => - (e j * b j))
   (fun j => - (e j * c j)) (fun j => e j * a j) = 1%:M.
  rewrite blk2M blk2_1; apply: eq_blk2 => j.
  - by rewrite mulrN (mulrCA (a j)) (mulrCA (b j)) -mulrBr he.
  - by rewrite mulrN (mulrCA (a j)) (mulrCA (b j)) (mulrC (a j)) addNr.
  - by rewrite mulrN (mulrCA (c j)) (mulrCA (d j)) (mulrC (c j)) subrr.
  - by rewrite mulrN (mulrCA (c j)) (mulrCA (d j)) (mulrC (c j)) (mulrC (d j)) addrC -mulrBr he.
by case: (mulmx1_unit E).
Qed.

Lemma blk2_mulL a b c d (v : 'cV[F]_(n + n)) j :
  (blk2 a b c d *m v) (lshift n j) 0 = a j * v (lshift n j) 0 + b j * v (rshift n j) 0.
Proof.
rewrite -{1}(vsubmxK v) /blk2 mul_block_col col_mxEu !mxE; congr (_ + _).
  rewrite (bigD1 j) //= !mxE eqxx mulr1n big1 ?addr0 // => k kj.
  by rewrite !mxE eq_sym (negbTE kj) mulr0n mul0r.
rewrite (bigD1 j) //= !mxE eqxx mulr1n big1 ?addr0 // => k kj.
by rewrite !mxE eq_sym (negbTE kj) mulr0n mul0r.
Qed.
Lemma blk2_mulR a b c d (v : 'cV[F]_(n + n)) j :
  (blk2 a b c d *m v) (rshift n j) 0 = c j * v (lshift n j) 0 + d j * v (rshift n j) 0.
Proof.
rewrite -{1}(vsubmxK v) /blk2 mul_block_col col_mxEd !mxE; congr (_ + _).
  rewrite (bigD1 j) //= !mxE eqxx mulr1n big1 ?addr0 // => k kj.
  by rewrite !mxE eq_sym (negbTE kj) mulr0n mul0r.
rewrite (bigD1 j) //= !mxE eqxx mulr1n big1 ?addr0 // => k kj.
by rewrite !mxE eq_sym (negbTE kj) mulr0n mul0r.
Qed.
End Blk.
