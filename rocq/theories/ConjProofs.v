(** Lemmas for C110: a change of the basis of the orders, the same on both sides, goes
    through all the operations on the scattering matrices of the T-matrix API. *)
From Coq Require Import ZArith String.
From mathcomp Require Import all_ssreflect all_algebra.
From Verif Require Import Base ModelRedheffer SpecScatter ModelTmat ModelEz.
Set Implicit Arguments. Unset Strict Implicit. Unset Printing Implicit Defensive.
Import GRing.Theory.
Local Open Scope ring_scope.

Section Conj.
Variables (F : fieldType) (k : nat) (d di : 'M[F]_k).
Hypothesis ddi : d *m di = 1%:M.
Let did : di *m d = 1%:M. Proof. exact: mulmx1C. Qed.
Definition cj (X : 'M[F]_k) : 'M[F]_k := d *m X *m di.
Definition both (x : 'M[F]_k) : 'M[F]_(k + k) := block_mx x 0 0 x.
Definition con (S : 'M[F]_(k + k)) : 'M[F]_(k + k) := both d *m S *m both di.
Lemma both1 : both d *m both di = 1%:M.
Proof. by rewrite /both mulmx_block !mulmx0 !mul0mx !addr0 !add0r ddi -scalar_mx_block. Qed.
Lemma both1' : both di *m both d = 1%:M. Proof. exact: mulmx1C both1. Qed.
Lemma cjM X Y : cj (X *m Y) = cj X *m cj Y.
Proof. by rewrite /cj !mulmxA -[_ *m di *m d]mulmxA did mulmx1. Qed.
Lemma cjD X Y : cj (X + Y) = cj X + cj Y. Proof. by rewrite /cj mulmxDr mulmxDl. Qed.
Lemma cjN X : cj (- X) = - cj X. Proof. by rewrite /cj mulmxN mulNmx. Qed.
Lemma cj1 : cj 1%:M = 1%:M. Proof. by rewrite /cj mulmx1. Qed.
Lemma cj_unit X : (cj X \in unitmx) = (X \in unitmx).
Proof.
have ud : d \in unitmx by apply: (mulmx1_unit ddi).1.
have ui : di \in unitmx by apply: (mulmx1_unit did).1.
by rewrite /cj !unitmx_mul ud ui andbT.
Qed.
Lemma cj_inv X : X \in unitmx -> invmx (cj X) = cj (invmx X).
Proof.
move=> u; have uc : cj X \in unitmx by rewrite cj_unit.
by rewrite -[LHS]mulmx1 -cj1 -(mulmxV u) cjM mulmxA mulVmx // mul1mx.
Qed.
Lemma invC X : inv (cj X) = res_map cj (inv X).
Proof. by rewrite /inv cj_unit; case: ifP => //= u; rewrite cj_inv. Qed.
Lemma solveC A B : solve (cj A) (cj B) = res_map cj (solve A B).
Proof. by rewrite /solve cj_unit; case: ifP => //= u; rewrite cjM cj_inv. Qed.
Lemma conE S : con S = block_mx (cj (pp S)) (cj (pm S)) (cj (mp S)) (cj (mm S)).
Proof.
rewrite /con -{1}[S]submxK /both !mulmx_block !(mulmx0, mul0mx, addr0, add0r) //.
Qed.
Lemma con_block A B E G : con (block_mx A B E G) = block_mx (cj A) (cj B) (cj E) (cj G).
Proof. by rewrite conE /pp /pm /mp /mm block_mxKul block_mxKur block_mxKdl block_mxKdr. Qed.
Lemma con_parts S : [/\ pp (con S) = cj (pp S), pm (con S) = cj (pm S), mp (con S) = cj (mp S) & mm (con S) = cj (mm S)].
Proof. by rewrite conE /pp /pm /mp /mm block_mxKul block_mxKur block_mxKdl block_mxKdr. Qed.
Lemma matrix_sC T : matrix_s (con T) = res_map con (matrix_s T).
Proof.
have [e1 e2 e3 e4] := con_parts T; rewrite /matrix_s e1 e2 e3 e4 invC; case: (inv _) => //= X.
by rewrite con_block !(cjM, cjD, cjN).
Qed.
Lemma multSC A B : multS (con A) (con B) = res_map con (multS A B).
Proof.
have [a1 a2 a3 a4] := con_parts A; have [b1 b2 b3 b4] := con_parts B.
rewrite /multS a1 a2 a3 a4 b1 b2 b3 b4.
have -> : 1%:M - cj (pm A) *m cj (mp B) = cj (1%:M - pm A *m mp B) by rewrite cjD cjN cjM cj1.
rewrite !solveC; case: (solve _ _) => //= X; case: (solve _ _) => //= Y.
by rewrite con_block !(cjM, cjD, cjN) cj1.
Qed.
Lemma doublingsC n S : doublings n (con S) = res_map con (doublings n S).
Proof. by elim: n S => [//|n IH] S /=; rewrite multSC; case: (multS S S) => //= T; rewrite IH. Qed.
Lemma at_opC x y : at_op (omap con x) (omap con y) = res_map (omap con) (at_op x y).
Proof. by case: x y => [a|] [b|] //=; rewrite multSC; case: (multS a b). Qed.
Lemma repeatsC n x y : repeats n (omap con x) (omap con y) = res_map (omap con) (repeats n x y).
Proof. by elim: n x => [//|n IH] x /=; rewrite at_opC; case: (at_op x y) => //= a; rewrite IH. Qed.
Lemma stackC stacking req req' : (forall nm, req' nm = omap con (req nm)) -> forall depth name,
  stack_s stacking req' depth name = res_map (omap con) (stack_s stacking req depth name).
Proof.
move=> hreq; elim=> [//|dp IH] name /=; rewrite hreq; case: (req name) => [Si //|/=].
case: (look stacking name) => [[[|l0 rest] rep]|] //=; rewrite IH; case: (stack_s _ _ _ l0) => //= S0.
have e : forall acc, (fix go (acc : option 'M[F]_(k + k)) (ls : seq string) : res (option 'M[F]_(k + k)) :=
      match ls with
      | [::] => Ok acc
      | ss :: ls' => do T <- stack_s stacking req' dp ss; do a <- at_op acc T; go a ls'
      end) (omap con acc) rest = res_map (omap con) ((fix go (acc : option 'M[F]_(k + k)) (ls : seq string) : res (option 'M[F]_(k + k)) :=
      match ls with
      | [::] => Ok acc
      | ss :: ls' => do T <- stack_s stacking req dp ss; do a <- at_op acc T; go a ls'
      end) acc rest).
  elim: rest => [//|ss rest ih] acc /=; rewrite IH; case: (stack_s _ _ _ ss) => //= T.
  by rewrite at_opC; case: (at_op acc T).
rewrite e; match goal with |- bind (res_map _ ?g) _ = _ => case: g => //= S1 end.
by case: Z.ltb => //; case: S1 => //= M; rewrite -repeatsC.
Qed.
End Conj.
