(** Lemmas for C112-C114: a change of the basis of the waves, one for those that go
    forwards and one for those that go backwards, goes through all the operations on
    the scattering matrices of the T-matrix API. *)
From Coq Require Import ZArith String.
From mathcomp Require Import all_ssreflect all_algebra.
From Coquelicot Require Import Complex.
From Verif Require Import Base CField ModelRedheffer SpecScatter SpecExp ExpProofs ModelTmat ModelEz.
Set Implicit Arguments. Unset Strict Implicit. Unset Printing Implicit Defensive.
Import GRing.Theory.
Local Open Scope ring_scope.

Section Conj.
Variables (F : fieldType) (k : nat).
Definition cjg (d ei X : 'M[F]_k) : 'M[F]_k := d *m X *m ei.
Lemma cjgM d e ei fi X Y : ei *m e = 1%:M -> cjg d ei X *m cjg e fi Y = cjg d fi (X *m Y).
Proof. by move=> h; rewrite /cjg !mulmxA -[_ *m ei *m e]mulmxA h mulmx1. Qed.
Lemma cjgD d ei X Y : cjg d ei (X + Y) = cjg d ei X + cjg d ei Y. Proof. by rewrite /cjg mulmxDr mulmxDl. Qed.
Lemma cjgN d ei X : cjg d ei (- X) = - cjg d ei X. Proof. by rewrite /cjg mulmxN mulNmx. Qed.
Definition dd (x y : 'M[F]_k) : 'M[F]_(k + k) := block_mx x 0 0 y.

Variables d di e ei : 'M[F]_k.
Hypotheses (ddi : d *m di = 1%:M) (eei : e *m ei = 1%:M).
Let did : di *m d = 1%:M. Proof. exact: mulmx1C. Qed.
Let eie : ei *m e = 1%:M. Proof. exact: mulmx1C. Qed.
Lemma cjg1 : cjg d di 1%:M = 1%:M. Proof. by rewrite /cjg mulmx1. Qed.
Lemma cjg1e : cjg e ei 1%:M = 1%:M. Proof. by rewrite /cjg mulmx1. Qed.
Lemma dd1 : dd d e *m dd di ei = 1%:M.
Proof. by rewrite /dd mulmx_block !mulmx0 !mul0mx !addr0 !add0r ddi eei -scalar_mx_block. Qed.
Definition con2 (S : 'M[F]_(k + k)) : 'M[F]_(k + k) := dd d e *m S *m dd di ei.
Lemma cjg_unit X : (cjg d di X \in unitmx) = (X \in unitmx).
Proof.
have ud : d \in unitmx by apply: (mulmx1_unit ddi).1.
have ui : di \in unitmx by apply: (mulmx1_unit did).1.
by rewrite /cjg !unitmx_mul ud ui andbT.
Qed.
Lemma cjg_inv X : X \in unitmx -> invmx (cjg d di X) = cjg d di (invmx X).
Proof.
move=> u; have uc : cjg d di X \in unitmx by rewrite cjg_unit.
by rewrite -[LHS]mulmx1 -cjg1 -(mulmxV u) -(cjgM _ _ _ _ did) mulmxA mulVmx // mul1mx.
Qed.
Lemma invG X : inv (cjg d di X) = res_map (cjg d di) (inv X).
Proof. by rewrite /inv cjg_unit; case: ifP => //= u; rewrite cjg_inv. Qed.
Lemma solveG A fi B : solve (cjg d di A) (cjg d fi B) = res_map (cjg d fi) (solve A B).
Proof. by rewrite /solve cjg_unit; case: ifP => //= u; rewrite cjg_inv // cjgM. Qed.
Lemma con2E S : con2 S = block_mx (cjg d di (pp S)) (cjg d ei (pm S)) (cjg e di (mp S)) (cjg e ei (mm S)).
Proof. by rewrite /con2 -{1}[S]submxK /dd !mulmx_block !(mulmx0, mul0mx, addr0, add0r). Qed.
Lemma con2_block A B E G : con2 (block_mx A B E G) = block_mx (cjg d di A) (cjg d ei B) (cjg e di E) (cjg e ei G).
Proof. by rewrite con2E /pp /pm /mp /mm block_mxKul block_mxKur block_mxKdl block_mxKdr. Qed.
Lemma con2_parts S : [/\ pp (con2 S) = cjg d di (pp S), pm (con2 S) = cjg d ei (pm S), mp (con2 S) = cjg e di (mp S) & mm (con2 S) = cjg e ei (mm S)].
Proof. by rewrite con2E /pp /pm /mp /mm block_mxKul block_mxKur block_mxKdl block_mxKdr. Qed.
Lemma matrix_sG T : matrix_s (con2 T) = res_map con2 (matrix_s T).
Proof.
have [e1 e2 e3 e4] := con2_parts T; rewrite /matrix_s e1 e2 e3 e4 invG; case: (inv _) => //= X.
by rewrite con2_block -!cjgN !(cjgM _ _ _ _ did) !cjgD.
Qed.
Lemma multSG A B : multS (con2 A) (con2 B) = res_map con2 (multS A B).
Proof.
have [a1 a2 a3 a4] := con2_parts A; have [b1 b2 b3 b4] := con2_parts B.
rewrite /multS a1 a2 a3 a4 b1 b2 b3 b4.
have -> : 1%:M - cjg d ei (pm A) *m cjg e di (mp B) = cjg d di (1%:M - pm A *m mp B) by rewrite cjgD cjgN (cjgM _ _ _ _ eie) cjg1.
rewrite !solveG; case: (solve _ _) => //= X; case: (solve _ _) => //= Y.
by rewrite con2_block -{1}cjg1e !((cjgM _ _ _ _ did), (cjgM _ _ _ _ eie), =^~ cjgD).
Qed.
Lemma doublingsG n S : doublings n (con2 S) = res_map con2 (doublings n S).
Proof. by elim: n S => [//|n IH] S /=; rewrite multSG; case: (multS S S) => //= T; rewrite IH. Qed.
Lemma at_opG x y : at_op (omap con2 x) (omap con2 y) = res_map (omap con2) (at_op x y).
Proof. by case: x y => [a|] [b|] //=; rewrite multSG; case: (multS a b). Qed.
Lemma repeatsG n x y : repeats n (omap con2 x) (omap con2 y) = res_map (omap con2) (repeats n x y).
Proof. by elim: n x => [//|n IH] x /=; rewrite at_opG; case: (at_op x y) => //= a; rewrite IH. Qed.
Lemma stackG stacking req req' : (forall nm, req' nm = omap con2 (req nm)) -> forall depth name,
  stack_s stacking req' depth name = res_map (omap con2) (stack_s stacking req depth name).
Proof.
move=> hreq; elim=> [//|dp IH] name /=; rewrite hreq; case: (req name) => [Si //|/=].
case: (look stacking name) => [[[|l0 rest] rep]|] //=; rewrite IH; case: (stack_s _ _ _ l0) => //= S0.
have h : forall acc, (fix go (acc : option 'M[F]_(k + k)) (ls : seq string) : res (option 'M[F]_(k + k)) :=
      match ls with
      | [::] => Ok acc
      | ss :: ls' => do T <- stack_s stacking req' dp ss; do a <- at_op acc T; go a ls'
      end) (omap con2 acc) rest = res_map (omap con2) ((fix go (acc : option 'M[F]_(k + k)) (ls : seq string) : res (option 'M[F]_(k + k)) :=
      match ls with
      | [::] => Ok acc
      | ss :: ls' => do T <- stack_s stacking req dp ss; do a <- at_op acc T; go a ls'
      end) acc rest).
  elim: rest => [//|ss rest ih] acc /=; rewrite IH; case: (stack_s _ _ _ ss) => //= T.
  by rewrite at_opG; case: (at_op acc T).
rewrite h; match goal with |- bind (res_map _ ?g) _ = _ => case: g => //= S1 end.
by case: Z.ltb => //; case: S1 => //= M; rewrite -repeatsG.
Qed.
End Conj.

Lemma sliced_conj2 k (expm : 'M[C]_(k + k) -> 'M[C]_(k + k)) (d di e ei : 'M[C]_k) P Q U A V U' A' V' z n : is_expm expm ->
  d *m di = 1%:M -> e *m ei = 1%:M -> P *m Q = 1%:M -> U' *m P = dd d e *m U -> A' *m P = P *m A -> V' *m dd d e = P *m V ->
  @sliced_layer C_fieldType k expm U' A' V' z n = res_map (con2 d di e ei) (@sliced_layer C_fieldType k expm U A V z n).
Proof.
move=> hx h1 h2 PQ hU hA hV; rewrite /sliced_layer; set s := z / _.
have -> : U' *m expm (s *: - A') *m V' = con2 d di e ei (U *m expm (s *: - A) *m V).
  have h : P *m expm (s *: - A) = expm (s *: - A') *m P.
    rewrite !(is_expmE _ hx); apply: exp_intertwine; by rewrite -!(scalemxAr, scalemxAl) mulmxN mulNmx hA.
  rewrite /con2 !mulmxA -hU -!mulmxA; congr (_ *m _); rewrite !mulmxA h -!mulmxA; congr (_ *m _).
  by rewrite !mulmxA -hV -mulmxA dd1 // mulmx1.
by rewrite matrix_sG //; case: (matrix_s _) => //= T; rewrite doublingsG.
Qed.
