(** Real and complex numbers (Stdlib [R], Coquelicot [C = R * R]) equipped with
    MathComp's algebraic structures, so that MathComp matrices can be used over
    the very numbers whose exponential, square root and modulus the code uses. *)
From Coq Require Import Reals Lra ClassicalEpsilon.
From mathcomp Require Import all_ssreflect all_algebra.
From Coquelicot Require Import Complex.
Delimit Scope R_scope with Re.
Delimit Scope C_scope with C.
Set Implicit Arguments. Unset Strict Implicit. Unset Printing Implicit Defensive.

(** * R as a MathComp field *)
Definition eqr (x y : R) : bool := if Req_EM_T x y is left _ then true else false.
Lemma eqrP : Equality.axiom eqr.
Proof. by move=> x y; rewrite /eqr; case: Req_EM_T => h; constructor. Qed.
Definition R_eqMixin := EqMixin eqrP.
Canonical R_eqType := Eval hnf in EqType R R_eqMixin.

Fact inhR : inhabited R. Proof. exact: (inhabits R0). Qed.
Definition pickR (P : pred R) (n : nat) :=
  let x := epsilon inhR P in if P x then Some x else None.
Fact pickR_some P n x : pickR P n = Some x -> P x.
Proof. by rewrite /pickR; case: (boolP (P _)) => // Px [<-]. Qed.
Fact pickR_ex (P : pred R) : (exists x : R, P x) -> exists n, pickR P n.
Proof. by rewrite /pickR; move=> /(epsilon_spec inhR)->; exists 0%N. Qed.
Fact pickR_ext (P Q : pred R) : P =1 Q -> pickR P =1 pickR Q.
Proof.
move=> PEQ n; rewrite /pickR; set u := epsilon _ _; set v := epsilon _ _.
suff->: u = v by rewrite PEQ.
by congr epsilon; apply: FunctionalExtensionality.functional_extensionality=> x; rewrite PEQ.
Qed.
Definition R_choiceMixin : choiceMixin R := Choice.Mixin pickR_some pickR_ex pickR_ext.
Canonical R_choiceType := Eval hnf in ChoiceType R R_choiceMixin.

Fact RplusA : associative Rplus. Proof. by move=> *; rewrite Rplus_assoc. Qed.
Definition R_zmodMixin := ZmodMixin RplusA Rplus_comm Rplus_0_l Rplus_opp_l.
Canonical R_zmodType := Eval hnf in ZmodType R R_zmodMixin.
Fact RmultA : associative Rmult. Proof. by move=> *; rewrite Rmult_assoc. Qed.
Fact R1_neq_0 : (1 : R)%Re != (0 : R)%Re. Proof. by apply/eqP; exact: R1_neq_R0. Qed.
Definition R_ringMixin := RingMixin RmultA Rmult_1_l Rmult_1_r
  Rmult_plus_distr_r Rmult_plus_distr_l R1_neq_0.
Canonical R_ringType := Eval hnf in RingType R R_ringMixin.
Canonical R_comRingType := Eval hnf in ComRingType R Rmult_comm.

Import GRing.Theory.
Local Open Scope ring_scope.

Lemma RplusE (x y : R) : Rplus x y = x + y. Proof. by []. Qed.
Lemma RmultE (x y : R) : Rmult x y = x * y. Proof. by []. Qed.
Lemma RoppE (x : R) : Ropp x = - x. Proof. by []. Qed.
Lemma RminusE (x y : R) : Rminus x y = x - y. Proof. by []. Qed.
Lemma R0E : 0%Re = 0. Proof. by []. Qed.
Lemma R1E : 1%Re = 1. Proof. by []. Qed.

(** * C as a MathComp field *)
Definition eqc (x y : C) : bool := if Ceq_dec x y is left _ then true else false.
Lemma eqcP : Equality.axiom eqc.
Proof. by move=> x y; rewrite /eqc; case: Ceq_dec => h; constructor. Qed.
Definition C_eqMixin := EqMixin eqcP.
Canonical C_eqType := Eval hnf in EqType C C_eqMixin.
Fact C_pairK : cancel (fun z : C => (z : R * R)) (fun x : R * R => (x : C)). Proof. by []. Qed.
Definition C_choiceMixin := CanChoiceMixin C_pairK.
Canonical C_choiceType := Eval hnf in ChoiceType C C_choiceMixin.
Definition C_zmodMixin := @ZmodMixin C (RtoC 0%Re) Copp Cplus Cplus_assoc Cplus_comm Cplus_0_l
  (fun x => etrans (Cplus_comm _ _) (Cplus_opp_r x)).
Canonical C_zmodType := Eval hnf in ZmodType C C_zmodMixin.
Fact C1_neq_0 : RtoC 1%Re != RtoC 0%Re :> C.
Proof. by apply/eqP => /RtoC_inj; exact: R1_neq_R0. Qed.
Definition C_ringMixin := @RingMixin C_zmodType (RtoC 1%Re) Cmult Cmult_assoc Cmult_1_l Cmult_1_r
  Cmult_plus_distr_r Cmult_plus_distr_l C1_neq_0.
Canonical C_ringType := Eval hnf in RingType C C_ringMixin.
Canonical C_comRingType := Eval hnf in ComRingType C Cmult_comm.
Fact Cmul_invl (x : C) : x != 0 -> Cinv x * x = 1.
Proof. by move=> /eqP hx; exact: Cinv_l. Qed.
Fact Cinv_0 : Cinv 0 = 0 :> C.
Proof.
rewrite /Cinv /=. apply: injective_projections => /=; rewrite /Rdiv; ring.
Qed.
Definition C_unitRingMixin := FieldUnitMixin Cmul_invl Cinv_0.
Canonical C_unitRingType := Eval hnf in UnitRingType C C_unitRingMixin.
Canonical C_comUnitRingType := Eval hnf in [comUnitRingType of C].
Fact C_field_axiom : GRing.Field.mixin_of C_unitRingType.
Proof. by []. Qed.
Definition C_idomainMixin := FieldIdomainMixin C_field_axiom.
Canonical C_idomainType := Eval hnf in IdomainType C C_idomainMixin.
Canonical C_fieldType := Eval hnf in FieldType C C_field_axiom.

(** Bridges between MathComp's operations on C and Coquelicot's, used to call
    Stdlib's [ring] and [field] on goals written with MathComp operations. *)
Lemma addCE (x y : C) : x + y = Cplus x y. Proof. by []. Qed.
Lemma mulCE (x y : C) : x * y = Cmult x y. Proof. by []. Qed.
Lemma oppCE (x : C) : - x = Copp x. Proof. by []. Qed.
Lemma invCE (x : C) : x^-1 = Cinv x. Proof. by []. Qed.
Lemma zeroCE : 0 = RtoC 0%Re :> C. Proof. by []. Qed.
Lemma oneCE : 1 = RtoC 1%Re :> C. Proof. by []. Qed.
Lemma addRE (x y : R) : x + y = Rplus x y. Proof. by []. Qed.
Lemma mulRE (x y : R) : x * y = Rmult x y. Proof. by []. Qed.
Lemma oppRE (x : R) : - x = Ropp x. Proof. by []. Qed.
Lemma zeroRE : 0 = 0%Re :> R. Proof. by []. Qed.
Lemma oneRE : 1 = 1%Re :> R. Proof. by []. Qed.

Lemma natCE n : n%:R = RtoC (INR n) :> C.
Proof.
elim: n => [//|n IH]; rewrite mulrS IH S_INR RtoC_plus addCE oneCE Cplus_comm //.
Qed.
Lemma natRE n : n%:R = INR n :> R.
Proof. elim: n => [//|n IH]; by rewrite mulrS IH S_INR addRE oneRE Rplus_comm. Qed.

Lemma two_neq0 : (2%:R : C) != 0.
Proof. by apply/eqP; rewrite natCE zeroCE => /RtoC_inj /=; lra. Qed.

(** Equality of complex numbers from real and imaginary parts. *)
Lemma C_ext (x y : C) : fst x = fst y -> snd x = snd y -> x = y.
Proof. by case: x y => a b [c d] /= -> ->. Qed.

Lemma conjCD (x y : C) : Cconj (x + y) = Cconj x + Cconj y.
Proof. apply: C_ext => //=; ring. Qed.
Lemma conjCN (x : C) : Cconj (- x) = - Cconj x.
Proof. by apply: C_ext. Qed.
Lemma conjCM (x y : C) : Cconj (x * y) = Cconj x * Cconj y.
Proof. apply: C_ext => /=; ring. Qed.
Lemma conjC1 : Cconj 1 = 1. Proof. apply: C_ext => //=; ring. Qed.
Lemma conjC0 : Cconj 0 = 0. Proof. apply: C_ext => //=; ring. Qed.
Lemma conjCK (x : C) : Cconj (Cconj x) = x. Proof. apply: C_ext => //=; ring. Qed.
Fact Cconj_is_rmorphism : rmorphism Cconj.
Proof.
split; first by move=> x y; rewrite conjCD conjCN.
by split; [move=> x y; rewrite conjCM | rewrite conjC1].
Qed.
Canonical Cconj_additive := Additive Cconj_is_rmorphism.
Canonical Cconj_rmorphism := RMorphism Cconj_is_rmorphism.

Fact RtoC_is_rmorphism : rmorphism (RtoC : R -> C).
Proof.
split; first by move=> x y; rewrite RtoC_minus.
by split; [move=> x y; rewrite RtoC_mult | ].
Qed.
Canonical RtoC_additive := Additive RtoC_is_rmorphism.
Canonical RtoC_rmorphism := RMorphism RtoC_is_rmorphism.
Fact Re_is_additive : additive (Re : C -> R). Proof. by []. Qed.
Canonical Re_additive := Additive Re_is_additive.
Fact Im_is_additive : additive (Im : C -> R). Proof. by []. Qed.
Canonical Im_additive := Additive Im_is_additive.

(** [cring]/[rring]: Stdlib's decision procedure on MathComp-style goals. *)
Ltac toC := rewrite ?(expr2, addCE, mulCE, oppCE, invCE, zeroCE, oneCE, natCE) /=;
  match goal with |- @eq _ ?a ?b => change (@eq C a b) end.
Ltac cring := toC; ring.
Ltac toR := rewrite ?(expr2, addRE, mulRE, oppRE, zeroRE, oneRE, natRE) /=;
  match goal with |- @eq _ ?a ?b => change (@eq R a b) end.
Ltac rring := toR; ring.
(** Stdlib's [field] on C; leaves the non-zero side conditions. *)
Ltac cfield := toC; field.
Ltac rfield := toR; field.
