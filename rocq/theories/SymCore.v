(** Lemmas for C99-C102: what a change of description does to the matrices of a layer.
    The polarisation components are rotated or reflected by [[a, b], [-s b, s a]], the
    orders are renamed by a permutation and multiplied by phases. *)
From Coq Require Import Reals ZArith Lra Lia.
From mathcomp Require Import all_ssreflect all_fingroup all_algebra.
From Coquelicot Require Import Complex.
From Verif Require Import Base ZmodTac CField CFun Blk ModelRedheffer SpecScatter ModelLayer SpecLayer SpecEig LayerProofs
  LayerCProofs LayerApiProofs UniformProofs FluxProofs ReciprocityProofs.
Set Implicit Arguments. Unset Strict Implicit. Unset Printing Implicit Defensive.
Import GRing.Theory.
Local Open Scope ring_scope.

Lemma inv3 m (L U M : 'M[C]_m) : L \in unitmx -> U \in unitmx -> M \in unitmx ->
  invmx (L *m U *m M) = invmx M *m invmx U *m invmx L.
Proof.
move=> uL uU uM; have u : L *m U *m M \in unitmx by rewrite !unitmx_mul uL uU.
apply: (can_inj (mulKmx u)); rewrite mulmxV // -!mulmxA mulKVmx // mulKVmx // mulmxV //.
Qed.

Section Change.
Variable n : nat.
Variables (a b s : C) (ph : 'I_n -> C) (p : {perm 'I_n}).
Hypotheses (hab : a * a + b * b = 1) (hs : s * s = 1) (hph : forall i, ph i != 0).

(** Renaming and phases. *)
Definition cj (A : 'M[C]_n) : 'M[C]_n := \matrix_(i, j) (ph i * A (p i) (p j) / ph j).
Definition rn (r : 'rV[C]_n) : 'rV[C]_n := \row_i r 0 (p i).
Definition mm : 'M[C]_n := \matrix_(i, j) (if j == p i then ph i else 0).
Definition mi : 'M[C]_n := \matrix_(i, j) (if i == p j then (ph j)^-1 else 0).
Lemma mmE (A : 'M[C]_n) i j : (mm *m A) i j = ph i * A (p i) j.
Proof. by rewrite mxE (bigD1 (p i)) //= big1 ?addr0 ?mxE ?eqxx // => k /negbTE hk; rewrite mxE hk mul0r. Qed.
Lemma miE (A : 'M[C]_n) i j : (A *m mi) i j = A i (p j) / ph j.
Proof. by rewrite mxE (bigD1 (p j)) //= big1 ?addr0 ?mxE ?eqxx // => k /negbTE hk; rewrite mxE hk mulr0. Qed.
Lemma mmK : mm *m mi = 1%:M.
Proof.
apply/matrixP => i j; rewrite miE !mxE (inj_eq perm_inj) eq_sym; case: eqP => [->|_]; first by rewrite divff.
by rewrite mul0r.
Qed.
Lemma miK : mi *m mm = 1%:M.
Proof. exact: (mulmx1C mmK). Qed.
Lemma cjE A : mm *m A *m mi = cj A.
Proof. by apply/matrixP => i j; rewrite miE mmE mxE. Qed.
Lemma cjM A B : cj (A *m B) = cj A *m cj B.
Proof. by rewrite -!cjE -!mulmxA; congr (_ *m (_ *m _)); rewrite (mulmxA mi) miK mul1mx. Qed.
Lemma cj1 : cj 1%:M = 1%:M. Proof. by rewrite -cjE mulmx1 mmK. Qed.
Lemma cjB A B : cj (A - B) = cj A - cj B.
Proof. by rewrite -!cjE mulmxBr mulmxBl. Qed.
Lemma cjN A : cj (- A) = - cj A.
Proof. by rewrite -!cjE mulmxN mulNmx. Qed.
Lemma cj_scalar x : cj x%:M = x%:M.
Proof. by rewrite -cjE mul_mx_scalar -scalemxAl mmK scalemx1. Qed.
Lemma cj_unit A : (cj A \in unitmx) = (A \in unitmx).
Proof.
have um : mm \in unitmx by case: (mulmx1_unit mmK).
have ui : mi \in unitmx by case: (mulmx1_unit mmK).
by rewrite -cjE !unitmx_mul um ui andbT.
Qed.
Lemma cjV A : invmx (cj A) = cj (invmx A).
Proof.
case: (boolP (A \in unitmx)) => u; last by rewrite /invmx cj_unit (negbTE u).
have u' : cj A \in unitmx by rewrite cj_unit.
by apply: (can_inj (mulKmx u')); rewrite mulmxV // -cjM mulmxV // cj1.
Qed.
Lemma cj_diag r : cj (diag_mx r) = diag_mx (rn r).
Proof.
apply/matrixP => i j; rewrite !mxE (inj_eq perm_inj); case: eqP => [->|_]; last by rewrite mulr0n mulr0 mul0r.
by rewrite !mulr1n mulrC mulrA mulVf ?mul1r.
Qed.

(** Both components. *)
Definition GG : 'M[C]_(n + n) := block_mx (a *: mm) (b *: mm) (- (s * b) *: mm) (s * a *: mm).
Definition Gi : 'M[C]_(n + n) := block_mx (a *: mi) (- (s * b) *: mi) (b *: mi) (s * a *: mi).
Definition CJ (A : 'M[C]_(n + n)) : 'M[C]_(n + n) := GG *m A *m Gi.
Definition mix (A B D E : 'M[C]_n) : 'M[C]_(n + n) :=
  block_mx (a * a *: A + a * b *: B + b * a *: D + b * b *: E)
           (s *: (a * a *: B - a * b *: A + b * a *: E - b * b *: D))
           (s *: (a * a *: D - b * a *: A + a * b *: E - b * b *: B))
           (a * a *: E - a * b *: D - b * a *: B + b * b *: A).
Lemma CJ_block A B D E : CJ (block_mx A B D E) = mix (cj A) (cj B) (cj D) (cj E).
Proof.
rewrite /CJ /GG /Gi !mulmx_block /mix -!cjE.
rewrite -!scalemxAl !mulmxDl -!scalemxAl -!scalemxAr.
move: (mm *m A *m mi) (mm *m B *m mi) (mm *m D *m mi) (mm *m E *m mi) => A' B' D' E'.
congr block_mx; apply/matrixP => i j; rewrite !mxE.
all: move: (A' i j) (B' i j) (D' i j) (E' i j) => x y z t.
- by cring.
- by cring.
- by cring.
- by have h : Cmult s s = RtoC 1 := hs; toC; ring [h].
Qed.
Lemma GGK : GG *m Gi = 1%:M.
Proof.
have h1 := hab; have h2 := hs.
rewrite /GG /Gi mulmx_block -!scalemxAl -!scalemxAr mmK !scalerA -!scalerDl scalar_mx_block.
have -> : a * a + b * b = 1 by [].
have -> : a * - (s * b) + b * (s * a) = 0 by cring.
have -> : - (s * b) * a + s * a * b = 0 by cring.
have -> : - (s * b) * - (s * b) + s * a * (s * a) = 1.
  transitivity (s * s * (a * a + b * b)); first by cring.
  by rewrite h1 h2 mulr1.
by rewrite scale1r scale0r.
Qed.
Lemma GiK : Gi *m GG = 1%:M. Proof. exact: (mulmx1C GGK). Qed.
Lemma uGG : GG \in unitmx. Proof. by case: (mulmx1_unit GGK). Qed.
Lemma uGi : Gi \in unitmx. Proof. by case: (mulmx1_unit GGK). Qed.
Lemma Gi_inv : invmx GG = Gi.
Proof. by apply: (can_inj (mulKmx uGG)); rewrite mulmxV ?uGG // GGK. Qed.
Lemma CJM A B : CJ (A *m B) = CJ A *m CJ B.
Proof. by rewrite /CJ -!mulmxA; congr (_ *m (_ *m _)); rewrite (mulmxA Gi) GiK mul1mx. Qed.
Lemma CJ1 : CJ 1%:M = 1%:M. Proof. by rewrite /CJ mulmx1 GGK. Qed.
Lemma CJD A B : CJ (A + B) = CJ A + CJ B. Proof. by rewrite /CJ mulmxDr mulmxDl. Qed.
Lemma CJN A : CJ (- A) = - CJ A. Proof. by rewrite /CJ mulmxN mulNmx. Qed.
Lemma CJB A B : CJ (A - B) = CJ A - CJ B. Proof. by rewrite CJD CJN. Qed.
Lemma CJZ x A : CJ (x *: A) = x *: CJ A. Proof. by rewrite /CJ -scalemxAr -scalemxAl. Qed.
Lemma CJ_unit A : (CJ A \in unitmx) = (A \in unitmx).
Proof. by rewrite /CJ !unitmx_mul uGG uGi andbT. Qed.
Lemma CJV A : invmx (CJ A) = CJ (invmx A).
Proof.
case: (boolP (A \in unitmx)) => u; last by rewrite /invmx CJ_unit (negbTE u).
have u' : CJ A \in unitmx by rewrite CJ_unit.
by apply: (can_inj (mulKmx u')); rewrite mulmxV // -CJM mulmxV // CJ1.
Qed.
Lemma CJ_twice r : CJ (diag_mx (twice r)) = diag_mx (twice (rn r)).
Proof.
have e v : diag_mx (twice v) = block_mx (diag_mx v) 0 0 (diag_mx v) by rewrite /twice diag_mx_row.
rewrite !e CJ_block cj_diag (_ : cj 0 = 0); last by rewrite -cjE mulmx0 mul0mx.
rewrite /mix !scaler0 ?addr0 ?subr0 ?add0r.
have h : Cmult a a = Cminus (RtoC 1) (Cmult b b) by rewrite -[RtoC 1]/(1 : C) -hab; cring.
move: (diag_mx (rn r)) => D; congr block_mx; apply/matrixP => i j; rewrite !mxE; move: (D i j) => x.
all: by toC; ring [h].
Qed.

(** Wavevectors. *)
Definition kx' (kx ky : 'rV[C]_n) : 'rV[C]_n := rn (a *: kx + b *: ky).
Definition ky' (kx ky : 'rV[C]_n) : 'rV[C]_n := rn (- (s * b) *: kx + s * a *: ky).
Lemma diagZ (x : C) (v : 'rV[C]_n) : diag_mx (x *: v) = x *: diag_mx v.
Proof. by apply/matrixP => i j; rewrite !mxE mulrnAr. Qed.
Lemma diagD (u v : 'rV[C]_n) : diag_mx (u + v) = diag_mx u + diag_mx v.
Proof. by apply/matrixP => i j; rewrite !mxE mulrnDl. Qed.
Lemma rnL (x y : C) u v : rn (x *: u + y *: v) = x *: rn u + y *: rn v.
Proof. by apply/rowP => i; rewrite !mxE. Qed.

Variables kx ky : 'rV[C]_n.
Notation X := (diag_mx (rn kx)).
Notation Y := (diag_mx (rn ky)).
Lemma dkx : diag_mx (kx' kx ky) = a *: X + b *: Y.
Proof. by rewrite /kx' rnL diagD !diagZ. Qed.
Lemma dky : diag_mx (ky' kx ky) = - (s * b) *: X + s * a *: Y.
Proof. by rewrite /ky' rnL diagD !diagZ. Qed.

Lemma mix_K (M1 M2 : 'M[C]_n) : let x := a *: X + b *: Y in let y := - (s * b) *: X + s * a *: Y in
  block_mx (x *m (M1 *m y)) (M2 - x *m (M1 *m x)) (y *m (M1 *m y) - M2) (- (y *m (M1 *m x))) =
  s *: mix (X *m (M1 *m Y)) (M2 - X *m (M1 *m X)) (Y *m (M1 *m Y) - M2) (- (Y *m (M1 *m X))).
Proof.
cbv zeta; rewrite /mix scale_block_mx !mulmxDr !mulmxDl -!scalemxAr -!scalemxAl -?scalemxAr.
have h : Cmult a a = Cminus (RtoC 1) (Cmult b b) by rewrite -[RtoC 1]/(1 : C) -hab; cring.
have h' : Cmult s s = RtoC 1 := hs.
move: (X *m (M1 *m X)) (X *m (M1 *m Y)) (Y *m (M1 *m X)) (Y *m (M1 *m Y)) => XX XY YX YY.
congr block_mx; apply/matrixP => i j; rewrite !mxE.
all: move: (XX i j) (XY i j) (YX i j) (YY i j) (M2 i j) => xx xy yx yy m2; toC; ring [h h'].
Qed.

Lemma Q_change Cm : structured_Q (kx' kx ky) (ky' kx ky) (cj Cm) = s *: CJ (structured_Q kx ky Cm).
Proof.
rewrite /structured_Q dkx dky CJ_block !cjB !cjM cjN cjM !cj_diag.
by have := mix_K 1%:M (cj Cm); cbv zeta; rewrite !mul1mx.
Qed.
Lemma P_change IC : structured_P (kx' kx ky) (ky' kx ky) (cj IC) = s *: CJ (structured_P kx ky IC).
Proof.
rewrite /structured_P dkx dky CJ_block !cjB cj1 !cjM cjN !cjM !cj_diag.
exact: mix_K.
Qed.
Lemma PQ_change Cm : structured_P (kx' kx ky) (ky' kx ky) (invmx (cj Cm)) *m structured_Q (kx' kx ky) (ky' kx ky) (cj Cm) =
  CJ (structured_P kx ky (invmx Cm) *m structured_Q kx ky Cm).
Proof. by rewrite cjV P_change Q_change -scalemxAl -scalemxAr scalerA hs scale1r CJM. Qed.
Lemma s_neq0 : s != 0.
Proof. by apply/eqP => e; move/eqP: hs; rewrite e mul0r eq_sym oner_eq0. Qed.
Lemma norm_change i : kx' kx ky 0 i ^+ 2 + ky' kx ky 0 i ^+ 2 = kx 0 (p i) ^+ 2 + ky 0 (p i) ^+ 2.
Proof.
rewrite !mxE; have h : Cmult a a = Cminus (RtoC 1) (Cmult b b) by rewrite -[RtoC 1]/(1 : C) -hab; cring.
by have h' : Cmult s s = RtoC 1 := hs; move: (kx 0 (p i)) (ky 0 (p i)) => x y; toC; ring [h h'].
Qed.
Lemma divcols_change (Q V : 'M[C]_(n + n)) r : divcols Q (twice r) = Ok V ->
  divcols (s *: CJ Q) (twice (rn r)) = Ok (s *: CJ V).
Proof.
move=> /divcolsP [h1 h2]; apply/divcolsP; split; last by rewrite -CJ_twice -scalemxAl -CJM h2.
move=> j; rewrite mxE; case: split => i; rewrite mxE.
- by have := h1 (lshift n (p i)); rewrite row_mxEl.
- by have := h1 (rshift n (p i)); rewrite row_mxEr.
Qed.

(** Stacks. *)
Definition conjS (S : smat C_fieldType (n + n)) : smat C_fieldType (n + n) :=
  Smat (CJ (s11 S)) (CJ (s12 S)) (CJ (s21 S)) (CJ (s22 S)).
Lemma conj_Id : conjS (scattering_identity _ (n + n)) = scattering_identity _ (n + n).
Proof. by rewrite /conjS /= CJ1 /CJ mulmx0 mul0mx. Qed.
Lemma solve_change (A B : 'M[C]_(n + n)) : solve (CJ A) (CJ B) = (do X <- solve A B; Ok (CJ X)).
Proof. by rewrite /solve CJ_unit; case: ifP => // u; rewrite /bind CJV CJM. Qed.
Lemma inv_change (A : 'M[C]_(n + n)) : inv (CJ A) = (do X <- inv A; Ok (CJ X)).
Proof. by rewrite /inv CJ_unit; case: ifP => // u; rewrite /bind CJV. Qed.
Lemma redheffer_change SA SB SC : redheffer_product SA SB = Ok SC -> redheffer_product (conjS SA) (conjS SB) = Ok (conjS SC).
Proof.
rewrite /redheffer_product; cbn [s11 s12 s21 s22 conjS].
have e A B : 1%:M - CJ A *m CJ B = CJ (1%:M - A *m B) by rewrite CJB CJ1 CJM.
rewrite !e !solve_change; case: (solve _ (s11 SB)) => [x1|//]; cbn [bind]; case: (solve _ (s12 SB)) => [x2|//]; cbn [bind].
case: (solve _ (s21 SA)) => [x3|//]; cbn [bind]; case: (solve _ (s22 SA)) => [x4|//]; cbn [bind] => -[<-].
by rewrite /conjS; cbn [s11 s12 s21 s22]; rewrite !CJD !CJM.
Qed.

(** Layers. *)
Section Build.
Variables (G2 g2 H Hi W V W0 V0 : 'M[C]_(n + n)) (x x' : 'rV[C]_(n + n)).
Hypotheses (u2 : G2 \in unitmx) (hH : H *m Hi = 1%:M) (hx : diag_mx x' = Hi *m diag_mx x *m H).
Lemma solve_sides (U A : 'M[C]_(n + n)) (L : 'M[C]_(n + n)) : L \in unitmx ->
  solve (L *m U *m H) (L *m A *m Gi) = (do t <- solve U A; Ok (Hi *m t *m Gi)).
Proof.
move=> uL; have [uH ui] := mulmx1_unit hH; have ih : invmx H = Hi.
  by apply: (can_inj (mulKmx uH)); rewrite mulmxV.
rewrite /solve !unitmx_mul uL uH andbT /=; case: ifP => // u; rewrite /bind; congr Ok.
rewrite inv3 //.
by rewrite ih !mulmxA -(mulmxA _ (invmx L)) mulVmx // mulmx1.
Qed.
Lemma solve_A (U A : 'M[C]_(n + n)) : solve (Hi *m U *m Gi) (Hi *m A *m H) = (do t <- solve U A; Ok (GG *m t *m H)).
Proof.
have [uH ui] := mulmx1_unit hH; have ih : invmx Hi = H.
  by apply: (can_inj (mulKmx ui)); rewrite mulmxV // (mulmx1C hH).
have ig : invmx Gi = GG by apply: (can_inj (mulKmx uGi)); rewrite mulmxV ?uGi // GiK.
rewrite /solve !unitmx_mul ui uGi andbT /=; case: ifP => // u; rewrite /bind; congr Ok.
rewrite inv3 ?uGi //.
by rewrite ih ig !mulmxA -(mulmxA _ H) hH mulmx1.
Qed.
Lemma solve_G (U A : 'M[C]_(n + n)) : solve (Hi *m U *m Gi) (Hi *m A *m Gi) = (do t <- solve U A; Ok (GG *m t *m Gi)).
Proof.
have [uH ui] := mulmx1_unit hH; have ih : invmx Hi = H.
  by apply: (can_inj (mulKmx ui)); rewrite mulmxV // (mulmx1C hH).
have ig : invmx Gi = GG by apply: (can_inj (mulKmx uGi)); rewrite mulmxV ?uGi // GiK.
rewrite /solve !unitmx_mul ui uGi andbT /=; case: ifP => // u; rewrite /bind; congr Ok.
rewrite inv3 ?uGi //.
by rewrite ih ig !mulmxA -(mulmxA _ H) hH mulmx1.
Qed.
Lemma build_change S : build_core W V W0 V0 x = Ok S ->
  build_core (GG *m W *m H) (G2 *m V *m H) (GG *m W0 *m Gi) (G2 *m V0 *m Gi) x' = Ok (conjS S).
Proof.
rewrite /build_core (solve_sides W W0 uGG) (solve_sides V V0 u2).
case: (solve W W0) => [t1|//]; cbn [bind]; case: (solve V V0) => [t2|//]; cbn [bind].
have eA : Hi *m t1 *m Gi + Hi *m t2 *m Gi = Hi *m (t1 + t2) *m Gi by rewrite mulmxDr mulmxDl.
have eB : Hi *m t1 *m Gi - Hi *m t2 *m Gi = Hi *m (t1 - t2) *m Gi by rewrite mulmxBr mulmxBl.
rewrite eA eB hx solve_A; move: (t1 + t2) (t1 - t2) (diag_mx x) => A B X {t1 t2 eA eB}.
case: (solve A X) => [ax|//]; cbn [bind].
have k (L R : 'M[C]_(n + n)) : L *m H *m (Hi *m R) = L *m R by rewrite !mulmxA -(mulmxA L) hH mulmx1.
have k' (L R : 'M[C]_(n + n)) : L *m Gi *m (GG *m R) = L *m R by rewrite !mulmxA -(mulmxA L) GiK mulmx1.
have e1 (R : 'M[C]_(n + n)) : Hi *m X *m H *m (Hi *m B *m Gi) *m (GG *m ax *m H) *m (Hi *m R *m Gi) = Hi *m (X *m B *m ax *m R) *m Gi.
  by rewrite -!mulmxA; do 2 (rewrite (mulmxA H Hi) hH mul1mx); rewrite (mulmxA Gi) GiK mul1mx.
rewrite !e1.
have -> : Hi *m A *m Gi - Hi *m (X *m B *m ax *m B) *m Gi = Hi *m (A - X *m B *m ax *m B) *m Gi by rewrite mulmxBr mulmxBl.
have -> : Hi *m (X *m B *m ax *m A) *m Gi - Hi *m B *m Gi = Hi *m (X *m B *m ax *m A - B) *m Gi by rewrite mulmxBr mulmxBl.
rewrite !solve_G; case: (solve _ (X *m B *m ax *m A - B)) => [S11|//]; cbn [bind].
case: (solve A B) => [ab|//]; cbn [bind].
have -> : Hi *m X *m H *m (Hi *m A *m Gi - Hi *m B *m Gi *m (GG *m ab *m Gi)) = Hi *m (X *m (A - B *m ab)) *m Gi.
  have -> : Hi *m B *m Gi *m (GG *m ab *m Gi) = Hi *m (B *m ab) *m Gi by rewrite -!mulmxA (mulmxA Gi) GiK mul1mx.
  have -> : Hi *m A *m Gi - Hi *m (B *m ab) *m Gi = Hi *m ((A - B *m ab) *m Gi) by rewrite -!mulmxA mulmxBl mulmxBr !mulmxA.
  by rewrite k !mulmxA.
rewrite solve_G; case: (solve _ (X *m (A - B *m ab))) => [S12|//]; cbn [bind] => -[<-] //.
Qed.
End Build.

(** Modes. *)
Notation kX := (kx' kx ky). Notation kY := (ky' kx ky).
Lemma kz_row (f : C -> C) (e : C) : \row_j f (e - kX 0 j ^+ 2 - kY 0 j ^+ 2) = rn (\row_j f (e - kx 0 j ^+ 2 - ky 0 j ^+ 2)).
Proof. by apply/rowP => i; rewrite !mxE -!addrA -!opprD -!norm_change !mxE. Qed.
Lemma rnZ x r : rn (x *: r) = x *: rn r.
Proof. by apply/rowP => i; rewrite !mxE. Qed.
Lemma q_change e : qmat kX kY e = s *: CJ (qmat kx ky e).
Proof. by rewrite -!structured_QE -[in LHS](cj_scalar e) Q_change. Qed.

Lemma free_change W0 V0 : free_space_eigenmodes kx ky = Ok (W0, V0) ->
  W0 = 1%:M /\ free_space_eigenmodes kX kY = Ok (1%:M, s *: CJ V0).
Proof.
rewrite /free_space_eigenmodes; cbv zeta.
have e (a1 a2 : 'rV[C]_n) : block_mx (diag_mx (\row_j (a1 0 j * a2 0 j))) (1%:M - diag_mx (\row_j (a1 0 j ^+ 2)))
    (diag_mx (\row_j (a2 0 j ^+ 2)) - 1%:M) (- diag_mx (\row_j (a2 0 j * a1 0 j))) = qmat a1 a2 1 :> 'M[C]_(n + n).
  by rewrite dgf_scal -!/(dgf _) !dgfB !dgfN.
rewrite !e; case hV : (divcols _ _) => [V|//] [<- <-]; split=> //.
by rewrite q_change (kz_row kz_branch) -rnZ (divcols_change hV).
Qed.
Lemma uniform_change er W V l : solve_uniform_layer kx ky er 1 = Ok (W, V, l) ->
  exists r, [/\ W = 1%:M, l = twice r & solve_uniform_layer kX kY er 1 = Ok (1%:M, s *: CJ V, twice (rn r))].
Proof.
rewrite /solve_uniform_layer; case: ifP => // /negbT; rewrite negb_or => /andP [en0 mn0]; cbv zeta.
rewrite !uniform_QE //; case hV : (divcols _ _) => [V'|//] [<- <- <-].
exists (ci *: \row_j kz_branch (1 * er - kx 0 j ^+ 2 - ky 0 j ^+ 2)); split=> //.
rewrite q_change (kz_row kz_branch) -rnZ.
have -> : 1^-1 *: (s *: CJ (qmat kx ky (er * 1))) = s *: CJ (1^-1 *: qmat kx ky (er * 1)) by rewrite invr1 !scale1r.
by rewrite (divcols_change hV).
Qed.
Lemma half_change er V : divcols (Qref kx ky er 1) (twice (ci *: half_kz kx ky er 1)) = Ok V ->
  divcols (Qref kX kY er 1) (twice (ci *: half_kz kX kY er 1)) = Ok (s *: CJ V).
Proof.
rewrite !QrefE q_change /half_kz (kz_row (fun x => Cconj (csqrt x))) -rnZ => hV.
have -> : 1^-1 *: (s *: CJ (qmat kx ky (er * 1))) = s *: CJ (1^-1 *: qmat kx ky (er * 1)) by rewrite invr1 !scale1r.
by rewrite (divcols_change hV).
Qed.
Lemma solveZ (A B : 'M[C]_(n + n)) : solve (s *: CJ A) (s *: CJ B) = (do X <- solve A B; Ok (CJ X)).
Proof.
rewrite /solve unitmxZ ?unitfE ?s_neq0 // CJ_unit; case: ifP => // u; rewrite /bind; congr Ok.
have uA : CJ A \in unitmx by rewrite CJ_unit.
have us : s *: CJ A \in unitmx by rewrite unitmxZ ?unitfE ?s_neq0.
apply: (can_inj (mulKmx us)); rewrite mulKVmx // -scalemxAl -CJM mulKVmx //.
Qed.
Lemma solve11 : solve 1%:M 1%:M = Ok (1%:M : 'M[C]_(n + n)).
Proof. by rewrite /solve unitmx1 invmx1 mulmx1. Qed.
Lemma refl_core V0 V S : reflection_core 1%:M V0 1%:M V = Ok S -> reflection_core 1%:M (s *: CJ V0) 1%:M (s *: CJ V) = Ok (conjS S).
Proof.
rewrite /reflection_core solve11 solveZ; cbn [bind]; case: (solve V0 V) => [v|//]; cbn [bind].
have -> : 1%:M + CJ v = CJ (1%:M + v) by rewrite CJD CJ1.
have -> : 1%:M - CJ v = CJ (1%:M - v) by rewrite CJB CJ1.
rewrite solve_change inv_change; move: (1%:M + v) (1%:M - v) => A B.
case: (solve A B) => [ab|//]; cbn [bind]; case: (inv A) => [iA|//]; cbn [bind] => -[<-].
by rewrite /conjS; cbn [s11 s12 s21 s22]; rewrite CJN !CJZ CJB !CJM.
Qed.
Lemma trans_core V0 V S : transmission_core 1%:M V0 1%:M V = Ok S -> transmission_core 1%:M (s *: CJ V0) 1%:M (s *: CJ V) = Ok (conjS S).
Proof.
rewrite /transmission_core solve11 solveZ; cbn [bind]; case: (solve V0 V) => [v|//]; cbn [bind].
have -> : 1%:M + CJ v = CJ (1%:M + v) by rewrite CJD CJ1.
have -> : 1%:M - CJ v = CJ (1%:M - v) by rewrite CJB CJ1.
rewrite solve_change inv_change; move: (1%:M + v) (1%:M - v) => A B.
case: (inv A) => [iA|//]; cbn [bind]; case: (solve A B) => [ab|//]; cbn [bind] => -[<-].
by rewrite /conjS; cbn [s11 s12 s21 s22]; rewrite CJN !CJZ CJB !CJM.
Qed.
Lemma reflection_change V0 er S W V l : scattering_reflection kx ky 1%:M V0 er 1 = Ok (S, W, V, l) ->
  exists V' l', W = 1%:M /\ scattering_reflection kX kY 1%:M (s *: CJ V0) er 1 = Ok (conjS S, 1%:M, V', l').
Proof.
rewrite /scattering_reflection oner_eq0; case hV : divcols => [V1|//]; rewrite /bind.
case hc : reflection_core => [S1|//] [<- <- _ _]; rewrite (half_change hV) (refl_core hc).
by do 2 eexists; split.
Qed.
Lemma transmission_change V0 er S W V l : scattering_transmission kx ky 1%:M V0 er 1 = Ok (S, W, V, l) ->
  exists V' l', W = 1%:M /\ scattering_transmission kX kY 1%:M (s *: CJ V0) er 1 = Ok (conjS S, 1%:M, V', l').
Proof.
rewrite /scattering_transmission oner_eq0; case hV : divcols => [V1|//]; rewrite /bind.
case hc : transmission_core => [S1|//] [<- <- _ _]; rewrite (half_change hV) (trans_core hc).
by do 2 eexists; split.
Qed.

Lemma CJsides (A : 'M[C]_(n + n)) : s *: CJ A = (s *: GG) *m A *m Gi.
Proof. by rewrite /CJ -!scalemxAl. Qed.
Lemma usG : s *: GG \in unitmx.
Proof. by rewrite unitmxZ ?uGG // unitfE s_neq0. Qed.
Lemma build_uniform V V0 r d k0 S : build_scatmat 1%:M V 1%:M V0 (twice r) d k0 = Ok S ->
  build_scatmat 1%:M (s *: CJ V) 1%:M (s *: CJ V0) (twice (rn r)) d k0 = Ok (conjS S).
Proof.
have pt v : propagator (twice v) d k0 = twice (map_mx (fun l => cexp (- l * RtoC d * RtoC k0)) v) by rewrite /twice /propagator map_row_mx.
rewrite /build_scatmat !pt => h.
have hx : diag_mx (twice (map_mx (fun l => cexp (- l * RtoC d * RtoC k0)) (rn r))) =
  GG *m diag_mx (twice (map_mx (fun l => cexp (- l * RtoC d * RtoC k0)) r)) *m Gi.
  by rewrite -/(CJ _) CJ_twice; congr (diag_mx (twice _)); apply/rowP => i; rewrite !mxE.
have := build_change usG GiK hx h; rewrite -!CJsides mulmx1 GGK //.
Qed.
Lemma build_structured (eig : 'M[C]_(n + n) -> 'rV[C]_(n + n) * 'M[C]_(n + n)) Cm W V lam V0 d k0 S :
  (forall M lW, diagonalises M lW -> diagonalises M (eig M)) ->
  diagonalises (structured_P kx ky (invmx Cm) *m structured_Q kx ky Cm) (eig (structured_P kx ky (invmx Cm) *m structured_Q kx ky Cm)) ->
  solve_structured_layer eig kx ky Cm = Ok (W, V, lam) -> build_scatmat W V 1%:M V0 lam d k0 = Ok S ->
  exists m, solve_structured_layer eig kX kY (cj Cm) = Ok m /\ build_scatmat m.1.1 m.1.2 1%:M (s *: CJ V0) m.2 d k0 = Ok (conjS S).
Proof.
move=> hd; set M := structured_P _ _ _ *m _ => hM; rewrite /solve_structured_layer {1}/inv; case: ifP => // uC; cbn [bind].
rewrite -/M; case e : (eig M) hM => [l2 W1] [/= uW eW]; case hV : divcols => [V1|//]; cbn [bind] => -[<- <- <-] hb.
have hM' : diagonalises (structured_P kX kY (invmx (cj Cm)) *m structured_Q kX kY (cj Cm)) (l2, GG *m W1).
  split; first by rewrite unitmx_mul uGG.
  by rewrite PQ_change -/M; cbn [fst snd]; rewrite -(mulmxA GG W1) -eW /CJ -!mulmxA (mulmxA Gi) GiK mul1mx.
pose eig' (_ : 'M[C]_(n + n)) := (l2, GG *m W1).
have := @structured_same n eig eig' kX kY (cj Cm) 1%:M (s *: CJ V0) d k0 (hd _ _ hM') hM'.
have -> : solve_structured_layer eig' kX kY (cj Cm) = Ok (GG *m W1, (s *: GG) *m V1, map_mx csqrt l2).
  rewrite /solve_structured_layer /inv cj_unit uC; cbn [bind eig'].
  have [h1 h2] := (divcolsP _ _ _).1 hV.
  suff -> : divcols (structured_Q kX kY (cj Cm) *m (GG *m W1)) (map_mx csqrt l2) = Ok ((s *: GG) *m V1) by [].
  apply/divcolsP; split=> //.
  by rewrite Q_change -mulmxA h2 -!scalemxAl /CJ -!mulmxA (mulmxA Gi) GiK mul1mx.
cbn [bind fst snd].
have hx : diag_mx (propagator (map_mx csqrt l2) d k0) = 1%:M *m diag_mx (propagator (map_mx csqrt l2) d k0) *m 1%:M by rewrite mul1mx mulmx1.
have := build_change usG (mulmx1 1%:M) hx hb; rewrite -!CJsides !mulmx1 GGK /build_scatmat => -> hS.
case e2 : (solve_structured_layer eig kX kY (cj Cm)) hS => [m|//]; cbn [bind] => hS.
by exists m; split; [exact e2 | exact hS].
Qed.
End Change.
