(** The algebra of reciprocity: slabs, interfaces and stacks. *)
From Coq Require Import Reals Lra.
From mathcomp Require Import all_ssreflect all_algebra.
From Coquelicot Require Import Complex.
From Verif Require Import Base ZmodTac CField CFun Blk ModelRedheffer SpecScatter RedhefferProofs SpecEig
  ModelLayer SpecLayer LayerProofs LayerCProofs LayerApiProofs UniformProofs NormalProofs SpecReciprocity.
Set Implicit Arguments. Unset Strict Implicit. Unset Printing Implicit Defensive.
Import GRing.Theory.
Local Open Scope ring_scope.

Section Form.
Variable n : nat.
Notation fields := ('cV[C]_(n + n) * 'cV[C]_(n + n))%type.
(** The index reversal and the matrix of the Lorentz form. *)
Definition Rv : 'M[C]_n := \matrix_(i, j) (j == rev_ord i)%:R.
Definition Km : 'M[C]_(n + n) := block_mx 0 Rv (- Rv) 0.

Lemma RvL p (A : 'M[C]_(n, p)) i j : (Rv *m A) i j = A (rev_ord i) j.
Proof.
rewrite mxE (bigD1 (rev_ord i)) //= mxE eqxx mul1r big1 ?addr0 // => k /negbTE h.
by rewrite mxE h mul0r.
Qed.
Lemma RvT : Rv^T = Rv.
Proof. by apply/matrixP => i j; rewrite !mxE -(inj_eq rev_ord_inj) rev_ordK eq_sym. Qed.
Lemma RvR p (A : 'M[C]_(p, n)) i j : (A *m Rv) i j = A i (rev_ord j).
Proof.
have -> : (A *m Rv) i j = (A *m Rv)^T j i by rewrite [RHS]mxE.
by rewrite trmx_mul RvT RvL mxE.
Qed.
Lemma Rv2 : Rv *m Rv = 1%:M.
Proof. by apply/matrixP => i j; rewrite RvL !mxE rev_ordK eq_sym. Qed.
Lemma KmT : Km^T = - Km.
Proof.
by rewrite /Km tr_block_mx !trmx0 linearN /= RvT opp_block_mx !oppr0 opprK.
Qed.
Lemma Km_unit : Km \in unitmx.
Proof.
have h : Km *m - Km = 1%:M.
  rewrite /Km opp_block_mx mulmx_block !oppr0 opprK !(mulmx0, mul0mx) !(add0r, addr0) Rv2.
  by rewrite mulNmx mulmxN opprK Rv2 -scalar_mx_block.
by case: (mulmx1_unit h).
Qed.

Lemma KmU (b : 'cV[C]_(n + n)) j : (Km *m b) (lshift n j) 0 = b (rshift n (rev_ord j)) 0.
Proof.
rewrite -{1}[b]vsubmxK /Km mul_block_col col_mxEu mul0mx add0r RvL.
by rewrite mxE.
Qed.
Lemma KmD (b : 'cV[C]_(n + n)) j : (Km *m b) (rshift n j) 0 = - b (lshift n (rev_ord j)) 0.
Proof.
rewrite -{1}[b]vsubmxK /Km mul_block_col col_mxEd mul0mx addr0 mulNmx mxE RvL.
by rewrite mxE.
Qed.
Lemma row_sum (a : 'cV[C]_(n + n)) (b : 'cV[C]_(n + n)) :
  (a^T *m Km *m b) 0 0 = \sum_(j < n) (a (lshift n j) 0 * b (rshift n (rev_ord j)) 0
                                       - a (rshift n j) 0 * b (lshift n (rev_ord j)) 0).
Proof.
rewrite -mulmxA mxE big_split_ord /= -big_split /=; apply: eq_bigr => j _.
by rewrite KmU KmD mulrN !mxE.
Qed.
Lemma lorentzE (f g : fields) :
  lorentz f g = (f.1^T *m Km *m g.2 + f.2^T *m Km *m g.1) 0 0.
Proof.
rewrite mxE !row_sum -big_split /=; apply: eq_bigr => j _; rewrite opprB; congr (_ + _).
by congr (_ - _); exact: mulrC.
Qed.
Definition lor (f g : fields) : C := (f.1^T *m Km *m g.2 + f.2^T *m Km *m g.1) 0 0.

(** * Slabs *)
Section Slab.
Variables (P Q P' Q' W V W' V' : 'M[C]_(n + n)) (l l' : 'rV[C]_(n + n)).
Hypotheses (hP : P^T *m Km = - (Km *m P')) (hQ : Q^T *m Km = - (Km *m Q')).
Hypotheses (m1 : modal_decomposition P Q W V l) (m2 : modal_decomposition P' Q' W' V' l').
Let M := W^T *m Km *m V'.
Let L := V^T *m Km *m W'.

Lemma modal_PV A B X Y (k : 'rV[C]_(n + n)) : modal_decomposition A B X Y k -> A *m Y = X *m diag_mx k.
Proof.
case=> uX h1 h2 h3; have uk : diag_mx k \in unitmx.
  by rewrite unitmxE det_diag unitfE prodf_seq_neq0; apply/allP => j _; rewrite h3.
apply: (can_inj (mulmxK uk)); rewrite -mulmxA -h2 mulmxA h1 -mulmxA; congr (_ *m _).
rewrite mul_diag_mx; apply/matrixP => i j; rewrite !mxE; case: eqP => [->|_]; last by rewrite mulr0.
by rewrite expr2.
Qed.
Lemma lM : diag_mx l *m M = - (L *m diag_mx l').
Proof.
have e : diag_mx l *m W^T = V^T *m P^T by rewrite -trmx_mul (modal_PV m1) trmx_mul tr_diag_mx.
by rewrite /M !mulmxA e -(mulmxA V^T) hP /L mulmxN mulNmx -!mulmxA (modal_PV m2).
Qed.
Lemma lL : diag_mx l *m L = - (M *m diag_mx l').
Proof.
have [_ _ q1 _] := m1; have [_ _ q2 _] := m2.
have e : diag_mx l *m V^T = W^T *m Q^T by rewrite -trmx_mul q1 trmx_mul tr_diag_mx.
by rewrite /L !mulmxA e -(mulmxA W^T) hQ /M mulmxN mulNmx -!mulmxA q2.
Qed.
Lemma diagL (k : 'rV[C]_(n + n)) (A : 'M[C]_(n + n)) i j : (diag_mx k *m A) i j = k 0 i * A i j.
Proof. by rewrite mul_diag_mx mxE. Qed.
Lemma diagR (k : 'rV[C]_(n + n)) (A : 'M[C]_(n + n)) i j : (A *m diag_mx k) i j = A i j * k 0 j.
Proof. by rewrite mul_mx_diag mxE. Qed.
Lemma entry_cases i j : (l 0 i = l' 0 j \/ M i j = L i j) /\ (l 0 i = - l' 0 j \/ M i j = - L i j).
Proof.
have f1 : l 0 i * M i j = - (L i j * l' 0 j) by have := congr1 (fun A : 'M[C]_(n + n) => A i j) lM; rewrite /= diagL [RHS]mxE diagR.
have f2 : l 0 i * L i j = - (M i j * l' 0 j) by have := congr1 (fun A : 'M[C]_(n + n) => A i j) lL; rewrite /= diagL [RHS]mxE diagR.
move: (l 0 i) (l' 0 j) (M i j) (L i j) f1 f2 => a b x y f1 f2; split.
  have : (a - b) * (x - y) = 0.
    transitivity (a * x - a * y - b * (x - y)); first by cring.
    by rewrite f1 f2; cring.
  by move/eqP; rewrite mulf_eq0 !subr_eq0 => /orP [] /eqP h; [left|right].
have : (a + b) * (x + y) = 0.
  transitivity (a * x + a * y + b * (x + y)); first by cring.
  by rewrite f1 f2; cring.
by move/eqP; rewrite mulf_eq0 !addr_eq0 => /orP [] /eqP h; [left|right].
Qed.

Lemma bilin (a b : 'cV[C]_(n + n)) (A : 'M[C]_(n + n)) :
  (a^T *m A *m b) 0 0 = \sum_i \sum_j a i 0 * A i j * b j 0.
Proof.
rewrite -mulmxA mxE; apply: eq_bigr => i _; rewrite mxE mxE mulr_sumr.
by apply: eq_bigr => j _; rewrite mulrA.
Qed.
Lemma tangential_lor (p q p' q' : 'cV[C]_(n + n)) :
  lor (tangential W V p q) (tangential W' V' p' q') =
  \sum_i \sum_j ((p i 0 + q i 0) * M i j * (q' j 0 - p' j 0) + (q i 0 - p i 0) * L i j * (p' j 0 + q' j 0)).
Proof.
rewrite /lor /tangential /= !trmx_mul.
have -> : (p + q)^T *m W^T *m Km *m (V' *m (q' - p')) = (p + q)^T *m M *m (q' - p') by rewrite /M !mulmxA.
have -> : (q - p)^T *m V^T *m Km *m (W' *m (p' + q')) = (q - p)^T *m L *m (p' + q') by rewrite /L !mulmxA.
rewrite mxE !bilin -big_split /=; apply: eq_bigr => i _; rewrite -big_split /=; apply: eq_bigr => j _.
by rewrite !mxE.
Qed.
Lemma diag_map_col (f : C -> C) (k : 'rV[C]_(n + n)) (v : 'cV[C]_(n + n)) i :
  (diag_mx (map_mx f k) *m v) i 0 = f (k 0 i) * v i 0.
Proof. by rewrite mul_diag_mx !mxE. Qed.
Lemma slab_lor (t : R) (p q p' q' : 'cV[C]_(n + n)) :
  let x (k : 'rV[C]_(n + n)) := diag_mx (map_mx (fun c => cexp (- (c * RtoC t))) k) in
  let y (k : 'rV[C]_(n + n)) := diag_mx (map_mx (fun c => cexp (c * RtoC t)) k) in
  lor (tangential W V (x l *m p) (y l *m q)) (tangential W' V' (x l' *m p') (y l' *m q')) =
  lor (tangential W V p q) (tangential W' V' p' q').
Proof.
cbv zeta; rewrite !tangential_lor; apply: eq_bigr => i _; apply: eq_bigr => j _.
rewrite !diag_map_col.
have [c1 c2] := entry_cases i j.
have ex a : cexp (- (a * RtoC t)) * cexp (a * RtoC t) = 1 by rewrite -cexpD addNr cexp0.
have ex' a : cexp (a * RtoC t) * cexp (- (a * RtoC t)) = 1 by rewrite mulrC ex.
move: (l 0 i) (l' 0 j) (M i j) (L i j) (p i 0) (q i 0) (p' j 0) (q' j 0) c1 c2 => a b m k u v u' v' c1 c2.
have h1 : (cexp (- (a * RtoC t)) * cexp (b * RtoC t) - 1) * (m - k) = 0.
  by case: c1 => ->; rewrite ?ex subrr ?mul0r ?mulr0.
have h2 : (cexp (a * RtoC t) * cexp (- (b * RtoC t)) - 1) * (m - k) = 0.
  by case: c1 => ->; rewrite ?ex' subrr ?mul0r ?mulr0.
have h3 : (cexp (- (a * RtoC t)) * cexp (- (b * RtoC t)) - 1) * (m + k) = 0.
  by case: c2 => ->; rewrite ?mulNr ?opprK ?ex' ?subrr ?mul0r // addNr mulr0.
have h4 : (cexp (a * RtoC t) * cexp (b * RtoC t) - 1) * (m + k) = 0.
  by case: c2 => ->; rewrite ?mulNr ?ex ?subrr ?mul0r // addNr mulr0.
move: (cexp (- (a * RtoC t))) (cexp (a * RtoC t)) (cexp (- (b * RtoC t))) (cexp (b * RtoC t)) h1 h2 h3 h4.
move=> x y x' y' h1 h2 h3 h4; apply/eqP; rewrite -subr_eq0; apply/eqP.
transitivity ((x * y' - 1) * (m - k) * (u * v') - (y * x' - 1) * (m - k) * (v * u')
  - (x * x' - 1) * (m + k) * (u * u') + (y * y' - 1) * (m + k) * (v * v')); first by cring.
by rewrite h1 h2 h3 h4; cring.
Qed.
End Slab.

(** * Interfaces, products *)
Lemma reciprocalE (L L' R R' : 'M[C]_(n + n) * 'M[C]_(n + n)) S S' :
  reciprocal L L' R R' S S' <->
  forall a1 a2 b1 b2 a1' a2' b1' b2' : 'cV[C]_(n + n),
    scatters S a1 a2 b1 b2 -> scatters S' a1' a2' b1' b2' ->
    lor (tangential L.1 L.2 a1 b1) (tangential L'.1 L'.2 a1' b1') =
    lor (tangential R.1 R.2 b2 a2) (tangential R'.1 R'.2 b2' a2').
Proof.
by split=> h a1 a2 b1 b2 a1' a2' b1' b2' h1 h2; have := h _ _ _ _ _ _ _ _ h1 h2; rewrite !lorentzE.
Qed.
Lemma slab_reciprocal P Q P' Q' W V W' V' W0 V0 W0' V0' l l' d k0 S S' :
  P^T *m Km = - (Km *m P') -> Q^T *m Km = - (Km *m Q') ->
  modal_decomposition P Q W V l -> modal_decomposition P' Q' W' V' l' ->
  build_scatmat W V W0 V0 l d k0 = Ok S -> build_scatmat W' V' W0' V0' l' d k0 = Ok S' ->
  reciprocal (W0, V0) (W0', V0') (W0, V0) (W0', V0') S S'.
Proof.
move=> hP hQ m1 m2 hS hS'; apply/reciprocalE => a1 a2 b1 b2 a1' a2' b1' b2'.
move=> /(layer_responseP _ _ _ _ hS) [p [q [-> <-]]] /(layer_responseP _ _ _ _ hS') [p' [q' [-> <-]]].
by rewrite (slab_lor hP hQ m1 m2).
Qed.
Lemma interface_reciprocal (L L' R R' : 'M[C]_(n + n) * 'M[C]_(n + n)) S S' :
  (forall a1 a2 b1 b2, scatters S a1 a2 b1 b2 -> interface_response L.1 L.2 R.1 R.2 a1 a2 b1 b2) ->
  (forall a1 a2 b1 b2, scatters S' a1 a2 b1 b2 -> interface_response L'.1 L'.2 R'.1 R'.2 a1 a2 b1 b2) ->
  reciprocal L L' R R' S S'.
Proof. by move=> h h' a1 a2 b1 b2 a1' a2' b1' b2' /h -> /h' ->. Qed.
Lemma rh_recip (L L' R R' X X' : 'M[C]_(n + n) * 'M[C]_(n + n)) SA SA' SB SB' S S' :
  redheffer_product SA SB = Ok S -> redheffer_product SA' SB' = Ok S' ->
  reciprocal L L' X X' SA SA' -> reciprocal X X' R R' SB SB' -> reciprocal L L' R R' S S'.
Proof.
move=> e e' hA hB a1 a2 b1 b2 a1' a2' b1' b2' /(joinedE _ _ _ _ e) [cp [cm [h1 h2]]].
move=> /(joinedE _ _ _ _ e') [cp' [cm' [h1' h2']]].
by rewrite (hA _ _ _ _ _ _ _ _ h1 h1') (hB _ _ _ _ _ _ _ _ h2 h2').
Qed.
Lemma id_reciprocal (L L' : 'M[C]_(n + n) * 'M[C]_(n + n)) :
  reciprocal L L' L L' (scattering_identity C_fieldType (n + n)) (scattering_identity C_fieldType (n + n)).
Proof.
by move=> a1 a2 b1 b2 a1' a2' b1' b2' [-> ->] [-> ->]; rewrite /= !mul0mx !mul1mx !add0r !addr0.
Qed.
End Form.
