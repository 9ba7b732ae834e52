(** Proofs about the T-matrix algebra. *)
From mathcomp Require Import all_ssreflect all_algebra.
From Verif Require Import Base ZmodTac ModelRedheffer SpecScatter RedhefferProofs ModelTmat SpecTmat.
Set Implicit Arguments. Unset Strict Implicit. Unset Printing Implicit Defensive.
Import GRing.Theory.
Local Open Scope ring_scope.

Section Tmat.
Variables (F : fieldType) (k : nat).
Implicit Types (S T : 'M[F]_(k + k)) (lp lm rp rm gp gm : 'cV[F]_k).

Lemma tscattersE S lp lm rp rm : tscatters S lp lm rp rm <->
  rp = pp S *m lp + pm S *m rm /\ lm = mp S *m lp + mm S *m rm.
Proof.
rewrite /tscatters -{1}(submxK S) mul_block_col.
by split=> [/eq_col_mx [-> ->]|[-> ->]].
Qed.
Lemma transfersE T lp lm rp rm : transfers T lp lm rp rm <->
  lp = pp T *m rp + pm T *m rm /\ lm = mp T *m rp + mm T *m rm.
Proof.
rewrite /transfers -{1}(submxK T) mul_block_col.
by split=> [/eq_col_mx [-> ->]|[-> ->]].
Qed.
Lemma relayout_scatters S lp lm rp rm : tscatters S lp lm rp rm <-> scatters (relayout S) lp rm lm rp.
Proof. by rewrite tscattersE /scatters /=; split=> [[-> ->]|[-> ->]]. Qed.
Lemma relayout_inj : injective (@relayout F k).
Proof. by move=> S S' [h1 h2 h3 h4]; rewrite -(submxK S) -(submxK S') h1 h2 h3 h4. Qed.

Lemma blockE (a b c d : 'M[F]_k) : let B := block_mx a b c d in [/\ pp B = a, pm B = b, mp B = c & mm B = d].
Proof. by rewrite /pp /pm /mp /mm block_mxKul block_mxKur block_mxKdl block_mxKdr. Qed.

(** multS is redheffer_product. *)
Lemma multS_redheffer S1 S2 :
  redheffer_product (relayout S1) (relayout S2) = res_map (@relayout F k) (multS S1 S2).
Proof.
rewrite /multS /solve rhE -gap_unit; have -> : 1%:M - pm S1 *m mp S2 = gapF (relayout S1) (relayout S2) by [].
case: ifP => //= u; rewrite /relayout block_mxKul block_mxKur block_mxKdl block_mxKdr.
have uD : gapD (relayout S1) (relayout S2) \in unitmx by rewrite -gap_unit.
have h := push_through uD; rewrite /= in h.
congr Ok; rewrite /rh_val /=; congr Smat.
- by rewrite -h /mp /pp /mm !mulmxA.
- have eD : 1%:M + dlsubmx S2 *m (invmx (gapF (relayout S1) (relayout S2)) *m ursubmx S1) =
    invmx (gapD (relayout S1) (relayout S2)).
    rewrite mulmxA h -[RHS]mulmx1.
    have -> : (1%:M : 'M[F]_k) = gapD (relayout S1) (relayout S2) + dlsubmx S2 *m ursubmx S1 by rewrite /gapD /= subrK.
    by rewrite mulmxDr mulVmx // mulmxA {1}/gapD /= subrK.
  by rewrite /mm /mp /pm eD !mulmxA.
Qed.

Lemma multS_joined S1 S2 S : multS S1 S2 = Ok S ->
  (forall lp rm, exists! g : 'cV[F]_k * 'cV[F]_k,
     exists lm rp, tscatters S1 lp lm g.1 g.2 /\ tscatters S2 g.1 g.2 rp rm) /\
  (forall lp lm rp rm, two_layers S1 S2 lp lm rp rm <-> tscatters S lp lm rp rm).
Proof.
move=> h; have hr : redheffer_product (relayout S1) (relayout S2) = Ok (relayout S) by rewrite multS_redheffer h.
split=> [lp rm|lp lm rp rm].
  have [g [h1 h2]] := gap_unique lp rm hr; exists g; split=> [|g' [lm [rp [/relayout_scatters h3 /relayout_scatters h4]]]].
    have [[lm h3] [rp h4]] := h1; exists lm, rp.
    by split; apply/relayout_scatters.
  by apply: h2; split; [exists lm|exists rp].
rewrite relayout_scatters -(joinedE _ _ _ _ hr); split=> [[gp [gm [h1 h2]]]|[gp [gm [h1 h2]]]]; exists gp, gm;
  by split; apply/relayout_scatters.
Qed.

Lemma multS_err S1 S2 e : multS S1 S2 = Err e ->
  e = LinAlgError /\ exists gp gm, (gp, gm) <> (0, 0) /\
    (exists lm, tscatters S1 0 lm gp gm) /\ (exists rp, tscatters S2 gp gm rp 0).
Proof.
move=> h; have hr : redheffer_product (relayout S1) (relayout S2) = Err e by rewrite multS_redheffer h.
have [-> [gp [gm [nz [[lm h1] [rp h2]]]]]] := rh_err hr; split=> //; exists gp, gm; split=> //.
by split; [exists lm|exists rp]; apply/relayout_scatters.
Qed.

Lemma multS_assoc S1 S2 S3 S12 S23 : multS S1 S2 = Ok S12 -> multS S2 S3 = Ok S23 -> multS S12 S3 = multS S1 S23.
Proof.
move=> h1 h2.
have r1 : redheffer_product (relayout S1) (relayout S2) = Ok (relayout S12) by rewrite multS_redheffer h1.
have r2 : redheffer_product (relayout S2) (relayout S3) = Ok (relayout S23) by rewrite multS_redheffer h2.
have := rh_assoc r1 r2; rewrite !multS_redheffer.
case: (multS S12 S3) => [x|x]; case: (multS S1 S23) => [y|y] //=; last by case=> ->.
by case=> p1 p2 p3 p4; congr Ok; apply: relayout_inj; rewrite /relayout p1 p2 p3 p4.
Qed.

Lemma relayout1 : relayout (1%:M : 'M[F]_(k + k)) = scattering_identity F k.
Proof. by rewrite /relayout (scalar_mx_block k k 1) block_mxKul block_mxKur block_mxKdl block_mxKdr. Qed.
Lemma multS_1l S : multS 1%:M S = Ok S.
Proof.
have := multS_redheffer 1%:M S; rewrite relayout1 rh_idL.
by case: (multS 1%:M S) => //= x [h1 h2 h3 h4]; congr Ok; apply: relayout_inj; rewrite /relayout h1 h2 h3 h4.
Qed.
Lemma multS_1r S : multS S 1%:M = Ok S.
Proof.
have := multS_redheffer S 1%:M; rewrite relayout1 rh_idR.
by case: (multS S 1%:M) => //= x [h1 h2 h3 h4]; congr Ok; apply: relayout_inj; rewrite /relayout h1 h2 h3 h4.
Qed.

(** Transfer to scattering. *)
Lemma matrix_s_ok T : is_ok (matrix_s T) <-> pp T \in unitmx.
Proof.
rewrite /matrix_s /inv; case: ifP => u /=; split=> //; first by eexists.
by case.
Qed.
Lemma matrix_s_err T e : matrix_s T = Err e -> e = LinAlgError.
Proof. by rewrite /matrix_s /inv; case: ifP => //= _ [<-]. Qed.
Lemma matrix_s_meaning T S lp lm rp rm : matrix_s T = Ok S ->
  tscatters S lp lm rp rm <-> transfers T lp lm rp rm.
Proof.
rewrite /matrix_s /inv; case: ifP => //= u [<-]; rewrite tscattersE transfersE.
rewrite /pp /pm /mp /mm block_mxKul block_mxKur block_mxKdl block_mxKdr -/(pp T) -/(pm T) -/(mp T) -/(mm T).
split=> -[h1 h2].
  have e1 : lp = pp T *m rp + pm T *m rm.
    by rewrite h1 !mulNmx mulmxDr mulmxN !mulmxA mulmxV // !mul1mx subrK.
  split=> //; rewrite h2 h1; mxz.
have e1 : rp = invmx (pp T) *m lp + - invmx (pp T) *m pm T *m rm.
  by rewrite h1 mulmxDr !mulmxA mulVmx // mul1mx !mulNmx addrK.
by split=> //; rewrite h2 e1; mxz.
Qed.
Lemma tscatters_inj S S' :
  (forall lp lm rp rm, tscatters S lp lm rp rm -> tscatters S' lp lm rp rm) -> S = S'.
Proof.
move=> h; apply: relayout_inj; apply: scatters_inj => a1 a2 b1 b2 /relayout_scatters h1.
by apply/relayout_scatters; exact: h.
Qed.

Lemma pp_mul T1 T2 : pp (T1 *m T2) = pp T1 *m pp T2 + pm T1 *m mp T2.
Proof. by rewrite -{1}(submxK T1) -{1}(submxK T2) mulmx_block /pp block_mxKul. Qed.
Lemma matrix_s_mul T1 T2 S1 S2 : matrix_s T1 = Ok S1 -> matrix_s T2 = Ok S2 ->
  matrix_s (T1 *m T2) = multS S1 S2.
Proof.
move=> h1 h2.
have u1 : pp T1 \in unitmx by apply/matrix_s_ok; exists S1.
have u2 : pp T2 \in unitmx by apply/matrix_s_ok; exists S2.
have eI : 1%:M - pm S1 *m mp S2 = invmx (pp T1) *m pp (T1 *m T2) *m invmx (pp T2).
  move: h1 h2; rewrite /matrix_s /inv u1 u2 /= => -[<-] [<-].
  have [_ -> _ _] := blockE (invmx (pp T1)) (- invmx (pp T1) *m pm T1) (mp T1 *m invmx (pp T1))
    (mm T1 + mp T1 *m (- invmx (pp T1) *m pm T1)).
  have [_ _ -> _] := blockE (invmx (pp T2)) (- invmx (pp T2) *m pm T2) (mp T2 *m invmx (pp T2))
    (mm T2 + mp T2 *m (- invmx (pp T2) *m pm T2)).
  rewrite pp_mul mulmxDr mulmxDl !mulmxA mulVmx // mul1mx mulmxV //.
  by rewrite !mulNmx opprK.
have uE : (1%:M - pm S1 *m mp S2 \in unitmx) = (pp (T1 *m T2) \in unitmx).
  by rewrite eI !unitmx_mul !unitmx_inv u1 u2 andbT.
case E1 : (matrix_s (T1 *m T2)) => [S|e]; case E2 : (multS S1 S2) => [S'|e'].
- congr Ok; apply: tscatters_inj => lp lm rp rm /(matrix_s_meaning _ _ _ _ E1) h.
  apply/((multS_joined E2).2 lp lm rp rm).
  move: h; rewrite /transfers -mulmxA -[T2 *m _]vsubmxK => h.
  exists (usubmx (T2 *m col_mx rp rm)), (dsubmx (T2 *m col_mx rp rm)); split.
    by apply/(matrix_s_meaning _ _ _ _ h1).
  by apply/(matrix_s_meaning _ _ _ _ h2); rewrite /transfers vsubmxK.
- have : pp (T1 *m T2) \in unitmx by apply/matrix_s_ok; exists S.
  by rewrite -uE => u; move: E2; rewrite /multS /solve u.
- have : ~~ (pp (T1 *m T2) \in unitmx).
    by apply/negP => /matrix_s_ok [S h]; rewrite E1 in h.
  by rewrite -uE => /negbTE u; move: E2; rewrite /multS /solve u.
- by rewrite (matrix_s_err E1) (multS_err E2).1.
Qed.
Lemma matrix_s1 : matrix_s (1%:M : 'M[F]_(k + k)) = Ok 1%:M.
Proof.
rewrite /matrix_s /inv /pp /pm /mp /mm (scalar_mx_block k k 1) block_mxKul block_mxKur block_mxKdl block_mxKdr.
by rewrite unitmx1 invmx1 /= mulmx0 mul0mx mul0mx addr0.
Qed.

(** Slicing. *)
Section Slices.
Variables (expm : 'M[F]_(k + k) -> 'M[F]_(k + k)) (U A Vi : 'M[F]_(k + k)).
Hypotheses (UV : U *m Vi = 1%:M) (two : (2%:R : F) != 0).
Hypothesis hE : translations (fun s => expm (s *: - A)).
Definition layer_T (s : F) := U *m expm (s *: - A) *m Vi.
Lemma layer_TD s t : layer_T (s + t) = layer_T s *m layer_T t.
Proof.
have VU : Vi *m U = 1%:M by exact: mulmx1C.
by rewrite /layer_T hE -!mulmxA; congr (_ *m (_ *m _)); rewrite [Vi *m (U *m _)]mulmxA VU mul1mx.
Qed.
Lemma halves (d : F) n : d / 2%:R ^+ n.+1 + d / 2%:R ^+ n.+1 = d / 2%:R ^+ n.
Proof.
rewrite exprS invfM; have -> : d * (2%:R^-1 / 2%:R ^+ n) = (d / 2%:R ^+ n) * 2%:R^-1 by rewrite [2%:R^-1 / _]mulrC mulrA.
by rewrite -mulrDr -mulr2n -[2%:R^-1 *+ 2]mulr_natr mulVf // mulr1.
Qed.
Lemma doublingsE d n m S : matrix_s (layer_T (d / 2%:R ^+ (n + m))) = Ok S ->
  (forall S', doublings n S = Ok S' -> matrix_s (layer_T (d / 2%:R ^+ m)) = Ok S') /\
  ((forall j, (j <= n)%N -> is_ok (matrix_s (layer_T (d / 2%:R ^+ (j + m))))) <-> is_ok (doublings n S)).
Proof.
elim: n S => [|n IH] S h /=.
  split=> [S' [<-] //|]; split=> [_|_ j]; first by exists S.
  by rewrite leqn0 => /eqP ->; exists S.
have e : matrix_s (layer_T (d / 2%:R ^+ (n + m))) = multS S S.
  by rewrite -halves layer_TD; exact: matrix_s_mul.
case E : (multS S S) => [S2|x] /=; last first.
  split=> //; split=> [hj|[]//]; have [y] := hj n (leqnSn n).
  by rewrite e E.
rewrite E in e; have [IH1 IH2] := IH _ e; split=> //; rewrite -IH2; split=> hj j hle.
  by apply: hj; exact: leqW.
case: (ltngtP j n.+1) hle => // [hlt _|-> _]; first by apply: hj.
by exists S; rewrite addSn.
Qed.
Lemma sliced_value d n S : sliced_layer expm U A Vi d n = Ok S ->
  matrix_s (U *m expm (d *: - A) *m Vi) = Ok S.
Proof.
rewrite /sliced_layer; case h : (matrix_s _) => [S0|//] /= h2.
have := (@doublingsE d n 0 S0); rewrite addn0 expr0 divr1 => /(_ h) [h3 _].
exact: h3.
Qed.
Lemma sliced_defined d n : is_ok (sliced_layer expm U A Vi d n) <->
  (forall j, (j <= n)%N -> is_ok (matrix_s (U *m expm ((d / 2%:R ^+ j) *: - A) *m Vi))).
Proof.
rewrite /sliced_layer; case h : (matrix_s _) => [S0|x] /=; last first.
  by split=> [[]//|/(_ n (leqnn n))]; rewrite h => -[].
have := (@doublingsE d n 0 S0); rewrite addn0 => /(_ h) [_ <-].
by split=> hj j /hj; rewrite addn0.
Qed.
End Slices.

(** Bloch waves. *)
Lemma blochE S w v : bloch_wave S w v <-> eigenpair (scattering_splitlr S) w v.
Proof.
rewrite /bloch_wave /eigenpair /= tscattersE.
have -> : block_mx (pp S) 0 (mp S) (- 1%:M) *m v = col_mx (pp S *m usubmx v) (mp S *m usubmx v - dsubmx v).
  by rewrite -{1}(vsubmxK v) mul_block_col mul0mx addr0 mulNmx mul1mx.
have -> : block_mx 1%:M (- pm S) 0 (- mm S) *m v = col_mx (usubmx v - pm S *m dsubmx v) (- (mm S *m dsubmx v)).
  by rewrite -{1}(vsubmxK v) mul_block_col mul0mx add0r !mulNmx mul1mx.
move: (usubmx v) (dsubmx v) => a b; rewrite scale_col_mx scalerBr scalerN -!scalemxAr.
split=> -[nz].
  case=> h1 h2; split=> //; congr col_mx; first by rewrite h1 addrK.
  by rewrite [in LHS]h2 opprD addrA subrr add0r.
case/eq_col_mx => h1 h2; split=> //; split; first by rewrite h1 subrK.
by rewrite -[mp S *m a](subrK b) h2 addrAC addNr add0r.
Qed.
Lemma scattering_detE S d : scattering_det S = Ok d -> d = \det S.
Proof.
rewrite /scattering_det /inv; case: ifP => //= u [<-].
have e : S = block_mx 1%:M (pm S *m invmx (mm S)) 0 1%:M *m block_mx (pp S - pm S *m invmx (mm S) *m mp S) 0 (mp S) (mm S).
  rewrite mulmx_block !mul1mx !mul0mx !add0r mulmxKV // subrK.
  by rewrite -[LHS]submxK.
rewrite [in RHS]e det_mulmx det_ublock det_lblock !det1 !mul1r.
by [].
Qed.
Lemma scattering_det_defined S : is_ok (scattering_det S) <-> mm S \in unitmx.
Proof. by rewrite /scattering_det /inv; case: ifP => u /=; split=> //; [eexists|case]. Qed.
End Tmat.
