(** Longitudinal fields and the source of field maps. *)
From Coq Require Import Reals ZArith Lra Lia String.
From mathcomp Require Import all_ssreflect all_algebra.
From Coquelicot Require Import Complex Rbar.
From Verif Require Import Base ZmodTac CField CFun Blk ModelRedheffer SpecScatter RedhefferProofs ModelLayer SpecLayer
  LayerProofs LayerCProofs LayerApiProofs SpecMaxwell UniformProofs NormalProofs EnergyAlg FluxProofs OuterFlux SpecEig ModelExpansion SpecExpansion ExpansionProofs ModelFlux ModelFourier
  ModelExtension ModelDevice SpecDevice StringEq ModelFields SpecFields FieldsProofs.
Set Implicit Arguments. Unset Strict Implicit. Unset Printing Implicit Defensive.
Import GRing.Theory.
Local Open Scope ring_scope.

Lemma ent_up n (v : 'cV[C]_(n + n)) j : usubmx v j 0 = v (lshift n j) 0.
Proof. by rewrite mxE. Qed.
Lemma ent_dn n (v : 'cV[C]_(n + n)) j : dsubmx v j 0 = v (rshift n j) 0.
Proof. by rewrite mxE. Qed.

Lemma maxwell_gauss er k E H : er != 0 -> maxwell er 1 k E H -> dot3 k E = 0 /\ dot3 k H = 0.
Proof.
move=> e0 [h1 h2]; have dc v : dot3 k (cross k v) = 0 by rewrite /dot3 /cross /vx /vy /vz /=; cring.
split.
  have := dc H; rewrite h2 => h; apply/eqP; apply: contraTT (introT eqP h) => hn.
  have -> : dot3 k (scale3 (- er) E) = - er * dot3 k E by rewrite /dot3 /scale3 /vx /vy /vz /=; cring.
  by rewrite mulf_neq0 // oppr_eq0.
have := dc E; rewrite h1 => h; rewrite -[RHS]h /dot3 /scale3 /vx /vy /vz /=; cring.
Qed.

Section Long.
Variable n : nat.
Implicit Types (kx ky : 'rV[C]_n) (c : 'cV[C]_(n + n)).

Lemma fieldE_uni kx ky ic s u j : fieldE kx ky (inl ic) s u j =
  (s (lshift n j) 0, s (rshift n j) 0, - ci * ic * (kx 0 j * u (rshift n j) 0 - ky 0 j * u (lshift n j) 0)).
Proof. by rewrite /fieldE /longitudinal_fields /= !mxE. Qed.
Lemma fieldH_uni kx ky ic s u j : fieldH kx ky ic s u j =
  H_of_u (u (lshift n j) 0, u (rshift n j) 0, - ci * (kx 0 j * s (rshift n j) 0 - ky 0 j * s (lshift n j) 0)).
Proof. by rewrite /fieldH /longitudinal_fields /= !mxE. Qed.

Lemma long_uniform kx ky er W V l c j : solve_uniform_layer kx ky er 1 = Ok (W, V, l) ->
  let kz := - ci * l 0 (lshift n j) in
  (let E := fieldE kx ky (inl er^-1) (W *m c) (- (V *m c)) j in
   let H := fieldH kx ky (inl er^-1) (W *m c) (- (V *m c)) j in
   let k := (kx 0 j, ky 0 j, kz) in
   [/\ maxwell er 1 k E H, dot3 k E = 0, dot3 k H = 0 & vz E = - (kx 0 j * vx E + ky 0 j * vy E) / kz]) /\
  (let E := fieldE kx ky (inl er^-1) (W *m c) (V *m c) j in
   let H := fieldH kx ky (inl er^-1) (W *m c) (V *m c) j in
   let k := (kx 0 j, ky 0 j, - kz) in
   [/\ maxwell er 1 k E H, dot3 k E = 0, dot3 k H = 0 & vz E = (kx 0 j * vx E + ky 0 j * vy E) / kz]).
Proof.
move=> hu; have hV := uniform_V_blk hu; have [en0 mn0 -> hl [h1 _]] := uniform_ok hu.
cbv zeta; rewrite !fieldE_uni !fieldH_uni mul1mx hV /=.
rewrite !(entN (blk2 _ _ _ _ *m c)) !blk2_mulL !blk2_mulR.
set z := kz_branch (1 * er - kx 0 j ^+ 2 - ky 0 j ^+ 2).
have -> : - ci * l 0 (lshift n j) = z.
  by rewrite hl row_mxEl mxE mulNr mulrA ci2 mulN1r opprK.
have zn0 : z != 0 by rewrite kz_branch_eq0 h1.
have zz : z * z = 1 * er - kx 0 j ^+ 2 - ky 0 j ^+ 2 := kz_branch_sqr _.
move: (c (lshift n j) 0) (c (rshift n j) 0) z zn0 zz => sx sy z zn0 zz.
have [mm e1] := mode_maxwell sx sy zn0 en0 mn0 zz.
have zN : - z != 0 by rewrite oppr_eq0.
have zzN : - z * - z = 1 * er - kx 0 j ^+ 2 - ky 0 j ^+ 2 by rewrite mulrNN.
have [mm' e2] := mode_maxwell sx sy zN en0 mn0 zzN.
have kN : 1^-1 / (ci * - z) = - (1^-1 / (ci * z)) by rewrite mulrN invrN mulrN.
rewrite kN in mm' e2; rewrite divr1 in mm; rewrite divr1 in mm'.
split.
  have [g1 g2] := maxwell_gauss en0 mm.
  split=> //; by rewrite /vx /vy /vz /= -e1.
move: mm' e2.
set k := 1^-1 / (ci * z).
set ux := - (- k * (kx 0 j * ky 0 j) * sx + _); set uy := - (- k * (ky 0 j ^+ 2 - _) * sx + _) => mm' e2.
have -> : k * (kx 0 j * ky 0 j) * sx + k * (er * 1 - kx 0 j ^+ 2) * sy = ux by rewrite /ux; cring.
have -> : k * (ky 0 j ^+ 2 - er * 1) * sx + - (k * (ky 0 j * kx 0 j)) * sy = uy by rewrite /uy; cring.
have [g1 g2] := maxwell_gauss en0 mm'; split=> //.
by rewrite /vx /vy /vz /= e2 mulNr invrN mulrN opprK.
Qed.

(** Structured layers, mode by mode. *)
Lemma crossE kx ky (a b : 'cV[C]_n) : cross_z kx ky a b = diag_mx kx *m b - diag_mx ky *m a.
Proof. by apply/colP => j; rewrite !mul_diag_mx !mxE. Qed.
Lemma long_structured eig kx ky Cm W V l i :
  let M := structured_P kx ky (invmx Cm) *m structured_Q kx ky Cm in
  diagonalises M (eig M) -> solve_structured_layer eig kx ky Cm = Ok (W, V, l) ->
  let kz := - ci * l 0 i in
  let s := col i W in let u := - col i V in
  let lf := longitudinal_fields (usubmx s) (dsubmx s) (usubmx u) (dsubmx u) kx ky (inr (invmx Cm)) in
  diag_mx kx *m (Cm *m usubmx s) + diag_mx ky *m (Cm *m dsubmx s) + kz *: (Cm *m lf.1) = 0 /\
  diag_mx kx *m usubmx u + diag_mx ky *m dsubmx u + kz *: lf.2 = 0.
Proof.
move=> M hd hs; have [uC [_ hP hQ hl]] := FluxProofs.structured_modal hd hs; cbv zeta.
have uL : diag_mx l \in unitmx by rewrite unitmxE det_diag unitfE; apply/prodf_neq0 => j _.
have hP' : structured_P kx ky (invmx Cm) *m V = W *m diag_mx l.
  apply: (can_inj (mulmxK uL)); rewrite -mulmxA -hQ mulmxA hP -mulmxA; congr (_ *m _).
  by rewrite mulmx_diag; congr diag_mx; apply/rowP => j; rewrite !mxE expr2.
have cL (A : 'M[C]_(n + n)) : col i (A *m diag_mx l) = l 0 i *: col i A.
  by apply/colP => j; rewrite mul_mx_diag !mxE mulrC.
have q : structured_Q kx ky Cm *m col i W = l 0 i *: col i V by rewrite -cL -hQ colE colE mulmxA.
have p : structured_P kx ky (invmx Cm) *m col i V = l 0 i *: col i W by rewrite -cL -hP' colE colE mulmxA.
move: (l 0 i) (col i W) (col i V) q p => lam s v.
rewrite -[in structured_Q _ _ _ *m _](vsubmxK s) -[in structured_P _ _ _ *m _](vsubmxK v).
rewrite -[X in _ = lam *: X](vsubmxK v) /structured_Q /structured_P !mul_block_col scale_col_mx => /eq_col_mx [q1 q2].
rewrite -[X in _ = lam *: X](vsubmxK s) scale_col_mx => /eq_col_mx [p1 p2].
rewrite /longitudinal_fields /= !crossE.
have uN : usubmx (- v) = - usubmx v by apply/colP => j; rewrite !mxE.
have dN : dsubmx (- v) = - dsubmx v by apply/colP => j; rewrite !mxE.
rewrite uN dN; move: (usubmx s) (dsubmx s) (usubmx v) (dsubmx v) q1 q2 p1 p2 => sx sy vx vy q1 q2 p1 p2.
have cc : - ci * lam * - ci = - lam by rewrite mulrC mulrA mulrNN ci2 mulN1r.
have com (x : 'cV[C]_n) : diag_mx ky *m (diag_mx kx *m x) = diag_mx kx *m (diag_mx ky *m x) by rewrite !mulmxA diag_mxC.
split.
  rewrite -scalemxAl -scalemxAr mulKVmx // scalerA cc scaleNr scalerBr !scalemxAr !scalerN -q1 -q2.
  rewrite !(mulmxDl, mulmxDr, mulmxBl, mulmxBr, mulNmx, mulmxN) -!mulmxA !com; mxz.
rewrite scalerA cc scaleNr scalerBr !scalemxAr -p1 -p2.
rewrite !(mulmxDl, mulmxDr, mulmxBl, mulmxBr, mulNmx, mulmxN, mul1mx) -!mulmxA !com; mxz.
Qed.

(** Any superposition of waves: the z components add up. *)
Lemma long_additive kx ky ic (sx sy ux uy sx' sy' ux' uy' : 'cV[C]_n) :
  longitudinal_fields (sx + sx') (sy + sy') (ux + ux') (uy + uy') kx ky ic =
  ((longitudinal_fields sx sy ux uy kx ky ic).1 + (longitudinal_fields sx' sy' ux' uy' kx ky ic).1,
   (longitudinal_fields sx sy ux uy kx ky ic).2 + (longitudinal_fields sx' sy' ux' uy' kx ky ic).2).
Proof.
have crossD a b a' b' : cross_z kx ky (a + a') (b + b') = cross_z kx ky a b + cross_z kx ky a' b'.
  by apply/colP => j; rewrite !mxE; cring.
rewrite /longitudinal_fields !crossD scalerDr; congr (_, _).
by case: ic => ic; rewrite ?scalerDr ?mulmxDr.
Qed.

(** In the outer media the z component is the one the flux formula uses. *)
Lemma long_outer kx ky er V c j : er != 0 ->
  divcols (Qref kx ky er 1) (twice (ci *: half_kz kx ky er 1)) = Ok V ->
  (longitudinal_fields (usubmx c) (dsubmx c) (usubmx (- (V *m c))) (dsubmx (- (V *m c))) kx ky (inl er^-1)).1 j 0
  = - (kx 0 j * c (lshift n j) 0 + ky 0 j * c (rshift n j) 0) / half_kz kx ky er 1 0 j.
Proof.
move=> e0 hV; have [hz eV] := half_V_blk hV.
have := fieldE_uni kx ky er^-1 c (- (V *m c)) j; rewrite /fieldE => -[->].
rewrite !(entN (V *m c)) eV blk2_mulL blk2_mulR.
move: (hz j); move: (half_kz kx ky er 1 0 j) (c (lshift n j) 0) (c (rshift n j) 0) => z sx sy z0.
have z1 := neqC0 z0; have e1 := neqC0 e0; have c1 := neqC0 ci_neq0.
cfield; auto.
Qed.
End Long.

(** * The source of field maps *)
Section Source.
Variable m : nat.
Implicit Types (W V : 'M[C]_m) (e : 'cV[C]_m).
Lemma eigenbasis_halves W V e h amp : W \in unitmx -> V \in unitmx ->
  solve (layer_eigenbasis_matrix W V) (col_mx e h) = Ok amp ->
  usubmx amp = 2%:R^-1 *: (invmx W *m e - invmx V *m h).
Proof.
move=> uW uV; rewrite /solve; case: ifP => // u [<-].
set x := invmx _ *m _; have hx : layer_eigenbasis_matrix W V *m x = col_mx e h by rewrite /x mulKVmx.
move: hx; rewrite -[x in _ *m x](vsubmxK x) eigenbasisE /stacked /tangential /= => /eq_col_mx [<- <-].
rewrite !mulKmx //; have -> : usubmx x + dsubmx x - (dsubmx x - usubmx x) = 2%:R *: usubmx x.
  by rewrite -[2%:R *: _]/((1 + 1) *: _) scalerDl scale1r; mxz.
by rewrite scalerA mulVf ?scale1r // two_neq0.
Qed.
Lemma default_half W V e amp : W \in unitmx -> V \in unitmx ->
  solve (layer_eigenbasis_matrix W V) (col_mx e 0) = Ok amp -> usubmx amp = 2%:R^-1 *: (invmx W *m e).
Proof. by move=> uW uV /(eigenbasis_halves uW uV) ->; rewrite mulmx0 subr0. Qed.
Lemma proper_source W V e amp : W \in unitmx -> V \in unitmx ->
  solve (layer_eigenbasis_matrix W V) (col_mx e (- (V *m (invmx W *m e)))) = Ok amp -> usubmx amp = invmx W *m e.
Proof.
move=> uW uV /(eigenbasis_halves uW uV) ->; rewrite mulmxN opprK mulKmx // -mulr2n -scaler_nat scalerA mulVf ?scale1r //.
exact: two_neq0.
Qed.
End Source.
