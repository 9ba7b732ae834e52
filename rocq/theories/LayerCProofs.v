(** Concrete (complex) layers: propagators, uniform media, independence of the
    eigendecomposition. *)
From Coq Require Import Reals Lra.
From mathcomp Require Import all_ssreflect all_algebra.
From Coquelicot Require Import Complex.
From Verif Require Import Base ZmodTac CField CFun Blk ModelRedheffer SpecScatter RedhefferProofs
  ModelLayer SpecLayer LayerProofs.
Set Implicit Arguments. Unset Strict Implicit. Unset Printing Implicit Defensive.
Import GRing.Theory.
Local Open Scope ring_scope.

Section Propagators.
Variable m : nat.
Implicit Types lam : 'rV[C]_m.

Definition fwd lam (d k0 : R) : 'rV[C]_m := map_mx (fun l => cexp (- (l * RtoC (d * k0)%Re))) lam.
Definition bwd lam (d k0 : R) : 'rV[C]_m := map_mx (fun l => cexp (l * RtoC (d * k0)%Re)) lam.

Lemma propagatorE lam d k0 : propagator lam d k0 = fwd lam d k0.
Proof.
apply/rowP => j; rewrite !mxE; congr cexp; rewrite RtoC_mult; cring.
Qed.
Lemma fwd_bwd lam d k0 : inverse_rows (fwd lam d k0) (bwd lam d k0).
Proof. by move=> j; rewrite !mxE -cexpD addNr cexp0. Qed.
Lemma fwd0 lam k0 : fwd lam 0%Re k0 = const_mx 1.
Proof. by apply/rowP => j; rewrite !mxE Rmult_0_l mulr0 oppr0 cexp0. Qed.
Lemma bwd0 lam k0 : bwd lam 0%Re k0 = const_mx 1.
Proof. by apply/rowP => j; rewrite !mxE Rmult_0_l mulr0 cexp0. Qed.
Lemma fwdD lam d1 d2 k0 :
  fwd lam (d1 + d2)%Re k0 = \row_j (fwd lam d1 k0 0 j * fwd lam d2 k0 0 j).
Proof.
apply/rowP => j; rewrite !mxE -cexpD; congr cexp.
by rewrite Rmult_plus_distr_r RtoC_plus; cring.
Qed.

Lemma layer_responseP W V W0 V0 lam d k0 S (a1 a2 b1 b2 : 'cV[C]_m) :
  build_scatmat W V W0 V0 lam d k0 = Ok S ->
  layer_response W V W0 V0 lam d k0 a1 a2 b1 b2 <-> scatters S a1 a2 b1 b2.
Proof.
rewrite /build_scatmat propagatorE.
exact: (build_slab two_neq0 _ _ _ _ (fwd_bwd lam d k0)).
Qed.

Lemma layer_additive W V W0 V0 lam d1 d2 k0 S1 S2 :
  W0 \in unitmx -> V0 \in unitmx ->
  build_scatmat W V W0 V0 lam d1 k0 = Ok S1 -> build_scatmat W V W0 V0 lam d2 k0 = Ok S2 ->
  redheffer_product S1 S2 = build_scatmat W V W0 V0 lam (d1 + d2)%Re k0.
Proof.
rewrite /build_scatmat !propagatorE => u1 u2 h1 h2; rewrite fwdD.
exact: (build_additive two_neq0 (fwd_bwd lam d1 k0) (fwd_bwd lam d2 k0)).
Qed.
End Propagators.

(** * Independence of the eigendecomposition (C09) *)
Section Eigen.
Variable m : nat.

Lemma intertwine (N : 'M[C]_m) (s s' : 'rV[C]_m) (f g : 'rV[C]_m) :
  diag_mx s *m N = N *m diag_mx s' ->
  (forall i j, s 0 i = s' 0 j -> f 0 i = g 0 j) ->
  diag_mx f *m N = N *m diag_mx g.
Proof.
move=> h hf; apply/matrixP => i j; rewrite mul_diag_mx mul_mx_diag !mxE.
move/matrixP/(_ i j): h; rewrite mul_diag_mx mul_mx_diag !mxE => h.
case: (altP (N i j =P 0)) => [->|nz]; first by rewrite mulr0 mul0r.
rewrite (hf i j) 1?mulrC //; apply: (mulIf nz); by rewrite h mulrC.
Qed.

Variables (Q W W' V V' W0 V0 : 'M[C]_m) (lam lam' : 'rV[C]_m).
Hypotheses (uW : W \in unitmx) (uW' : W' \in unitmx) (uV : V \in unitmx) (uV' : V' \in unitmx).
Variable M : 'M[C]_m.
Hypothesis eigW : M *m W = W *m diag_mx (map_mx (fun l => l ^+ 2) lam).
Hypothesis eigW' : M *m W' = W' *m diag_mx (map_mx (fun l => l ^+ 2) lam').
Hypothesis VE : Q *m W = V *m diag_mx lam.
Hypothesis VE' : Q *m W' = V' *m diag_mx lam'.
Hypothesis ln0 : forall j, lam 0 j != 0.
Hypothesis ln0' : forall j, lam' 0 j != 0.
Variables (d k0 : R).

Let N := invmx W *m W'.
Let chf (l : C) : C := cexp (- (l * RtoC (d * k0)%Re)) + cexp (l * RtoC (d * k0)%Re).
Let shf (l : C) : C := cexp (l * RtoC (d * k0)%Re) - cexp (- (l * RtoC (d * k0)%Re)).

Lemma sqr_cases (a b : C) : a ^+ 2 = b ^+ 2 -> a = b \/ a = - b.
Proof. by move=> /eqP; rewrite eqf_sqr => /orP[] /eqP; auto. Qed.

Lemma N_int : diag_mx (map_mx (fun l => l ^+ 2) lam) *m N
            = N *m diag_mx (map_mx (fun l => l ^+ 2) lam').
Proof.
apply: (can_inj (mulKmx uW)); rewrite /N !mulmxA mulmxV // mul1mx -eigW'.
by rewrite -eigW -!mulmxA mulKVmx.
Qed.

Lemma even_int (f : C -> C) : (forall l, f (- l) = f l) ->
  diag_mx (map_mx f lam) *m N = N *m diag_mx (map_mx f lam').
Proof.
move=> hf; apply: intertwine N_int _ => i j; rewrite !mxE => /sqr_cases [->|->] //.
Qed.

Lemma chf_even l : chf (- l) = chf l.
Proof. by rewrite /chf (mulNr l (RtoC _)) opprK addrC. Qed.
Lemma shf_odd l : shf (- l) = - shf l.
Proof. by rewrite /shf (mulNr l (RtoC _)) opprK opprB. Qed.
Lemma lshf_even l : shf (- l) * - l = shf l * l.
Proof. by rewrite shf_odd mulrNN. Qed.
Lemma shfl_even l : (- l)^-1 * shf (- l) = l^-1 * shf l.
Proof. by rewrite shf_odd invrN mulrNN. Qed.

Let N' := invmx W' *m W.
Let L := diag_mx lam.
Let L' := diag_mx lam'.
Let Li := diag_mx (map_mx (fun l => l^-1) lam).
Let Li' := diag_mx (map_mx (fun l => l^-1) lam').
Let ch := diag_mx (map_mx chf lam).
Let ch' := diag_mx (map_mx chf lam').
Let sh := diag_mx (map_mx shf lam).
Let sh' := diag_mx (map_mx shf lam').

Lemma diag_map (f g h : C -> C) (r : 'rV[C]_m) :
  (forall j, f (r 0 j) * g (r 0 j) = h (r 0 j)) ->
  diag_mx (map_mx f r) *m diag_mx (map_mx g r) = diag_mx (map_mx h r).
Proof. by move=> e; rewrite mulmx_diag; congr diag_mx; apply/rowP => j; rewrite !mxE. Qed.

Lemma map_id_mx (r : 'rV[C]_m) : map_mx id r = r.
Proof. by apply/rowP => j; rewrite !mxE. Qed.
Lemma diag_one (r : 'rV[C]_m) : diag_mx (map_mx (fun _ : C => 1 : C) r) = 1%:M.
Proof. by rewrite -[RHS]diag_const_mx; congr diag_mx; apply/rowP => j; rewrite !mxE. Qed.

Lemma NN' : N *m N' = 1%:M.
Proof. by rewrite /N /N' !mulmxA mulmxK // mulVmx. Qed.
Lemma WN : W *m N = W'. Proof. by rewrite /N mulKVmx. Qed.
Lemma VQ : V = Q *m W *m Li.
Proof.
rewrite VE -mulmxA -{1}(map_id_mx lam).
rewrite (@diag_map id _ (fun _ => 1 : C)) ?diag_one ?mulmx1 // => j.
exact: mulfV.
Qed.
Lemma VQ' : V' = Q *m W' *m Li'.
Proof.
rewrite VE' -mulmxA -{1}(map_id_mx lam').
rewrite (@diag_map id _ (fun _ => 1 : C)) ?diag_one ?mulmx1 // => j.
exact: mulfV.
Qed.

Lemma ch_int : N *m ch' *m N' = ch.
Proof. by rewrite -(even_int chf_even) -mulmxA NN' mulmx1. Qed.
Lemma shL_int : N *m sh' *m L' *m N' *m Li = sh.
Proof.
have e1 : sh' *m L' = diag_mx (map_mx (fun l => shf l * l) lam').
  by rewrite /L' -{1}(map_id_mx lam'); apply: diag_map.
have e2 : diag_mx (map_mx (fun l => shf l * l) lam) *m Li = sh.
  by apply: diag_map => j; rewrite mulfK.
by rewrite -(mulmxA N) e1 -(even_int lshf_even) -(mulmxA _ N) NN' mulmx1.
Qed.
Lemma Lsh_int : N *m Li' *m sh' *m N' = Li *m sh.
Proof.
have e1 : Li' *m sh' = diag_mx (map_mx (fun l => l^-1 * shf l) lam') by apply: diag_map.
have e2 : Li *m sh = diag_mx (map_mx (fun l => l^-1 * shf l) lam) by apply: diag_map.
by rewrite -(mulmxA N) e1 -(even_int shfl_even) -mulmxA NN' mulmx1 e2.
Qed.
Lemma Lch_int : N *m Li' *m ch' *m L' *m N' *m Li = Li *m ch.
Proof.
have e1 : Li' *m ch' *m L' = ch'.
  rewrite (@diag_map _ _ (fun l => l^-1 * chf l)) // /L' -{2}(map_id_mx lam').
  apply: diag_map => j; rewrite mulrAC mulVf ?mul1r //; exact: ln0'.
have e2 : ch *m Li = Li *m ch.
  by rewrite !mulmx_diag; congr diag_mx; apply/rowP => j; rewrite !mxE mulrC.
have -> : N *m Li' *m ch' *m L' *m N' *m Li = N *m (Li' *m ch' *m L') *m N' *m Li by rewrite !mulmxA.
by rewrite e1 ch_int e2.
Qed.
Lemma NLi : N *m Li' *m L' *m N' *m Li = Li.
Proof.
have e1 : Li' *m L' = 1%:M.
  rewrite /L' -{1}(map_id_mx lam') (@diag_map _ _ (fun _ => 1 : C)) ?diag_one // => j.
  by rewrite mulVf.
by rewrite -(mulmxA N) e1 mulmx1 NN' mul1mx.
Qed.

Lemma fwd_half (s t : 'cV[C]_m) (r : 'rV[C]_m) :
  (diag_mx (fwd r d k0) *m (s - t) + diag_mx (bwd r d k0) *m (s + t)
   = diag_mx (map_mx chf r) *m s + diag_mx (map_mx shf r) *m t) /\
  (diag_mx (bwd r d k0) *m (s + t) - diag_mx (fwd r d k0) *m (s - t)
   = diag_mx (map_mx shf r) *m s + diag_mx (map_mx chf r) *m t).
Proof.
have e1 : diag_mx (map_mx chf r) = diag_mx (fwd r d k0) + diag_mx (bwd r d k0).
  by rewrite -raddfD; congr diag_mx; apply/rowP => j; rewrite !mxE.
have e2 : diag_mx (map_mx shf r) = diag_mx (bwd r d k0) - diag_mx (fwd r d k0).
  by rewrite -raddfB; congr diag_mx; apply/rowP => j; rewrite !mxE.
by rewrite e1 e2; split; mxz.
Qed.

Lemma response_transfer (a1 a2 b1 b2 : 'cV[C]_m) :
  layer_response W V W0 V0 lam d k0 a1 a2 b1 b2 ->
  layer_response W' V' W0 V0 lam' d k0 a1 a2 b1 b2.
Proof.
case=> cp [cm [h1 h2]].
pose s := cp + cm; pose t := cm - cp.
have h2p (u : 'cV[C]_m) : (2%:R^-1 *: u) *+ 2 = u by rewrite mulr2n (half_two two_neq0).
have [s' [t' [Ws Vt Wd Vd]]] : exists s' t' : 'cV[C]_m, [/\ W' *m s' = W *m s, V' *m t' = V *m t,
    W' *m (ch' *m s' + sh' *m t') = W *m (ch *m s + sh *m t) &
    V' *m (sh' *m s' + ch' *m t') = V *m (sh *m s + ch *m t)].
  exists (N' *m s), (L' *m N' *m Li *m t).
  have := NLi; have := Lch_int; have := Lsh_int; have := shL_int; have := ch_int.
  have := VQ'; have := VQ; have := WN; have := NN'.
  move: N N' L L' Li Li' => n n' l l' li li' nn' wn vq vq' chi shi lsh lch nli.
  split.
  - by rewrite -wn !mulmxA -(mulmxA W) nn' mulmx1.
  - by rewrite vq vq' -wn -{2}nli !mulmxA.
  - by rewrite -wn !mulmxDr -chi -shi !mulmxA.
  - rewrite vq vq' -wn !mulmxDr !mulmxA -(mulmxA _ li sh) -lsh -(mulmxA _ li ch) -lch.
    by rewrite !mulmxA.
exists (2%:R^-1 *: (s' - t')), (2%:R^-1 *: (s' + t')); split.
  rewrite h1 /tangential; congr pair.
    rewrite -/s -Ws; congr (_ *m _); apply: (two_inj two_neq0).
    by rewrite mulrnDl !h2p; zmod.
  rewrite -/t -Vt; congr (_ *m _); apply: (two_inj two_neq0).
  by rewrite mulrnBl !h2p; zmod.
rewrite -h2 /tangential -!scalemxAr -/(fwd lam d k0) -/(bwd lam d k0).
have [f1 f2] := fwd_half s' t' lam'; have [g1 g2] := fwd_half s t lam.
have sp : s - t = cp *+ 2 by rewrite /s /t; zmod.
have st : s + t = cm *+ 2 by rewrite /s /t; zmod.
rewrite sp st in g1 g2.
congr pair.
  apply: (two_inj two_neq0); rewrite -scalerDr -scalemxAr h2p -/(fwd lam' d k0) -/(bwd lam' d k0) f1.
  by rewrite Wd -g1 !mulr2n; mxz.
apply: (two_inj two_neq0); rewrite -scalerBr -scalemxAr h2p -/(fwd lam' d k0) -/(bwd lam' d k0) f2.
by rewrite Vd -g2 !mulr2n; mxz.
Qed.
End Eigen.
