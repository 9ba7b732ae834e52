(** Reciprocity of whole devices. *)
From Coq Require Import Reals Lra String ZArith Lia.
From mathcomp Require Import all_ssreflect all_algebra.
From Coquelicot Require Import Complex.
From Verif Require Import Base ZmodTac CField CFun Blk ModelRedheffer SpecScatter RedhefferProofs SpecEig
  ModelLayer SpecLayer LayerProofs LayerCProofs LayerApiProofs UniformProofs NormalProofs ModelExpansion SpecExpansion
  ExpansionProofs ModelFlux ModelFourier ModelExtension ModelDevice SpecDevice StringEq DeviceProofs FluxProofs DeviceEnergy
  HistoryProofs SolvedProofs ModelFields SpecFields SpecReciprocity ReciprocityAlg.
Set Implicit Arguments. Unset Strict Implicit. Unset Printing Implicit Defensive.
Import GRing.Theory.
Local Open Scope ring_scope.
Notation dg := diag_mx.

(** * The operators of opposite wavevectors *)
Section Opposite.
Variables (n : nat).
Local Notation Rv := (Rv n).
Local Notation Km := (Km n).
Definition opposite (k k' : 'rV[C]_n) : Prop := forall j, k' 0 j = - k 0 (rev_ord j).
Lemma dgRv k k' : opposite k k' -> dg k *m Rv = - (Rv *m dg k').
Proof.
move=> h; apply/matrixP => i j; rewrite RvR [RHS]mxE RvL !mxE h.
have -> : (rev_ord i == j) = (i == rev_ord j) by rewrite -(inj_eq rev_ord_inj) rev_ordK.
by rewrite rev_ordK; case: eqP => [->|_]; rewrite /= ?mulr1n ?opprK // !mulr0n oppr0.
Qed.
Lemma kCk a a' b b' (X X' : 'M[C]_n) : opposite a a' -> opposite b b' -> X^T *m Rv = Rv *m X' ->
  (dg a *m (X *m dg b))^T *m Rv = Rv *m (dg b' *m (X' *m dg a')).
Proof.
move=> ha hb hX; rewrite !trmx_mul !tr_diag_mx -!mulmxA (dgRv ha) !mulmxN.
by rewrite (mulmxA X^T) hX !mulmxA (dgRv hb) !mulNmx opprK.
Qed.
Lemma kk a a' b b' : opposite a a' -> opposite b b' ->
  (dg a *m dg b)^T *m Rv = Rv *m (dg b' *m dg a').
Proof.
move=> ha hb; rewrite !trmx_mul !tr_diag_mx -!mulmxA (dgRv ha) mulmxN.
by rewrite mulmxA (dgRv hb) mulNmx opprK !mulmxA.
Qed.
Lemma diagC (a b : 'rV[C]_n) : dg a *m dg b = dg b *m dg a.
Proof. by rewrite !mulmx_diag; congr dg; apply/rowP => j; rewrite !mxE mulrC. Qed.
Lemma block_Km (A B D E A' B' D' E' : 'M[C]_n) :
  A^T *m Rv = - (Rv *m E') -> B^T *m Rv = Rv *m B' -> D^T *m Rv = Rv *m D' -> E^T *m Rv = - (Rv *m A') ->
  (block_mx A B D E)^T *m Km = - (Km *m block_mx A' B' D' E').
Proof.
move=> h1 h2 h3 h4; rewrite tr_block_mx /Km !mulmx_block !(mulmx0, mul0mx) !(add0r, addr0) !mulmxN !mulNmx.
by rewrite h1 h2 h3 h4 opp_block_mx !opprK.
Qed.
Section PQ.
Variables (kx ky kx' ky' : 'rV[C]_n) (Cm Cm' : 'M[C]_n).
Hypotheses (hx : opposite kx kx') (hy : opposite ky ky').
Lemma P_Km : Cm^T *m Rv = Rv *m Cm' -> (structured_P kx ky Cm)^T *m Km = - (Km *m structured_P kx' ky' Cm').
Proof.
move=> hC; apply: block_Km.
- by rewrite (kCk hx hy hC) mulmxN opprK.
- by rewrite linearB /= trmx1 mulmxBl (kCk hx hx hC) mul1mx mulmxBr mulmx1.
- by rewrite linearB /= trmx1 mulmxBl (kCk hy hy hC) mul1mx mulmxBr mulmx1.
- by rewrite linearN /= mulNmx (kCk hy hx hC).
Qed.
Lemma Q_Km : Cm^T *m Rv = Rv *m Cm' -> (structured_Q kx ky Cm)^T *m Km = - (Km *m structured_Q kx' ky' Cm').
Proof.
move=> hC; apply: block_Km.
- by rewrite (kk hx hy) mulmxN opprK.
- by rewrite linearB /= mulmxBl (kk hx hx) hC mulmxBr.
- by rewrite linearB /= mulmxBl (kk hy hy) hC mulmxBr.
- by rewrite linearN /= mulNmx (kk hy hx).
Qed.
Lemma inv_Rv : Cm \in unitmx -> Cm' \in unitmx -> Cm^T *m Rv = Rv *m Cm' -> (invmx Cm)^T *m Rv = Rv *m invmx Cm'.
Proof.
move=> u u' h; have uT : Cm^T \in unitmx by rewrite unitmx_tr.
rewrite trmx_inv; apply: (can_inj (mulKmx uT)); rewrite mulmxA mulmxV // mul1mx mulmxA h.
by rewrite -mulmxA mulmxV // mulmx1.
Qed.
End PQ.
End Opposite.

(** * Central symmetry of the wavevectors and of the convolution matrices *)
Section Central.
Variable n : nat.
Lemma krows_opposite e (kp kp' : C * C) wl eps (kx ky kz kx' ky' kz' : 'rV[C]_n) : built e ->
  kp'.1 = - kp.1 -> kp'.2 = - kp.2 ->
  krows n e kp wl eps = Ok (kx, ky, kz) -> krows n e kp' wl eps = Ok (kx', ky', kz') ->
  opposite kx kx' /\ opposite ky ky'.
Proof.
move=> /built_wf hw h1 h2; rewrite /krows; destruct (Req_EM_T wl 0) as [h|h] => //.
case: ifP => // /negbT; rewrite negbK => /eqP hn; have hs := wf_size hw; rewrite hn in hs.
rewrite hs eqxx /= => -[<- <- _] [<- <- _].
have key (j : 'I_n) : nth (0%Re, 0%Re) (e_g e) (rev_ord j) = opp2 (nth (0%Re, 0%Re) (e_g e) j).
  have hj : (j < e_size e)%N by rewrite hn.
  by have := wf_sym hw hj; rewrite /gth hn /= -subnDA add1n.
split=> j; rewrite !mxE -mulNr; congr (_ / _); rewrite ?h1 ?h2 key /opp2 /=.
  by move: (nth _ _ _).1 => x; rewrite opprD (_ : RtoC (- x) = - RtoC x) ?opprK //; exact: RtoC_opp.
by move: (nth _ _ _).2 => x; rewrite opprD (_ : RtoC (- x) = - RtoC x) ?opprK //; exact: RtoC_opp.
Qed.
Lemma rev_divmod P Q j : (j < P * Q)%N ->
  ((P * Q - j.+1) %% P = P - (j %% P).+1)%N /\ ((P * Q - j.+1) %/ P = Q - (j %/ P).+1)%N.
Proof.
case: P => [|P] // hj; have h1 : (j %% P.+1 < P.+1)%N by rewrite ltn_mod.
have h2 : (j %/ P.+1 < Q)%N by rewrite ltn_divLR // mulnC.
have e : (P.+1 * Q - j.+1 = (Q - (j %/ P.+1).+1) * P.+1 + (P.+1 - (j %% P.+1).+1))%N.
  rewrite {1}(divn_eq j P.+1); move: (j %/ P.+1)%N (j %% P.+1)%N h1 h2 => a b h1 h2.
  have [q ->] : exists q, Q = (a + q).+1 by exists (Q - a.+1)%N; rewrite -addSn subnKC.
  have [p ->] : exists p, P = (b + p)%N by exists (P - b)%N; rewrite subnKC.
  by rewrite subSS addKn subSS addKn -!multE -!plusE -!minusE; nia.
have h3 : (P.+1 - (j %% P.+1).+1 < P.+1)%N by rewrite subSS ltnS leq_subr.
by rewrite e; split; [rewrite modnMDl (modn_small h3)|rewrite divnMDl // (divn_small h3) addn0].
Qed.
Lemma conv_rev A P Q (i j : 'I_n) : (P * Q = n)%N ->
  conv_entry_at A P (rev_ord j) i = conv_entry_at A P (rev_ord i) j.
Proof.
move=> hn; have [h1 h2] : ((n - j.+1) %% P = P - (j %% P).+1)%N /\ ((n - j.+1) %/ P = Q - (j %/ P).+1)%N.
  by have := @rev_divmod P Q j; rewrite hn; apply.
have [h1' h2'] : ((n - i.+1) %% P = P - (i %% P).+1)%N /\ ((n - i.+1) %/ P = Q - (i %/ P).+1)%N.
  by have := @rev_divmod P Q i; rewrite hn; apply.
have P0 : (0 < P)%N.
  have := leq_ltn_trans (leq0n _) (ltn_ord i).
  by rewrite -hn; case: (P).
have b1 (k : 'I_n) : (k %% P < P)%N by rewrite ltn_mod.
have b2 (k : 'I_n) : (k %/ P < Q)%N by rewrite ltn_divLR // mulnC hn.
rewrite /conv_entry_at /= h1 h2 h1' h2'.
have z (a b m : nat) : (a < m)%N -> (b < m)%N ->
  Z.sub (Z.of_nat (m - a.+1)) (Z.of_nat b) = Z.sub (Z.of_nat (m - b.+1)) (Z.of_nat a).
  by move=> /ltP ha /ltP hb; rewrite -!minusE; lia.
by rewrite (z _ _ _ (b1 j) (b1 i)) (z _ _ _ (b2 j) (b2 i)).
Qed.
Lemma fourier_rev A h (Cm : 'M[C]_n) : convolution_matrix_fourier n A h = Ok Cm -> Cm^T *m Rv n = Rv n *m Cm.
Proof.
rewrite /convolution_matrix_fourier; case: ifP => // /negbT; rewrite negbK => /eqP hn.
case: ifP => // _ [<-]; apply/matrixP => i j; rewrite RvL RvR !mxE.
by rewrite (conv_rev _ _ _ hn).
Qed.
Lemma conv_matrix_rev A h (Cm : 'M[C]_n) : convolution_matrix n A h = Ok Cm -> Cm^T *m Rv n = Rv n *m Cm.
Proof. by rewrite /convolution_matrix; case: (fft2 A) => [F|//] /fourier_rev. Qed.
Lemma analytical_rev J1 e isl h (Cm : 'M[C]_n) : analytical_matrix J1 n e isl h = Ok Cm -> Cm^T *m Rv n = Rv n *m Cm.
Proof.
rewrite /analytical_matrix; case: (g_vectors_expanded _ _) => [ge|//] /=.
case: (mapM _ _) => [data|//] /=; case: (combine_fourier_masks _ _ _) => [f|//] /=.
case: (reshape _ _) => [A|//] /=; case hM : (convolution_matrix_fourier _ _ _) => [M|//] /=.
by case: (combine_fourier_masks _ _ _) => [u|//] /= [<-]; exact: fourier_rev hM.
Qed.
Lemma scalar_rev (c : C) : (c%:M : 'M[C]_n)^T *m Rv n = Rv n *m c%:M.
Proof. by rewrite tr_scalar_mx mul_scalar_mx mul_mx_scalar. Qed.
End Central.

(** * Layers *)
Section Layers.
Variables (eig : forall m, 'M[C]_m -> 'rV[C]_m * 'M[C]_m) (J1 : R -> R) (n : nat).
Hypothesis heig : eigen_equation eig.
Variables (kp kp' : C * C) (wl : R).
Hypotheses (h1 : kp'.1 = - kp.1) (h2 : kp'.2 = - kp.2).

(** What a solved layer of slab type is made of. *)
Lemma slab_inv l q s : slab_form (l_form l) -> layer_solve eig J1 n l q wl = Ok s ->
  exists kx ky kz f Cm W V lam Sm,
  [/\ krows n (l_exp l) q wl 1 = Ok (kx, ky, kz) /\ free_space_eigenmodes kx ky = Ok f,
      sl_S s = Some Sm, build_scatmat W V f.1 f.2 lam (l_depth l) (2 * PI / wl)%Re = Ok Sm,
      Cm \in unitmx /\ modal_decomposition (structured_P kx ky (invmx Cm)) (structured_Q kx ky Cm) W V lam &
      match l_form l with
      | FFT p => convolution_matrix n p (e_pw (l_exp l)) = Ok Cm
      | ANALYTICAL isl h => analytical_matrix J1 n (l_exp l) isl h = Ok Cm
      | UNIFORM eps => Cm = eps%:M
      | _ => False
      end].
Proof.
move=> hf; rewrite /layer_solve; case hk : (krows _ _ _ _ _) => [[[kx ky] kz]|//] /=.
case hfr : (free_space_eigenmodes kx ky) => [f|//] /=.
move: hf; case: (l_form l) => [p|eps|isl h|eps|eps|] // _.
- case hC : (convolution_matrix _ _ _) => [Cm|//] /=; case: (inv Cm) => [IC|//] /=.
  case hm : (solve_structured_layer _ _ _ _) => [[[W V] lam]|//] /=.
  case hS : (build_scatmat _ _ _ _ _ _ _) => [Sm|//] /= [<-].
  exists kx, ky, kz, f, Cm, W, V, lam, Sm; split=> //; first by case: ifP.
  exact: structured_modal (eig_diagonalises heig hm hS) hm.
- case hm : (solve_uniform_layer _ _ _ _) => [[[W V] lam]|//] /=.
  case hS : (build_scatmat _ _ _ _ _ _ _) => [Sm|//] /=; case: (one_over eps) => [ic|//] /= [<-].
  exists kx, ky, kz, f, eps%:M, W, V, lam, Sm; split=> //; first by case: ifP.
  exact: uniform_modal hm.
- case hC : (analytical_matrix _ _ _ _ _) => [Cm|//] /=; case: (inv Cm) => [IC|//] /=.
  case hm : (solve_structured_layer _ _ _ _) => [[[W V] lam]|//] /=.
  case hS : (build_scatmat _ _ _ _ _ _ _) => [Sm|//] /= [<-].
  exists kx, ky, kz, f, Cm, W, V, lam, Sm; split=> //; first by case: ifP.
  exact: structured_modal (eig_diagonalises heig hm hS) hm.
Qed.
Lemma layer_reciprocal l s s' kx ky kz kx' ky' kz' f f' Sm Sm' : built (l_exp l) -> slab_form (l_form l) ->
  krows n (l_exp l) kp wl 1 = Ok (kx, ky, kz) -> krows n (l_exp l) kp' wl 1 = Ok (kx', ky', kz') ->
  free_space_eigenmodes kx ky = Ok f -> free_space_eigenmodes kx' ky' = Ok f' ->
  layer_solve eig J1 n l kp wl = Ok s -> layer_solve eig J1 n l kp' wl = Ok s' ->
  sl_S s = Some Sm -> sl_S s' = Some Sm' -> reciprocal f f' f f' Sm Sm'.
Proof.
move=> hb hf hk hk' hfr hfr' hs hs' hS hS'.
have [ox oy] := krows_opposite hb h1 h2 hk hk'.
have [kx1 [ky1 [kz1 [f1 [Cm [W [V [lam [S1 [[a1 a2] a3 a4 [a5 a6] a7]]]]]]]]]] := slab_inv hf hs.
have [kx2 [ky2 [kz2 [f2 [Cm' [W' [V' [lam' [S2 [[b1 b2] b3 b4 [b5 b6] b7]]]]]]]]]] := slab_inv hf hs'.
have [e1 e2] : kx1 = kx /\ ky1 = ky by move: a1; rewrite hk => -[<- <- _].
have [e3 e4] : kx2 = kx' /\ ky2 = ky' by move: b1; rewrite hk' => -[<- <- _].
subst kx1 ky1 kx2 ky2.
have e5 : f1 = f by move: a2; rewrite hfr => -[].
have e6 : f2 = f' by move: b2; rewrite hfr' => -[].
have e7 : S1 = Sm by move: a3; rewrite hS => -[].
have e8 : S2 = Sm' by move: b3; rewrite hS' => -[].
subst f1 f2 S1 S2.
have [e9 hC] : Cm' = Cm /\ Cm^T *m Rv n = Rv n *m Cm.
  move: a7 b7 hf; case: (l_form l) => [p|eps|isl h|eps|eps|] // a7 b7 _.
  - by split; [move: b7; rewrite a7 => -[]|exact: conv_matrix_rev a7].
  - by split; [rewrite a7 b7|rewrite a7; exact: scalar_rev].
  - by split; [move: b7; rewrite a7 => -[]|exact: analytical_rev a7].
subst Cm'.
have := slab_reciprocal (P_Km ox oy (inv_Rv a5 a5 hC)) (Q_Km ox oy hC) a6 b6 a4 b4.
by case: (f) => ? ?; case: (f') => ? ?.
Qed.

(** The outer media: modes and interfaces. *)
Lemma half_inv l q s eps : l_form l = HALF_SPACE_INC eps \/ l_form l = HALF_SPACE_TRN eps ->
  layer_solve eig J1 n l q wl = Ok s ->
  exists kx ky kz f W V lam Sm,
  [/\ krows n (l_exp l) q wl 1 = Ok (kx, ky, kz) /\ free_space_eigenmodes kx ky = Ok f,
      sl_S s = Some Sm, (forall m, sl_modes s = Some m -> m = (W, V, lam)),
      [/\ W = 1%:M, lam = twice (ci *: half_kz kx ky eps 1), divcols (Qref kx ky eps 1) lam = Ok V & eps != 0] &
      if l_form l is HALF_SPACE_INC _ then scattering_reflection kx ky f.1 f.2 eps 1 = Ok (Sm, W, V, lam)
      else scattering_transmission kx ky f.1 f.2 eps 1 = Ok (Sm, W, V, lam)].
Proof.
move=> hl; rewrite /layer_solve; case hk : (krows _ _ _ _ _) => [[[kx ky] kz]|//] /=.
case hf : (free_space_eigenmodes kx ky) => [f|//] /=.
case: hl => -> /=.
  case hr : (scattering_reflection _ _ _ _ _ _) => [[[[Sr Wr] Vr] Lr]|//] /=.
  rewrite /one_over; case: ifPn => //= e0 [<-]; have [_ e1 e2 e3 _] := reflection_inv hr.
  exists kx, ky, kz, f, Wr, Vr, Lr, Sr; split=> //; first by case: ifP.
  by move=> m; case: ifP => //= _ [<-].
case hr : (scattering_transmission _ _ _ _ _ _) => [[[[Sr Wr] Vr] Lr]|//] /=.
rewrite /one_over; case: ifPn => //= e0 [<-]; have [_ e1 e2 e3 _] := transmission_inv hr.
exists kx, ky, kz, f, Wr, Vr, Lr, Sr; split=> //; first by case: ifP.
by move=> m; case: ifP => //= _ [<-].
Qed.
Lemma chain_recip (L L' X X' : 'M[C]_(n + n) * 'M[C]_(n + n)) S0 S0' l l' r r' :
  reciprocal L L' X X' S0 S0' -> size l = size l' ->
  (forall i, (i < size l)%N -> reciprocal X X' X X' (nth S0 l i) (nth S0' l' i)) ->
  chain S0 l = Ok r -> chain S0' l' = Ok r' -> reciprocal L L' X X' r r'.
Proof.
elim: l S0 S0' l' => [|A l IH] S0 S0' [|A' l'] //= hS; first by move=> _ _ [<-] [<-].
case=> hsz hi; case e1 : (redheffer_product S0 A) => [S1|//] /=; case e2 : (redheffer_product S0' A') => [S1'|//] /=.
apply: IH => //; first by apply: (rh_recip e1 e2 hS); exact: (hi 0%N isT).
move=> i hl; have := hi i.+1 hl; rewrite /=.
by rewrite (set_nth_default S1 S0 hl) (set_nth_default S1' S0') // -hsz.
Qed.
End Layers.

(** * The exchange form of an outer medium *)
Section Exchange.
Variable n : nat.
Variables (kx ky kx' ky' : 'rV[C]_n) (er : C) (V V' : 'M[C]_(n + n)).
Hypotheses (ox : opposite kx kx') (oy : opposite ky ky').
Hypothesis hV : divcols (Qref kx ky er 1) (twice (ci *: half_kz kx ky er 1)) = Ok V.
Hypothesis hV' : divcols (Qref kx' ky' er 1) (twice (ci *: half_kz kx' ky' er 1)) = Ok V'.
Lemma Qref_structured (a b : 'rV[C]_n) : Qref a b er 1 = structured_Q a b er%:M.
Proof. by rewrite /Qref /structured_Q invr1 scale1r mulr1. Qed.
Lemma half_opposite j : half_kz kx' ky' er 1 0 j = half_kz kx ky er 1 0 (rev_ord j).
Proof. by rewrite !mxE ox oy !sqrrN. Qed.
Lemma twice_diag (v : 'rV[C]_n) : dg (twice v) = block_mx (dg v) 0 0 (dg v).
Proof.
rewrite /twice; apply/matrixP => i j; rewrite -[i]splitK -[j]splitK.
case: (split i) => a; case: (split j) => b /=; rewrite ?block_mxEul ?block_mxEur ?block_mxEdl ?block_mxEdr !mxE.
- by rewrite (inj_eq (@lshift_inj _ _)) (unsplitK (inl a)).
- by rewrite eq_lrshift mulr0n.
- by rewrite eq_rlshift mulr0n.
- by rewrite (inj_eq (@rshift_inj _ _)) (unsplitK (inr a)).
Qed.
Lemma twice_Km (v v' : 'rV[C]_n) : (forall j, v' 0 j = v 0 (rev_ord j)) ->
  dg (twice v) *m Km n = Km n *m dg (twice v').
Proof.
move=> h; have e : dg v *m Rv n = Rv n *m dg v'.
  have o : opposite v (- v') by move=> j; rewrite mxE h.
  by rewrite (dgRv o) linearN /= mulmxN opprK.
rewrite !twice_diag /Km !mulmx_block !(mulmx0, mul0mx) !(add0r, addr0) mulmxN mulNmx e.
by [].
Qed.
Lemma Q_comm (v : 'rV[C]_n) : structured_Q kx ky er%:M *m dg (twice v) = dg (twice v) *m structured_Q kx ky er%:M.
Proof.
rewrite twice_diag /structured_Q !mulmx_block !(mulmx0, mul0mx) !(add0r, addr0).
rewrite !mulmxBl !mulmxBr !mulmxN !mulNmx !mul_scalar_mx !mul_mx_scalar.
have c3 (a b : 'rV[C]_n) : dg a *m dg b *m dg v = dg v *m (dg a *m dg b).
  by rewrite -mulmxA (diagC b) mulmxA (diagC a) -mulmxA.
by rewrite !c3.
Qed.
Lemma outer_sym : V^T *m Km n = - (Km n *m V').
Proof.
have [l0 e] : (forall j, twice (ci *: half_kz kx ky er 1) 0 j != 0) /\ _ := (divcolsP _ _ _).1 hV.
have [l0' e'] : (forall j, twice (ci *: half_kz kx' ky' er 1) 0 j != 0) /\ _ := (divcolsP _ _ _).1 hV'.
have hq := Q_comm (ci *: half_kz kx ky er 1); have hQ := Q_Km ox oy (scalar_rev n er).
rewrite -!Qref_structured in hQ hq.
have hk : dg (twice (ci *: half_kz kx ky er 1)) *m Km n = Km n *m dg (twice (ci *: half_kz kx' ky' er 1)).
  by apply: twice_Km => j; rewrite [LHS]mxE [RHS]mxE half_opposite.
move: (Qref kx ky er 1) (Qref kx' ky' er 1) (twice (ci *: half_kz kx ky er 1)) (twice (ci *: half_kz kx' ky' er 1))
  l0 l0' e e' hQ hq hk => Q Q' l l' l0 l0' e e' hQ hq hk.
have U (a : 'rV[C]_(n + n)) : (forall j, a 0 j != 0) -> dg a \in unitmx.
  by move=> ha; rewrite unitmxE det_diag unitfE prodf_seq_neq0; apply/allP => j _; rewrite ha.
have ul := U _ l0; have ul' := U _ l0'.
have cV : V *m dg l = dg l *m V.
  apply: (can_inj (mulmxK ul)); rewrite -[RHS]mulmxA e; exact: hq.
apply: (can_inj (mulmxK ul')).
rewrite mulNmx -mulmxA -hk mulmxA -(mulmxA (Km n)) e' -hQ -e; congr (_ *m _).
by rewrite cV trmx_mul tr_diag_mx.
Qed.
Lemma outer_unit (a b : 'rV[C]_n) (X : 'M[C]_(n + n)) : er != 0 ->
  divcols (Qref a b er 1) (twice (ci *: half_kz a b er 1)) = Ok X -> X \in unitmx.
Proof.
move=> e0 /divcolsP [l0 e].
have hq : Qref a b er 1 \in unitmx.
  rewrite QrefE invr1 scale1r mulr1; apply: qmat_unit => // j.
  have := l0 (lshift n j); rewrite /twice row_mxEl !mxE mul1r; apply: contraNneq => ->.
  have /eqP -> : csqrt 0 == 0 by rewrite csqrt_eq0.
  by rewrite conjC0 mulr0.
by move: hq; rewrite -e unitmx_mul => /andP [].
Qed.
End Exchange.

Section ExchangeForm.
Variable n : nat.
Implicit Types (V : 'M[C]_(n + n)).
Definition Bf V (x y : 'cV[C]_(n + n)) : C := (x^T *m (Km n *m V) *m y) 0 0.
Lemma BfDl V x x' y : Bf V (x + x') y = Bf V x y + Bf V x' y.
Proof. by rewrite /Bf linearD /= !mulmxDl mxE. Qed.
Lemma BfDr V x y y' : Bf V x (y + y') = Bf V x y + Bf V x y'.
Proof. by rewrite /Bf mulmxDr mxE. Qed.
Lemma BfNl V x y : Bf V (- x) y = - Bf V x y.
Proof. by rewrite /Bf linearN /= !mulNmx mxE. Qed.
Lemma BfNr V x y : Bf V x (- y) = - Bf V x y.
Proof. by rewrite /Bf mulmxN mxE. Qed.
Lemma Bf0l V y : Bf V 0 y = 0.
Proof. by rewrite /Bf trmx0 !mul0mx mxE. Qed.
Lemma Bf0r V x : Bf V x 0 = 0.
Proof. by rewrite /Bf mulmx0 mxE. Qed.
Lemma lorentz_Bf V V' (p q p' q' : 'cV[C]_(n + n)) : V^T *m Km n = - (Km n *m V') ->
  lorentz (tangential 1%:M V p q) (tangential 1%:M V' p' q') = Bf V' (p + q) (q' - p') - Bf V' (q - p) (p' + q').
Proof.
move=> h; rewrite lorentzE /tangential /= !mul1mx mxE !mulmxA trmx_mul -(mulmxA _ _ (Km n)) h mulmxN mulNmx.
by rewrite [X in _ + X]mxE /Bf !mulmxA.
Qed.
Lemma adm_swap V V' : V^T *m Km n = - (Km n *m V') -> V'^T *m Km n = - (Km n *m V).
Proof.
move=> h; apply: trmx_inj; rewrite linearN /= !trmx_mul trmxK KmT mulNmx mulmxN opprK.
by rewrite h.
Qed.
Lemma Bf_swap V V' x y : V^T *m Km n = - (Km n *m V') -> Bf V x y = Bf V' y x.
Proof.
move=> h; rewrite /Bf -[in LHS](trmxK (x^T *m _ *m y)) mxE !trmx_mul trmxK KmT mulmxN h opprK.
by rewrite !mulmxA.
Qed.
Lemma exchange_Bf V V' a b : V^T *m Km n = - (Km n *m V') ->
  exchange (1%:M, V) (1%:M, V') a b = 2%:R * Bf V' a b.
Proof.
move=> h; rewrite /exchange (lorentz_Bf _ _ _ _ h) addr0 subr0 sub0r add0r BfNl opprK.
by rewrite mulr2n mulrDl !mul1r.
Qed.
Lemma half_lorentz V V' (p q p' q' : 'cV[C]_(n + n)) : V^T *m Km n = - (Km n *m V') ->
  lorentz (tangential 1%:M V p q) (tangential 1%:M V' p' q') =
  exchange (1%:M, V) (1%:M, V') p q' - exchange (1%:M, V') (1%:M, V) p' q.
Proof.
move=> h; rewrite (lorentz_Bf _ _ _ _ h) (exchange_Bf _ _ h) (exchange_Bf _ _ (adm_swap h)) (Bf_swap _ _ h).
rewrite !(BfDl, BfDr, BfNl, BfNr).
move: (Bf V' p q') (Bf V' p p') (Bf V' q q') (Bf V' q p') => a b c d.
by rewrite !mulr2n !mulrDl !mul1r; cring.
Qed.
Lemma exchange0l V V' b : V^T *m Km n = - (Km n *m V') -> exchange (1%:M, V) (1%:M, V') 0 b = 0.
Proof. by move=> h; rewrite (exchange_Bf _ _ h) Bf0l mulr0. Qed.
Lemma exchange0r V V' a : V^T *m Km n = - (Km n *m V') -> exchange (1%:M, V) (1%:M, V') a 0 = 0.
Proof. by move=> h; rewrite (exchange_Bf _ _ h) Bf0r mulr0. Qed.

Lemma exchange_nondeg V V' : V^T *m Km n = - (Km n *m V') -> V' \in unitmx ->
  nondegenerate (1%:M, V) (1%:M, V').
Proof.
move=> h u; have uK : Km n *m V' \in unitmx by rewrite unitmx_mul Km_unit.
have B x y : exchange (1%:M, V) (1%:M, V') x y = 0 -> Bf V' x y = 0.
  by rewrite (exchange_Bf _ _ h) => /eqP; rewrite mulf_eq0 (negbTE two_neq0) => /eqP.
split=> [b hb|a ha].
  have z : Km n *m V' *m b = 0.
    apply/colP => i; have := B _ _ (hb (delta_mx i 0)); rewrite /Bf trmx_delta -mulmxA -rowE mxE => ->.
    by rewrite mxE.
  by rewrite -(mulKmx uK b) z mulmx0.
have z : a^T *m (Km n *m V') = 0.
  apply/rowP => i; have := B _ _ (ha (delta_mx i 0)); rewrite /Bf -colE mxE => ->.
  by rewrite mxE.
by apply: trmx_inj; rewrite -(mulmxK uK a^T) z mul0mx trmx0.
Qed.

(** The three reciprocity relations of the blocks. *)
Lemma reciprocal_blocks VL VL' VR VR' (Sm Sm' : smat C_fieldType (n + n)) :
  VL^T *m Km n = - (Km n *m VL') -> VR^T *m Km n = - (Km n *m VR') ->
  reciprocal (1%:M, VL) (1%:M, VL') (1%:M, VR) (1%:M, VR') Sm Sm' ->
  forall a a' : 'cV[C]_(n + n),
  [/\ exchange (1%:M, VL) (1%:M, VL') a (s12 Sm' *m a') = exchange (1%:M, VR) (1%:M, VR') (s21 Sm *m a) a',
      exchange (1%:M, VL) (1%:M, VL') a (s11 Sm' *m a') = exchange (1%:M, VL') (1%:M, VL) a' (s11 Sm *m a) &
      exchange (1%:M, VR) (1%:M, VR') (s22 Sm *m a) a' = exchange (1%:M, VR') (1%:M, VR) (s22 Sm' *m a') a].
Proof.
move=> hL hR h a a'; have hL' := adm_swap hL; have hR' := adm_swap hR.
have sc X (u v : 'cV[C]_(n + n)) : scatters X u v (s11 X *m u + s12 X *m v) (s21 X *m u + s22 X *m v) by split.
split.
- have := h _ _ _ _ _ _ _ _ (sc Sm a 0) (sc Sm' 0 a'); rewrite !mulmx0 !addr0 !add0r /=.
  by rewrite (half_lorentz _ _ _ _ hL) (half_lorentz _ _ _ _ hR) (exchange0l _ hL') (exchange0r _ hR') !subr0.
- have := h _ _ _ _ _ _ _ _ (sc Sm a 0) (sc Sm' a' 0); rewrite !mulmx0 !addr0 /=.
  rewrite (half_lorentz _ _ _ _ hL) (half_lorentz _ _ _ _ hR) (exchange0r _ hR) (exchange0r _ hR') subrr.
  by move/eqP; rewrite subr_eq0 => /eqP.
- have := h _ _ _ _ _ _ _ _ (sc Sm 0 a) (sc Sm' 0 a'); rewrite !mulmx0 !add0r /=.
  rewrite (half_lorentz _ _ _ _ hL) (half_lorentz _ _ _ _ hR) (exchange0l _ hL) (exchange0l _ hL') subrr.
  by move/esym/eqP; rewrite subr_eq0 => /eqP.
Qed.
End ExchangeForm.

(** * Devices *)
Section Device.
Variables (eig : forall m, 'M[C]_m -> 'rV[C]_m * 'M[C]_m) (J1 : R -> R) (n : nat) (ei ee : C).
Hypothesis heig : eigen_equation eig.
Implicit Types (c : crystal n).
Lemma solved_obj c c' k x' : step eig J1 c Solve c' -> dict_get (c_layers c') k = Some x' ->
  exists2 x, dict_get (c_layers c) k = Some x & x.1 = x'.1.
Proof.
move=> hs; inversion hs as [| | | | | | | |order cc ho hsol ex]; subst cc.
move: hsol => /solve_parts [src [dev [d [es [pos [Ss [st [[h1 h2 h3 h4] h5 h6 h7 ->]]]]]]]] /= hx.
have [_ /(_ k)] := solve_all_ok h3; case: ifP => _; last by rewrite hx => e; exists x'.
by case=> x [s [k1 k2]]; rewrite hx => -[->]; exists x.
Qed.
Lemma solve_keeps c c' : step eig J1 c Solve c' ->
  [/\ c_device c' = c_device c, c_source c' = c_source c, c_kp c' = c_kp c & c_exp c' = c_exp c].
Proof.
move=> hs; inversion hs as [| | | | | | | |order cc ho hsol ex]; subst cc.
by move: hsol => /solve_parts [src [dev [d [es [pos [Ss [st [[h1 h2 h3 h4] h5 h6 h7 ->]]]]]]]].
Qed.
Lemma source_keeps c wl te tm th ph kp c' : step eig J1 c (SetSource wl te tm th ph kp) c' ->
  [/\ c_device c' = c_device c, c_layers c' = c_layers c, c_exp c' = c_exp c &
      c_source c' = Some (Source te tm th ph wl)].
Proof.
move=> hs; inversion hs as [| | | | | | |? ? ? ? ? ? ? hh|]; move: hh; rewrite /set_source.
case: (match kp with Some _ => _ | None => _ end) => [k|//] /=.
by destruct (Req_EM_T wl 0) as [h0|h0] => // -[<-].
Qed.

Section Pair.
Variables (c ca ca' cb cb' : crystal n) (wl : R) (te tm te' tm' : C) (th ph th' ph' : R) (kp kp' : option (C * C)).
Hypothesis own : own_crystal ei ee c.
Hypotheses (a1 : step eig J1 c (SetSource wl te tm th ph kp) ca) (a2 : step eig J1 ca Solve ca').
Hypotheses (b1 : step eig J1 c (SetSource wl te' tm' th' ph' kp') cb) (b2 : step eig J1 cb Solve cb').

(** Both solves see the same layers. *)
Lemma same_layers : exists dev sa sb Sa Sb,
  [/\ [/\ c_device c = Some dev, dev.1.2 = Sref :: rcons dev.1.1 Strans & user_stack dev.1.1],
      [/\ c_solution ca' = Some sa, chain (scattering_identity C_fieldType (n + n)) Sa = Ok (r_S sa) & size Sa = size dev.1.2],
      [/\ c_solution cb' = Some sb, chain (scattering_identity C_fieldType (n + n)) Sb = Ok (r_S sb) & size Sb = size dev.1.2] &
      forall i, (i < size dev.1.2)%N -> exists l s s',
        [/\ dict_get (c_layers ca') (nth ""%string dev.1.2 i) = Some (Plain l, Some s) /\
            dict_get (c_layers cb') (nth ""%string dev.1.2 i) = Some (Plain l, Some s'),
            layer_solve eig J1 n l (c_kp ca) wl = Ok s /\ sl_S s = Some (nth (scattering_identity C_fieldType (n + n)) Sa i),
            layer_solve eig J1 n l (c_kp cb) wl = Ok s' /\ sl_S s' = Some (nth (scattering_identity C_fieldType (n + n)) Sb i),
            l_exp l = c_exp c & own_entry ei ee (c_exp c) (nth ""%string dev.1.2 i) (Plain l)]].
Proof.
have [ka1 ka2 ka3 ka4] := source_keeps a1; have [kb1 kb2 kb3 kb4] := source_keeps b1.
have oa : own_crystal ei ee ca by apply: step_own own _ a1.
have ob : own_crystal ei ee cb by apply: step_own own _ b1.
have [da [sra [sa [ea [Sa ha]]]]] := solve_device oa a2.
have [db [srb [sb [eb [Sb hb]]]]] := solve_device ob b2.
have [q1 q2 q3 q4] := solve_keeps a2; have [r1 r2 r3 r4] := solve_keeps b2.
have e1 : c_device c = Some da by rewrite -(sd_dev ha) q1 ka1.
have e2 : db = da by move: (sd_dev hb); rewrite r1 kb1 e1 => -[].
subst db.
have ewa : s_wl sra = wl by move: (sd_src ha); rewrite q2 ka4 => -[<-].
have ewb : s_wl srb = wl by move: (sd_src hb); rewrite r2 kb4 => -[<-].
exists da, sa, sb, Sa, Sb; split.
- by split=> //; [exact: sd_names ha|exact: sd_user ha].
- split; [exact: sd_sol ha|exact: (stack_chain (sd_stack ha))|exact: sd_sizeS ha].
- split; [exact: sd_sol hb|exact: (stack_chain (sd_stack hb))|exact: sd_sizeS hb].
move=> i hi; pose x0 : entry n := (Plain (half_infinite (c_exp c) Sref 0), None).
have [l [s [p1 p2 p3 p4 p5]]] := sd_layer ha x0 (scattering_identity C_fieldType (n + n)) hi.
have [l' [s' [p1' p2' p3' p4' p5']]] := sd_layer hb x0 (scattering_identity C_fieldType (n + n)) hi.
have ga := sd_get ha x0 hi; have gb := sd_get hb x0 hi; rewrite p1 in ga; rewrite p1' in gb.
have [x hx ex] := solved_obj a2 ga; have [y hy ey] := solved_obj b2 gb.
have exy : y = x by move: hx hy; rewrite ka2 kb2 => -> [].
have el : l' = l by move: ey; rewrite exy ex => -[].
subst l'; exists l, s, s'; rewrite ewa q3 in p2; rewrite ewb r3 in p2'; rewrite q4 ka3 in p4 p5.
by split.
Qed.

Hypotheses (o1 : (c_kp cb).1 = - (c_kp ca).1) (o2 : (c_kp cb).2 = - (c_kp ca).2).
Variables (sa sb : solution n) (mL mL' mR mR' : 'M[C]_(n + n) * 'M[C]_(n + n) * 'rV[C]_(n + n)).
Hypotheses (hsa : c_solution ca' = Some sa) (hsb : c_solution cb' = Some sb).
Hypotheses (hL : named_modes ca' Sref = Ok mL) (hL' : named_modes cb' Sref = Ok mL').
Hypotheses (hR : named_modes ca' Strans = Ok mR) (hR' : named_modes cb' Strans = Ok mR').
Local Notation I0 := (scattering_identity C_fieldType (n + n)).

Lemma device_recip_full : exists VL VL' VR VR',
  [/\ VL' \in unitmx /\ VR' \in unitmx, mL.1 = (1%:M, VL) /\ mL'.1 = (1%:M, VL'), mR.1 = (1%:M, VR) /\ mR'.1 = (1%:M, VR'),
      VL^T *m Km n = - (Km n *m VL') /\ VR^T *m Km n = - (Km n *m VR') &
      reciprocal (1%:M, VL) (1%:M, VL') (1%:M, VR) (1%:M, VR') (r_S sa) (r_S sb)].
Proof.
have [dev [sa0 [sb0 [Sa [Sb [[_ hn us] [p1 p2 p3] [q1 q2 q3] hl]]]]]] := same_layers.
have e : sa0 = sa by move: p1; rewrite hsa => -[].
subst sa0; have e : sb0 = sb by move: q1; rewrite hsb => -[].
subst sb0; set N := size dev.1.1.
have sz : size dev.1.2 = N.+2 by rewrite hn /= size_rcons.
have bl := o_exp own.
have i0 : (0 < size dev.1.2)%N by rewrite sz.
have iN : (N.+1 < size dev.1.2)%N by rewrite sz.
have [l0 [s0 [s0' [[g0 g0'] [y0 y0s] [y0' y0s'] le0 oe0]]]] := hl _ i0.
have [l1 [s1 [s1' [[g1 g1'] [y1 y1s] [y1' y1s'] le1 oe1]]]] := hl _ iN.
have n0 : nth ""%string dev.1.2 0 = Sref by rewrite hn.
have n1 : nth ""%string dev.1.2 N.+1 = Strans by rewrite hn /= nth_rcons ltnn eqxx.
rewrite n0 in g0 g0' oe0; rewrite n1 in g1 g1' oe1.
have f0 : l_form l0 = HALF_SPACE_INC ei by case: oe0 => l [[<-] _ /= []].
have f1 : l_form l1 = HALF_SPACE_TRN ee by case: oe1 => l [[<-] _ /= []].
have [kx [ky [kz [f [W0 [V0 [t0 [S0 [[z1 z2] z3 z4 [z5 z6 z7 z8]]]]]]]]]] := half_inv (or_introl f0) y0.
rewrite f0 => rf.
have [kx' [ky' [kz' [f' [W0' [V0' [t0' [S0' [[z1' z2'] z3' z4' [z5' z6' z7' z8']]]]]]]]]] := half_inv (or_introl f0) y0'.
rewrite f0 => rf'.
have [jx [jy [jz [h [W1 [V1 [t1 [S1 [[w1 w2] w3 w4 [w5 w6 w7 w8]]]]]]]]]] := half_inv (or_intror f1) y1.
rewrite f1 => tf.
have [jx' [jy' [jz' [h' [W1' [V1' [t1' [S1' [[w1' w2'] w3' w4' [w5' w6' w7' w8']]]]]]]]]] := half_inv (or_intror f1) y1'.
rewrite f1 => tf'.
rewrite le0 in z1 z1'; rewrite le1 in w1 w1'.
have [a3 a4] : jx = kx /\ jy = ky by move: w1; rewrite z1 => -[<- <- _].
have [b3 b4] : jx' = kx' /\ jy' = ky' by move: w1'; rewrite z1' => -[<- <- _].
subst jx jy jx' jy'.
have a5 : h = f by move: w2; rewrite z2 => -[].
have b5 : h' = f' by move: w2'; rewrite z2' => -[].
subst h h'.
have [ox oy] := krows_opposite bl o1 o2 z1 z1'.
have modes k (cc : crystal n) l s m : dict_get (c_layers cc) k = Some (Plain l, Some s) -> named_modes cc k = Ok m ->
    sl_modes s = Some m.
  by move=> hg; rewrite /named_modes hg /=; case: (sl_modes s) => //= x [->].
have eL := z4 _ (modes _ _ _ _ _ g0 hL); have eL' := z4' _ (modes _ _ _ _ _ g0' hL').
have eR := w4 _ (modes _ _ _ _ _ g1 hR); have eR' := w4' _ (modes _ _ _ _ _ g1' hR').
subst W0 W0' W1 W1' t0 t0' t1 t1'.
exists V0, V0', V1, V1'; split.
- by rewrite (outer_unit z8' z7') (outer_unit w8' w7').
- by rewrite eL eL'.
- by rewrite eR eR'.
- by split; [exact: outer_sym ox oy z7 z7'|exact: outer_sym ox oy w7 w7'].
have iface0 : reciprocal (1%:M, V0) (1%:M, V0') f f' S0 S0'.
  by apply: interface_reciprocal => u1 u2 v1 v2 /=; [move/(reflection_continuity rf)|move/(reflection_continuity rf')].
have iface1 : reciprocal f f' (1%:M, V1) (1%:M, V1') S1 S1'.
  by apply: interface_reciprocal => u1 u2 v1 v2 /=; [move/(transmission_continuity tf)|move/(transmission_continuity tf')].
have mid i : (i < N)%N -> reciprocal f f' f f' (nth I0 Sa i.+1) (nth I0 Sb i.+1).
  move=> hi; have hi' : (i.+1 < size dev.1.2)%N by rewrite sz !ltnS ltnW.
  have [l [s [s' [_ [v1 v2] [v3 v4] v5 v6]]]] := hl _ hi'.
  have hk : nth ""%string dev.1.2 i.+1 = nth ""%string dev.1.1 i by rewrite hn /= nth_rcons hi.
  have [u1 u2] : ((nth ""%string dev.1.1 i == Sref) = false) /\ ((nth ""%string dev.1.1 i == Strans) = false).
    by apply: user_neq; apply: us; rewrite mem_nth.
  have sf : slab_form (l_form l) by case: v6 => l' [[<-] _]; rewrite hk u1 u2.
  have bl' : built (l_exp l) by rewrite v5.
  by apply: (layer_reciprocal heig o1 o2 bl' sf _ _ z2 z2' v1 v3 v2 v4); rewrite v5; [exact: z1|exact: z1'].
have eS0 : nth I0 Sa 0 = S0 by move: y0s; rewrite z3 => -[].
have eS0' : nth I0 Sb 0 = S0' by move: y0s'; rewrite z3' => -[].
have eS1 : nth I0 Sa N.+1 = S1 by move: y1s; rewrite w3 => -[].
have eS1' : nth I0 Sb N.+1 = S1' by move: y1s'; rewrite w3' => -[].
have split_ends (X : seq (smat C_fieldType (n + n))) : size X = N.+2 ->
    exists2 Y, X = nth I0 X 0 :: rcons Y (nth I0 X N.+1) & size Y = N.
  case: X => [//|x X] /=; case/lastP: X => [//|Y y]; rewrite size_rcons => -[hY]; exists Y => //.
  by rewrite nth_rcons hY ltnn eqxx.
rewrite sz in p3 q3.
have [Ya eYa sYa] := split_ends _ p3; have [Yb eYb sYb] := split_ends _ q3.
have midY i : (i < N)%N -> reciprocal f f' f f' (nth I0 Ya i) (nth I0 Yb i).
  move=> hi; have := mid _ hi; rewrite {1}eYa {1}eYb /= !nth_rcons sYa sYb hi.
  by [].
move: p2 q2; rewrite eYa eYb eS0 eS0' eS1 eS1' /= !rh_idL /= -!cats1 !chain_cat.
case c1 : (chain S0 Ya) => [T|//] /=; case c2 : (chain S0' Yb) => [T'|//] /=.
case r1 : (redheffer_product T S1) => [U|//] /= [<-]; case r2 : (redheffer_product T' S1') => [U'|//] /= [<-].
apply: (rh_recip r1 r2 _ iface1); apply: (chain_recip iface0 _ _ c1 c2); first by rewrite sYa.
move=> i; rewrite sYa => hi; have := midY i hi.
by rewrite (set_nth_default S0 I0) ?sYa // (set_nth_default S0' I0) ?sYb.
Qed.
Lemma device_reciprocal : reciprocal mL.1 mL'.1 mR.1 mR'.1 (r_S sa) (r_S sb).
Proof. by have [VL [VL' [VR [VR' [_ [-> ->] [-> ->] _ h]]]]] := device_recip_full. Qed.
Lemma device_blocks (a a' : 'cV[C]_(n + n)) :
  [/\ exchange mL.1 mL'.1 a (s12 (r_S sb) *m a') = exchange mR.1 mR'.1 (s21 (r_S sa) *m a) a',
      exchange mL.1 mL'.1 a (s11 (r_S sb) *m a') = exchange mL'.1 mL.1 a' (s11 (r_S sa) *m a) &
      exchange mR.1 mR'.1 (s22 (r_S sa) *m a) a' = exchange mR'.1 mR.1 (s22 (r_S sb) *m a') a].
Proof.
have [VL [VL' [VR [VR' [_ [-> ->] [-> ->] [h1 h2] h]]]]] := device_recip_full.
exact: reciprocal_blocks h1 h2 h a a'.
Qed.
Lemma device_nondeg : nondegenerate mL.1 mL'.1 /\ nondegenerate mR.1 mR'.1.
Proof.
have [VL [VL' [VR [VR' [[u1 u2] [-> ->] [-> ->] [h1 h2] _]]]]] := device_recip_full.
by split; exact: exchange_nondeg.
Qed.
End Pair.
End Device.
