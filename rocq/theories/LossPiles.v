(** Piles of absorbing layers (T-matrix API). *)
From Coq Require Import Reals ZArith String Lra Lia FunctionalExtensionality.
From mathcomp Require Import all_ssreflect all_algebra.
From Coquelicot Require Import Complex.
From Verif Require Import SpecEnergy Base CField RField CFun ModelRedheffer RedhefferProofs ModelExpansion ModelFourier Blk ModelTmat SpecTmat TmatProofs
  ModelLattice SpecLattice LatticeProofs LookupProofs CurrentProofs FourierProofs SpecExp ExpProofs ExpDerive SpecExpansion AnalyticalProofs TmatTheorems
  TmatEnergyProofs ModelDevice SpecTransform TransformProofs IslandProofs CellForms ModelEz SpecBloch SpectrumProofs BlochProofs SpecLoss TmatLossProofs ReciprocalPiles FilmProofs TmatExamples.
Set Implicit Arguments. Unset Strict Implicit. Unset Printing Implicit Defensive.
Import GRing.Theory.
Local Open Scope ring_scope.

(** A matrix whose transfer matrix, written for the fields, loses power; [eps] is the
    medium on the right. *)
Definition lossy (n : nat) (L : lattice) (wl : R) (kp : vec2) (eps : num) (S : 'M[C]_((n + n) + (n + n))) : Prop :=
  exists U V E, [/\ lattice_U n L wl kp = Ok U, lattice_V n L eps wl kp = Ok V, matrix_s (U *m E *m V) = Ok S, dissipates E & E \in unitmx].
Lemma lossyM n L wl kp eps (S1 S2 S : 'M[C]_((n + n) + (n + n))) :
  lossy L wl kp (l_incid L) S1 -> lossy L wl kp eps S2 -> multS S1 S2 = Ok S -> lossy L wl kp eps S.
Proof.
move=> [U [V [E [hU hV h1 c1 u1]]]] [U' [V' [E' [hU' hV' h2 c2 u2]]]] hm.
move: hU'; rewrite hU => -[eU]; subst U'.
exists U, V', (E *m E'); split=> //; [|exact: dissipatesM|by rewrite unitmx_mul u1 u2].
have VU : V *m U = 1%:M by apply: mulmx1C; exact: (lattice_UV hU hV).
rewrite -hm -(matrix_s_mul h1 h2); congr matrix_s.
by rewrite !mulmxA -[_ *m V *m U]mulmxA VU mulmx1.
Qed.
Lemma interface_lossy n L wl kp (S : 'M[C]_((n + n) + (n + n))) :
  scattering_interface n L wl kp = Ok S -> lossy L wl kp (l_emerg L) S.
Proof.
rewrite /scattering_interface; case hU : (lattice_U _ _ _ _) => [U|//]; cbn [bind].
case hV : (lattice_Ve _ _ _ _) => [V|//]; cbn [bind]; rewrite /interface => hm.
by exists U, V, 1%:M; split; [exact: hU|exact: hV|rewrite mulmx1; exact: hm|exact: dissipates1|exact: unitmx1].
Qed.
Lemma exp_unit n (X : 'M[C]_n) : mexp X \in unitmx.
Proof. by case: (mulmx1_unit (exp_inv X)). Qed.
Lemma inverse_im (z : C) : (0 <= snd z)%Re -> (snd (z^-1)%R <= 0)%Re.
Proof.
move=> h; case: (eqVneq z 0) => [->|z0]; first by rewrite invr0; exact: Rle_refl.
have -> : z^-1 = Cinv z by [].
rewrite /Cinv; cbn [snd]; set m := (_ + _)%Re.
have m0 : (0 < m)%Re.
  have q1 := pow2_ge_0 (fst z); have q2 := pow2_ge_0 (snd z).
  case: (Rtotal_order m 0) => [|[e|//]]; first by rewrite /m; lra.
  case/eqP: z0; apply: C_ext; [change (fst z = 0%Re)|change (snd z = 0%Re)].
    by apply: Rsqr_0_uniq; rewrite /Rsqr; move: e; rewrite /m; nra.
  by apply: Rsqr_0_uniq; rewrite /Rsqr; move: e; rewrite /m; nra.
have i0 := Rinv_0_lt_compat _ m0; rewrite /Rdiv; nra.
Qed.

Section Layer.
Variables (J1 : R -> R) (Lx Ly : R) (p : nat * nat) (ei ee : num) (L : lattice).
Hypotheses (Lx0 : (0 < Lx)%Re) (Ly0 : (0 < Ly)%Re) (hL : mk_lattice p (Lx, 0%Re) (0%Re, Ly) ei ee = Ok L) (hf : window_fits p).
Variables (n : nat) (expm : 'M[C]_((n + n) + (n + n)) -> 'M[C]_((n + n) + (n + n))).
Hypothesis hexp : is_expm expm.
Variables (wl : R) (kp : vec2).
Hypothesis wl0 : (0 < wl)%Re.
Variables (islands : seq (shape * C)) (host : C) (d : R) (pow : nat).
Hypothesis absorbs : absorbing_recipe Lx Ly (islands, host, d, pow).
(** The operator of the layer. *)
Lemma operator_dissipates l data T Ti A t : standard_orders p.1 p.2 l -> n = l_ng L -> (0 <= t)%Re ->
  mapM (fun isl => do t <- grid_transform J1 isl.1 (l_G L) (l_area L); Ok (t, isl.2)) islands = Ok data ->
  epsilon_g (l_q L) data host false = Ok T -> epsilon_g (l_q L) data host true = Ok Ti ->
  matrix_a n l (window L) T Ti wl kp = Ok A -> dissipates (mexp (RtoC t *: - A)).
Proof.
case: absorbs => rects [ei' hd hr hh h0] sl hn t0 hdat hT hTi hA; rewrite ei' in hdat.
have hin q : List.In q rects -> rect_inside Lx Ly q.1 by case/hr.
have hw q : List.In q rects -> wide Lx Ly q.1 by case/hr.
rewrite hn in A hA *.
have formE inverse Tb s (x : 'cV[C]_(l_ng L)) : epsilon_g (l_q L) data host inverse = Ok Tb ->
  order_lookups l (w_rows (window L) %/ 2) (w_cols (window L) %/ 2) (l_ng L) Tb = Ok s ->
  [/\ forall i j : 'I_(l_ng L), fourier_integral Lx Ly (drawn (regions (inverted_rects inverse rects)) (inverted inverse host))
     (minus2 (l_g L i) (l_g L j)) (looked s i j) &
     herm (looked s) x = \sum_(i < l_ng L) \sum_(j < l_ng L) Cconj (x i 0) * looked s i j * x j 0].
  by move=> h1 h2; split=> // i j; exact: (rect_table Lx0 Ly0 hL hf hin hd hw sl hdat h1 h2).
apply: (matrix_a_dissipates hA wl0 t0) => [e he x|v hv x].
  have [h1 ->] := formE false T e x hT he.
  apply: (form_im Lx0 Ly0 (w := fun i j => looked e i j) h1) => a b; apply: (@drawn_ind (fun z => 0 <= snd z)%Re) => // q z.
  by move/List.in_map_iff => [q' [[_ <-]] /List.in_map_iff [q2 [<- /hr []]]].
have [h1 ->] := formE true Ti v x hTi hv.
apply: (form_im_neg x Lx0 Ly0 (w := fun i j => looked v i j) h1) => a b; apply: (@drawn_ind (fun z => snd z <= 0)%Re) => [|q z].
  exact: inverse_im.
by move/List.in_map_iff => [q' [[_ <-]] /List.in_map_iff [q2 [<- /hr [_ _ h]]]]; exact: inverse_im.
Qed.
Lemma layer_lossy S : scattering_matrix_islands J1 expm p L islands host wl kp d pow = Ok S -> lossy L wl kp (l_incid L) S.
Proof.
rewrite /scattering_matrix_islands; have [_ _ hq _ _] := mk_latticeE hL.
case hg : (grid_size _) => [nq|//]; cbn [bind]; have [_ e] := grid_sizeE hg; have {e} -> : nq.2 = l_q L by rewrite hq e.
case hd : (mapM _ _) => [data|//]; cbn [bind].
case hT : (epsilon_g _ _ _ false) => [T|//]; cbn [bind]; case hTi : (epsilon_g _ _ _ true) => [Ti|//]; cbn [bind].
case hU : (lattice_U _ _ _ _) => [U|//]; cbn [bind]; case hV : (lattice_Vi _ _ _ _) => [V|//]; cbn [bind].
rewrite (window_rows hL).1 (window_cols hL hf).
case hl : (mapM _ _) => [l|//]; cbn [bind].
have sl : standard_orders p.1 p.2 l by apply: coords_standard; rewrite -hl; case: (p) => ? ?.
case hA : (matrix_a _ _ _ _ _ _ _) => [A|//]; cbn [bind] => hS.
have UV := lattice_UV hU hV; have [hn _ _ _ _] := lattice_UE hU.
have d0 : (0 <= d)%Re by case: absorbs => rects [].
exists U, V, (expm (RtoC d *: - A)); split; [exact: hU|exact: hV|exact: (sliced_exp hexp UV hS)| |].
  rewrite (is_expmE _ hexp); exact: (operator_dissipates sl hn d0 hd hT hTi hA).
by rewrite (is_expmE _ hexp); exact: exp_unit.
Qed.
End Layer.

(** * Nothing is singular when every order propagates *)
Section Defined.
Variables (n : nat) (L : lattice) (wl : R) (kp : vec2) (eps : num).
Hypothesis wl0 : (0 < wl)%Re.
Variables (r r' : R).
Hypotheses (hi : num_val (l_incid L) = RtoC r) (he : num_val eps = RtoC r') (r0 : (0 < r)%Re).
Hypothesis all : all_propagate n L wl kp.
Variables (U V E : 'M[C]_((n + n) + (n + n))).
Hypotheses (hU : lattice_U n L wl kp = Ok U) (hV : lattice_V n L eps wl kp = Ok V) (hE : dissipates E) (uE : E \in unitmx).
Lemma flux_dissipated F : ((\sum_g order_flux F g : R) <= (\sum_g order_flux (E *m F) g : R))%Re.
Proof. by have := hE F; rewrite /formval !flux_sum; lra. Qed.
Lemma lossy_defined : is_ok (matrix_s (U *m E *m V)).
Proof.
apply/matrix_s_ok/unitmx_inj => x hx.
have [hn w0 e0 k0 _] := lattice_UE hU.
have [Vi hVi] : is_ok (lattice_Vi n L wl kp).
  apply: lattice_V_def => //; move: hi; case: (l_incid L) => //= y /(congr1 fst) /= ->; lra.
have UV := lattice_UV hU hVi; have VU := mulmx1C UV.
pose Q : 'cV[C]_((n + n) + (n + n)) := col_mx x 0; pose P := U *m E *m V *m Q.
have P0 : usubmx P = 0.
  by rewrite /P /Q -[U *m E *m V]submxK mul_block_col col_mxKu mulmx0 addr0.
have q0 a (g : 'I_n) : (a < 2)%N -> quarter_of P a g 0 = 0.
  by case: a => [|[|//]] _; rewrite /quarter_of P0 !mxE.
have q1 a (g : 'I_n) : (1 < a < 4)%N -> quarter_of Q a g 0 = 0.
  by case: a => [|[|[|[|//]]]] // _; rewrite /quarter_of /Q col_mxKd !mxE.
have hPQ : Vi *m P = E *m (V *m Q) by rewrite /P !mulmxA VU mul1mx.
set c := (wl / (mu0c * twopi))%Re.
have c0 : (0 < c)%Re.
  rewrite /c; have m0 := mu0c_pos; have p0 := PI_RGT_0; apply: Rmult_lt_0_compat => //; apply: Rinv_0_lt_compat.
  by rewrite /twopi; nra.
have sq0 z : (0 <= sqmod z)%Re by rewrite /sqmod; exact: pow2_ge_0.
pose kz (g : 'I_n) := compute_kz (l_incid L) wl kp (l_g L g).
have kp0 g : (0 < fst (kz g))%Re by have [h1 h2] := all g; case: (kz_pos wl0 h1) => // e; case: h2.
have FP (g : 'I_n) : order_flux (Vi *m P) g = (- (c * (fst (kz g) * two P 2 3 g)))%Re.
  have [sg [hsg ->]] := medium_flux hVi hi wl0 P g; rewrite -/(kz g) -/c in hsg *.
  rewrite (q0 0%N) // (q0 1%N) // wave_flux_real //; last by have [] := all g.
  by rewrite /two; have -> : sqmod (0 : C) = 0%Re; [rewrite sqmodE /=; ring|ring].
have FQ (g : 'I_n) : (0 <= order_flux (V *m Q) g)%Re.
  have [sg [hsg ->]] := medium_flux hV he wl0 Q g; rewrite -/c in hsg *.
  rewrite (q1 2%N) // (q1 3%N) //; apply: Rmult_le_pos; first lra.
  case: (real_or_imaginary (kz_real_sq wl kp (l_g L g) he)) => h.
    rewrite wave_flux_real //; have := kz_pos wl0 h => h0; apply: Rmult_le_pos => //.
    have := sq0 (quarter_of Q 0 g 0); have := sq0 (quarter_of Q 1 g 0).
    by have -> : sqmod (0 : C) = 0%Re; [rewrite sqmodE /=; ring|lra].
  by rewrite wave_flux_zero //; [exact: Rle_refl|right].
have := flux_dissipated (V *m Q); rewrite -hPQ (eq_bigr _ (fun g _ => FP g)) => le.
have s0 : (0 <= (\sum_g order_flux (V *m Q) g : R))%Re by apply: rsum_ge0.
have t0 g : (0 <= c * (fst (kz g) * two P 2 3 g))%Re.
  apply: Rmult_le_pos; first lra; apply: Rmult_le_pos; first exact/Rlt_le.
  by rewrite /two; have := sq0 (quarter_of P 2 g 0); have := sq0 (quarter_of P 3 g 0); lra.
have z g : (c * (fst (kz g) * two P 2 3 g) = 0)%Re.
  have e : ((\sum_h (- (c * (fst (kz h) * two P 2 3 h)))%Re : R) = - (\sum_h (c * (fst (kz h) * two P 2 3 h))%Re : R))%Re by exact: sumrN.
  have : ((\sum_h (c * (fst (kz h) * two P 2 3 h))%Re : R) <= 0)%Re by move: le; rewrite e => le; lra.
  rewrite (bigD1 g) //= -[(_ + _)]/(_ + _)%Re; set rest := (\sum_(_ | _) _) => h.
  have : (0 <= rest)%Re by rewrite /rest -big_filter; apply: rsum_ge0.
  by have := t0 g; lra.
have two0 g : two P 2 3 g = 0%Re.
  have := z g; case/Rmult_integral; first lra.
  by case/Rmult_integral => // h; have := kp0 g; lra.
have sqz w : sqmod w = 0%Re -> w = 0.
  rewrite sqmodE => e; apply: C_ext; [change (fst w = 0%Re)|change (snd w = 0%Re)]; nra.
have PZ : P = 0.
  apply: eq_quarters => a ha g; rewrite quarter0 //; case: a ha => [|[|[|[|//]]]] _; [exact: q0|exact: q0| |].
    apply: sqz; have := two0 g; rewrite /two; have := sq0 (quarter_of P 2 g 0); have := sq0 (quarter_of P 3 g 0); lra.
  by apply: sqz; have := two0 g; rewrite /two; have := sq0 (quarter_of P 2 g 0); have := sq0 (quarter_of P 3 g 0); lra.
have VQ : V *m Q = 0 by apply: (iffLR (unitmx_inj E)) => //; rewrite -hPQ PZ mulmx0.
have [_ _ e0' _] := lattice_VE hV.
have Q0 : Q = 0.
  apply: eq_quarters => a ha g; rewrite quarter0 //; have [e1 e2 e3 e4] := medium_fields hV Q g.
  move: e1 e2 e3 e4; rewrite VQ !quarter0 // (q1 2%N) // (q1 3%N) // !addr0 !subr0 !sub0r.
  set Y := RtoC _; set X := RtoC _; set f := (_ / _); set h := (_ / _); move=> e1 e2 e3 e4.
  have XY : X * X + Y * Y = 1 by apply: C_ext => /=; have := udir_unit kp (l_g L g); lra.
  have h0 : h != 0.
    rewrite /h mulf_neq0 ?invr_neq0 ?cmath_sqrt_neq0 //; apply/eqP => /(congr1 fst) /=; exact: mu0c_neq0.
  case: a ha => [|[|[|[|//]]]] _; [| |exact: q1|exact: q1].
    rewrite -[LHS]mul1r -XY; transitivity (Y * (Y * quarter_of Q 0 g 0 + X * (f * - quarter_of Q 1 g 0)) - X * (- X * quarter_of Q 0 g 0 + Y * (f * - quarter_of Q 1 g 0))).
      by toC; ring.
    by rewrite -e1 -e2 !mulr0 subr0.
  apply: (mulfI h0); rewrite mulr0 -[LHS]mul1r -XY.
  transitivity (Y * (X * (h * f * quarter_of Q 0 g 0) + Y * (h * quarter_of Q 1 g 0)) - X * (Y * (h * f * quarter_of Q 0 g 0) - X * (h * quarter_of Q 1 g 0))).
    by toC; ring.
  by rewrite -e3 -e4 !mulr0 subr0.
by have := congr1 usubmx Q0; rewrite /Q col_mxKu linear0.
Qed.
End Defined.

(** * Layers that are always defined *)
Lemma mapM_all {A B : Type} (f : A -> res B) (l : seq A) : (forall x, List.In x l -> is_ok (f x)) -> is_ok (mapM f l).
Proof.
elim: l => [|x l ih] h /=; first by eexists.
have [y ->] := h x (or_introl erefl); cbn [bind].
by have [ys ->] := ih (fun z hz => h z (or_intror hz)); cbn [bind]; eexists.
Qed.
Lemma mapM_each {A B : Type} (Q : B -> Prop) (f : A -> res B) (l : seq A) ys :
  (forall x y, List.In x l -> f x = Ok y -> Q y) -> mapM f l = Ok ys -> forall y, List.In y ys -> Q y.
Proof.
elim: l ys => [|x l ih] ys h /=; first by case=> <-.
case hx : (f x) => [y|//]; cbn [bind]; case hm : (mapM _ _) => [ys'|//]; cbn [bind]; case=> <- z /= [<-|hz].
  by apply: (h x) => //; left.
by apply: (ih _ _ hm z hz) => x' y' hx'; apply: h; right.
Qed.
Section LayerDefined.
Variables (J1 : R -> R) (Lx Ly : R) (p : nat * nat) (ei ee : num) (L : lattice).
Hypotheses (Lx0 : (0 < Lx)%Re) (Ly0 : (0 < Ly)%Re) (hL : mk_lattice p (Lx, 0%Re) (0%Re, Ly) ei ee = Ok L) (hf : window_fits p).
Variables (n : nat) (expm : 'M[C]_((n + n) + (n + n)) -> 'M[C]_((n + n) + (n + n))).
Hypothesis hexp : is_expm expm.
Variables (wl : R) (kp : vec2).
Hypothesis wl0 : (0 < wl)%Re.
Variables (islands : seq (shape * C)) (host : C) (d : R) (pow : nat).
Hypothesis absorbs : absorbing_recipe Lx Ly (islands, host, d, pow).
Hypothesis nonzero : host != 0 /\ forall s e, List.In (s, e) islands -> e != 0.
Hypotheses (p0 : (0 < p.1)%N) (hn : n = l_ng L) (all : all_propagate n L wl kp).
Variable r : R.
Hypotheses (hi : num_val (l_incid L) = RtoC r) (r0 : (0 < r)%Re).
Lemma tables_ok data inverse : mapM (fun isl => do t <- grid_transform J1 isl.1 (l_G L) (l_area L); Ok (t, isl.2)) islands = Ok data ->
  exists2 T, epsilon_g (l_q L) data host inverse = Ok T & (a_rows T, a_cols T) = l_q L.
Proof.
move=> hd; have [_ _ hq _ [_ _ _ hG _]] := mk_latticeE hL; have [h0 hisl] := nonzero.
have hQ y : List.In y data -> (a_rows y.1, a_cols y.1) = l_q L /\ y.2 != 0.
  apply: (mapM_each (Q := fun y => (a_rows y.1, a_cols y.1) = l_q L /\ y.2 != 0) _ hd) => -[s e] z hx.
  rewrite /grid_transform; case: (transform _ _ _ _) => [t|//]; cbn [bind]; case=> <-; split; first exact: hG.
  exact: (hisl s).
rewrite /epsilon_g.
have mk x : x != 0 -> exists z, mask_trsf inverse x = Ok z by move=> x0; rewrite /mask_trsf (negbTE x0); case: inverse; eexists.
have [th eh] := mk _ h0; rewrite eh; cbn [bind].
have q0 : ((l_q L).1 %/ 2 < (l_q L).1)%N by rewrite hq; cbn [fst snd]; apply: ltn_Pdiv => //; rewrite qofE addn_gt0 p0.
have q0' : ((l_q L).2 %/ 2 < (l_q L).2)%N by rewrite hq; cbn [fst snd]; apply: ltn_Pdiv => //; rewrite qofE addn_gt0 (fits_pos hf p0).
rewrite q0 q0' /=.
have : forall acc, (a_rows acc, a_cols acc) = l_q L -> exists2 T, add_tables inverse host data acc = Ok T & (a_rows T, a_cols T) = l_q L.
  elim: data {hd} hQ => [|[bf e] data ih] hQ acc hacc; first by exists acc.
  have [hb e0] := hQ _ (or_introl erefl); have [te ht] := mk _ e0; rewrite /= ht eh; cbn [bind].
  have [-> ->] : a_rows bf = a_rows acc /\ a_cols bf = a_cols acc by move: hb; rewrite -hacc => -[].
  rewrite !eqxx /=; apply: ih => [y hy|]; [by apply: hQ; right|exact: hacc].
by apply; case: (l_q L).
Qed.
Lemma layer_ok : is_ok (scattering_matrix_islands J1 expm p L islands host wl kp d pow).
Proof.
rewrite /scattering_matrix_islands; have [ho _ hq _ [_ _ ha hG _]] := mk_latticeE hL.
rewrite (grid_size_def ho); cbn [bind snd]; rewrite -/(qof p.1) -/(qof p.2) -hq.
have [data hd] : is_ok (mapM (fun isl => do t <- grid_transform J1 isl.1 (l_G L) (l_area L); Ok (t, isl.2)) islands).
  apply: mapM_all => -[s e]; case: absorbs => rects [-> _ _ _ _] /List.in_map_iff [[[[[x0 y0] x1] y1] e'] [[<- <-] _]].
  rewrite /grid_transform /transform ha /unitcellarea /=; destruct (Req_EM_T _ 0) as [h|h]; cbn [bind]; last by eexists.
  exfalso; move: h; set u := (_ - _)%Re; have u0 : (0 < u)%Re by rewrite /u; nra.
  by rewrite Rabs_pos_eq; lra.
rewrite hd; cbn [bind]; have [T hT rT] := tables_ok false hd; have [Ti hTi rTi] := tables_ok true hd; rewrite hT hTi; cbn [bind].
have w0 : wl <> 0%Re by lra.
have e0 : num_val (l_incid L) != 0 by rewrite hi; apply/eqP => /(congr1 fst) /=; lra.
have hs : has_sqrt (l_incid L) by move: hi; case: (l_incid L) => //= y /(congr1 fst) /= ->; lra.
have na : no_anomaly L (l_incid L) wl kp.
  move=> g hg; have hg' : (g < n)%N by rewrite hn. have [h1 h2] := all (Ordinal hg') => z.
  have := compute_kz2 (l_incid L) wl kp (l_g L g); rewrite z subrr => /eqP; rewrite mulf_eq0 orbb => /eqP e.
  by apply: h2; rewrite /= e.
have [U hU] := lattice_U_def hn w0 e0 na; have [V hV] := lattice_V_def kp hn w0 e0 hs.
rewrite hU; cbn [bind]; rewrite /lattice_Vi hV; cbn [bind].
have [l hl] := coords_ok p.1 p.2.
rewrite (window_rows hL).1 (window_cols hL hf) hl; cbn [bind]; have sl := coords_standard hl.
have [A hA] : is_ok (matrix_a n l (window L) T Ti wl kp).
  rewrite /matrix_a (window_rows hL).1 (window_cols hL hf); destruct (Req_EM_T wl 0) as [h|h] => //; cbn [is_left].
  rewrite -[w_ng _]/(l_ng L) hn eqxx /=; have wng := window_ng hL hf.
  rewrite hq in rT rTi; case: rT => r1 r2; case: rTi => r3 r4.
  have [s -> _] := @order_lookupsE p l sl T (l_ng L) r1 r2 wng; cbn [bind].
  by have [s' -> _] := @order_lookupsE p l sl Ti (l_ng L) r3 r4 wng; cbn [bind]; eexists.
rewrite hA; cbn [bind]; apply/(sliced_defined (lattice_UV hU hV) C_two (expm_translations A hexp)) => j _.
have d0 : (0 <= d)%Re by case: absorbs => rects [].
have -> : RtoC d / 2%:R ^+ j = RtoC (d / 2 ^ j)%Re.
  have -> : 2%:R ^+ j = RtoC (2 ^ j)%Re.
    elim: j => [|j ih]; first by rewrite expr0.
    by rewrite exprS ih; apply: C_ext => /=; ring.
  have t0 := pow_nonzero 2 j; toC; apply: C_ext => /=; field; repeat split; try (apply: t0; lra).
rewrite (is_expmE _ hexp); apply: (lossy_defined wl0 hi hi r0 all hU hV); last exact: exp_unit.
apply: (operator_dissipates Lx0 Ly0 hL hf wl0 absorbs sl hn _ hd hT hTi hA).
by apply: Rmult_le_pos => //; apply/Rlt_le/Rinv_0_lt_compat/pow_lt; lra.
Qed.
End LayerDefined.

(** * Piles *)
Section Piles.
Variables (J1 : R -> R) (Lx Ly : R) (p : nat * nat) (ei ee : num) (L : lattice).
Hypotheses (Lx0 : (0 < Lx)%Re) (Ly0 : (0 < Ly)%Re) (hL : mk_lattice p (Lx, 0%Re) (0%Re, Ly) ei ee = Ok L) (hf : window_fits p).
Variables (n : nat) (expm : 'M[C]_((n + n) + (n + n)) -> 'M[C]_((n + n) + (n + n))).
Hypothesis hexp : is_expm expm.
Variables (wl : R) (kp : vec2).
Hypothesis wl0 : (0 < wl)%Re.
Variable recipes : string -> option recipe.
Hypothesis absorbs : forall layer r, recipes layer = Some r -> absorbing_recipe Lx Ly r.
Lemma pile_lossy stacking d name S : pile_at J1 expm p L wl kp recipes stacking d name S -> lossy L wl kp (l_incid L) S.
Proof.
case=> req hr hS; apply: (stack_kept (Q := lossy L wl kp (l_incid L)) _ _ hS) => [A B T|nm M e]; first exact: lossyM.
have := hr nm; have := absorbs (layer := nm); case: (recipes nm) => [[[[isl host] dp] pow]|] h; last by rewrite e.
rewrite e => -[_ [<-]]; exact: (layer_lossy Lx0 Ly0 hL hf hexp wl0 (h _ erefl)).
Qed.
Lemma closed_lossy stacking d name S : closed_at J1 expm p L wl kp recipes stacking d name S -> lossy L wl kp (l_emerg L) S.
Proof. case=> A [B [hA hB hm]]; exact: (lossyM (pile_lossy hA) (interface_lossy hB) hm). Qed.

(** Bloch waves. *)
Lemma loss_bloch stacking d name S w v V : pile_at J1 expm p L wl kp recipes stacking d name S ->
  eigenpair (scattering_splitlr S) w v -> lattice_Vi n L wl kp = Ok V ->
  ((0 < power (V *m v))%Re -> (Cmod w <= 1)%Re) /\ ((power (V *m v) < 0)%Re -> (1 <= Cmod w)%Re).
Proof.
move=> hS hv hV'; have [U [V' [E [hU hV hm hc _]]]] := pile_lossy hS; move: hV; rewrite -/(lattice_Vi n L wl kp) hV' => -[eV]; subst V'.
have UV := lattice_UV hU hV'; have [v0 e] := (bloch_eigen _ _ hm UV).1 hv; set y := V *m v in e *.
have sc : power (w *: (E *m y)) = (Cmod w * Cmod w * power (E *m y))%Re.
  rewrite !powerE -[RHS]/((Cmod w * Cmod w)%Re * _) mulr_sumr; apply: eq_bigr => g _.
  rewrite /order_flux /quarter_of !linearZ !mxE -[RHS]/(_ * _)%Re.
  have -> : (Cmod w * Cmod w = fst w * fst w + snd w * snd w)%Re.
    by rewrite /Cmod sqrt_sqrt; [ring|apply: Rplus_le_le_0_compat; exact: pow2_ge_0].
  by rewrite /=; ring.
have le : (power y <= power (E *m y))%Re by rewrite !powerE; exact: flux_dissipated.
rewrite -e in sc; have m0 := Cmod_ge_0 w; move: (power y) (power (E *m y)) (Cmod w) sc le m0 => x z m sc le m0.
split=> h.
  case: (Rle_dec m 1) => // /Rnot_le_lt h1; exfalso.
  have : (m * m * x <= x)%Re by rewrite {2}sc; apply: Rmult_le_compat_l; nra.
  by have := Rmult_lt_0_compat (m * m - 1) x; move=> /(_ ltac:(nra) h); lra.
case: (Rle_dec 1 m) => // /Rnot_le_lt h1; exfalso.
have : (m * m * x <= x)%Re by rewrite {2}sc; apply: Rmult_le_compat_l; nra.
by have := Rmult_lt_0_compat (1 - m * m) (- x); move=> /(_ ltac:(nra) ltac:(lra)); lra.
Qed.

(** Piles of absorbing layers can always be joined and closed. *)
Hypotheses (hn : n = l_ng L) (all : all_propagate n L wl kp).
Variables (r r' : R).
Hypotheses (hi : num_val (l_incid L) = RtoC r) (r0 : (0 < r)%Re) (he : num_val (l_emerg L) = RtoC r').
Lemma joined (S1 S2 : 'M[C]_((n + n) + (n + n))) eps x : num_val eps = RtoC x -> lossy L wl kp (l_incid L) S1 -> lossy L wl kp eps S2 -> is_ok (multS S1 S2).
Proof.
move=> hx [U [V [E [hU hV h1 c1 u1]]]] [U' [V' [E' [hU' hV' h2 c2 u2]]]].
move: hU'; rewrite hU => -[eU]; subst U'.
have VU : V *m U = 1%:M by apply: mulmx1C; exact: (lattice_UV hU hV).
rewrite -(matrix_s_mul h1 h2).
have -> : U *m E *m V *m (U *m E' *m V') = U *m (E *m E') *m V'.
  by rewrite !mulmxA -[_ *m V *m U]mulmxA VU mulmx1.
apply: (lossy_defined wl0 hi hx r0 all hU hV'); [exact: dissipatesM|by rewrite unitmx_mul u1 u2].
Qed.
Lemma interface_ok : num_val (l_emerg L) != 0 -> is_ok (lattice_U n L wl kp) -> is_ok (lattice_Ve n L wl kp) -> is_ok (scattering_interface n L wl kp).
Proof.
move=> e0 [U hU] [V hV]; rewrite /scattering_interface hU hV; cbn [bind]; rewrite /interface -[U]mulmx1.
by apply: (lossy_defined wl0 hi he r0 all hU hV); [exact: dissipates1|exact: unitmx1].
Qed.
End Piles.

(** * Currents and fluxes *)
Section Balance.
Variables (n : nat) (L : lattice) (wl : R) (kp : vec2) (S : 'M[C]_((n + n) + (n + n))).
Hypothesis hS : lossy L wl kp (l_emerg L) S.
Hypothesis wl0 : (0 < wl)%Re.
Variables (r r' : R).
Hypotheses (hi : num_val (l_incid L) = RtoC r) (he : num_val (l_emerg L) = RtoC r') (r0 : (0 < r)%Re).
Variable pin : 'cV[C]_((n + n) + (n + n)).
Hypothesis forward : dsubmx pin = 0.
Let pout := S *m pin.
Let ki (g : 'I_n) := compute_kz (l_incid L) wl kp (l_g L g).
Let ke (g : 'I_n) := compute_kz (l_emerg L) wl kp (l_g L g).
Hypothesis prop : forall g : 'I_n, snd (ki g) = 0%Re \/ (quarter_of pin 0 g 0 = 0 /\ quarter_of pin 1 g 0 = 0).
Hypothesis clear_i : clear_orders L (l_incid L) wl kp.
Hypothesis clear_e : clear_orders L (l_emerg L) wl kp.
Lemma loss_balance : ((\sum_g propagating (ki g) (two pout 2 3 g) : R) + (\sum_g propagating (ke g) (two pout 0 1 g) : R) <=
  (\sum_g propagating (ki g) (two pin 0 1 g) : R))%Re.
Proof.
have [U [Ve [E [hU hVe hm cE _]]]] := hS.
have [F [c [c0 e1 e2]]] := pile_flux (ex_intro _ U (ex_intro _ Ve (And3 hU hVe hm))) wl0 hi he r0 forward prop.
have := flux_dissipated cE F; rewrite e1 e2 => /(Rmult_le_reg_l _ _ _ c0) h.
have aux (x y z : R) : (x <= y - z)%Re -> (z + x <= y)%Re by move=> ?; lra.
exact: aux h.
Qed.
Lemma loss_currents js : (0 <= l_area L)%Re -> compute_currents pin pout L wl kp = Ok js -> let: (j1p, j1m, j3p) := js in
  exists q a b c : R, [/\ \sum_g j1p g = RtoC (q * a), \sum_g j1m g = RtoC (q * b), \sum_g j3p g = RtoC (q * c), (b + c <= a)%Re &
        [/\ (0 <= q)%Re, (0 <= a)%Re, (0 <= b)%Re & (0 <= c)%Re]].
Proof.
move=> area0 /(currents_form wl0 he clear_i clear_e); case: js => [[j1p j1m] j3p] [q eq [f1 f2 f3]].
have S0 (j : 'I_n -> C) (u : 'I_n -> R) : (forall g, j g = RtoC (q * u g)%Re) -> \sum_g j g = RtoC (q * (\sum_g u g : R))%Re.
  move=> e; rewrite (eq_bigr _ (fun g _ => e g)) -[(q * _)%Re]/(q * (\sum_g u g : R)) mulr_sumr.
  by apply: (big_rec2 (fun (x : C) (y : R) => x = RtoC y)) => [//|i y x _ ->]; apply: C_ext => //; exact: Rplus_0_r.
have P0 (u : 'I_n -> R) : (forall g, 0 <= u g)%Re -> (0 <= (\sum_g u g : R))%Re.
  by move=> e; apply: (big_ind (fun x : R => 0 <= x)%Re) => [|x y|i _]; [exact: Rle_refl|exact: Rplus_le_le_0_compat|exact: e].
have sq0 z : (0 <= sqmod z)%Re by rewrite /sqmod; exact: pow2_ge_0.
have p0 eps (g : 'I_n) P a b : (0 <= propagating (compute_kz eps wl kp (l_g L g)) (two P a b g))%Re.
  rewrite /propagating; destruct (Req_EM_T _ 0) as [h|h]; cbn [is_left]; last exact: Rle_refl.
  apply: Rmult_le_pos; first exact: (kz_pos wl0 h).
  by rewrite /two; have := sq0 (quarter_of P a g 0%R); have := sq0 (quarter_of P b g 0%R); lra.
have q0 : (0 <= q)%Re.
  rewrite eq; have m0 := mu0c_pos; have t0 := PI_RGT_0; apply: Rmult_le_pos => //; apply/Rlt_le/Rinv_0_lt_compat.
  by apply: Rmult_lt_0_compat; [rewrite /twopi; nra|exact: Rinv_0_lt_compat].
exists q, (\sum_g propagating (ki g) (two pin 0 1 g)), (\sum_g propagating (ki g) (two pout 2 3 g)), (\sum_g propagating (ke g) (two pout 0 1 g)).
split; [exact: S0 f1|exact: S0 f2|exact: S0 f3|exact: loss_balance|].
by split=> //; apply: P0 => g; exact: p0.
Qed.
Lemma loss_fluxes f kp' : (0 <= l_area L)%Re -> kp = (0%Re, 0%Re) -> compute_fluxes L wl pin pout kp' = Ok f ->
  [/\ (0 <= f.1.1)%Re, (0 <= f.1.2)%Re, (f.1.1 + f.1.2 <= 1)%Re & (0 <= f.2 <= 1)%Re].
Proof.
move=> area0 k0; rewrite /compute_fluxes -k0; case hj : (compute_currents _ _ _ _ _) => [[[j1p j1m] j3p]|//]; cbn [bind].
have [q [a [b [c [-> -> -> e [_ a0 b0 c0]]]]]] := loss_currents area0 hj.
case: eqP => // nz [<-] /=.
have qa : (q * a)%Re <> 0%Re by move=> z; apply: nz; rewrite z.
have q0 : q <> 0%Re by move=> z; apply: qa; rewrite z; ring.
have a1 : a <> 0%Re by move=> z; apply: qa; rewrite z; ring.
have ai : (0 < / a)%Re by apply: Rinv_0_lt_compat; lra.
have rat x : (0 <= x)%Re -> Cmod (RtoC (q * x) / RtoC (q * a)) = (x / a)%Re.
  move=> x0; have -> : RtoC (q * x) / RtoC (q * a) = RtoC (x / a) by toC; apply: C_ext => /=; field; repeat split => //; nra.
  by rewrite Cmod_R Rabs_pos_eq //; apply: Rmult_le_pos => //; lra.
have hb : (0 <= b / a)%Re by apply: Rmult_le_pos => //; lra.
have hc : (0 <= c / a)%Re by apply: Rmult_le_pos => //; lra.
have h : (b / a + c / a <= 1)%Re.
  have -> : (b / a + c / a = (b + c) * / a)%Re by field.
  have -> : (1 = a * / a)%Re by field.
  by apply: Rmult_le_compat_r => //; lra.
by rewrite !rat //; split; lra.
Qed.
End Balance.

(** * Statements *)
Section Statements.
Variables (J1 : R -> R) (Lx Ly : R) (p : nat * nat) (ei ee : num) (L : lattice).
Hypotheses (Lx0 : (0 < Lx)%Re) (Ly0 : (0 < Ly)%Re) (hL : mk_lattice p (Lx, 0%Re) (0%Re, Ly) ei ee = Ok L) (hf : window_fits p).
Variables (n : nat) (expm : 'M[C]_((n + n) + (n + n)) -> 'M[C]_((n + n) + (n + n))).
Hypothesis hexp : is_expm expm.
Variables (wl : R) (kp : vec2).
Hypothesis wl0 : (0 < wl)%Re.
Variables (r r' : R).
Hypotheses (hi : num_val ei = RtoC r) (r0 : (0 < r)%Re) (he : num_val ee = RtoC r').
Let mi : l_incid L = ei. Proof. by have [_ _ _ _ []] := mk_latticeE hL. Qed.
Let me : l_emerg L = ee. Proof. by have [_ _ _ _ []] := mk_latticeE hL. Qed.
Let area : (0 <= l_area L)%Re.
Proof. by have [_ _ _ _ [_ _ -> _ _]] := mk_latticeE hL; rewrite /unitcellarea; exact: Rabs_pos. Qed.
Section Absorbing.
Variable recipes : string -> option recipe.
Hypothesis absorbs : forall layer q, recipes layer = Some q -> absorbing_recipe Lx Ly q.
Variables (stacking : stackings) (d : nat) (name : string) (S : 'M[C]_((n + n) + (n + n))).
Hypothesis hS : closed_at J1 expm p L wl kp recipes stacking d name S.
Variable pin : 'cV[C]_((n + n) + (n + n)).
Hypothesis hp : from_left L wl kp pin.
Hypotheses (ci : clear_orders L ei wl kp) (ce : clear_orders L ee wl kp).
Lemma absorbed_currents j1p j1m j3p : compute_currents pin (S *m pin) L wl kp = Ok (j1p, j1m, j3p) ->
  [/\ snd (\sum_g j1p g) = 0%Re, snd (\sum_g j1m g) = 0%Re, snd (\sum_g j3p g) = 0%Re,
      (0 <= fst (\sum_g j1m g))%Re /\ (0 <= fst (\sum_g j3p g))%Re &
      (fst (\sum_g j1m g) + fst (\sum_g j3p g) <= fst (\sum_g j1p g))%Re].
Proof.
move: (hi) (he) (ci) (ce); rewrite -mi -me => hi' he' ci' ce'; case: hp => hd hq.
have lS := closed_lossy Lx0 Ly0 hL hf hexp wl0 absorbs hS.
case/(loss_currents lS wl0 hi' he' r0 hd hq ci' ce' area) => q [a [b [c [-> -> -> e [q0 a0 b0 c0]]]]].
split=> //=; [by split; exact: Rmult_le_pos|nra].
Qed.
Lemma absorbed_fluxes kp' f : kp = (0%Re, 0%Re) -> compute_fluxes L wl pin (S *m pin) kp' = Ok f ->
  [/\ (0 <= f.1.1)%Re, (0 <= f.1.2)%Re, (f.1.1 + f.1.2 <= 1)%Re & (0 <= f.2 <= 1)%Re].
Proof.
move: (hi) (he) (ci) (ce); rewrite -mi -me => hi' he' ci' ce'; case: hp => hd hq k0.
have lS := closed_lossy Lx0 Ly0 hL hf hexp wl0 absorbs hS.
exact: (loss_fluxes lS wl0 hi' he' r0 hd hq ci' ce' area k0).
Qed.
End Absorbing.
Hypotheses (p0 : (0 < p.1)%N) (hn : n = l_ng L) (all : all_propagate n L wl kp).
Section Defined.
Variables (recipes recipes' : string -> option recipe).
Hypothesis absorbs : forall layer q, recipes layer = Some q -> absorbing_recipe Lx Ly q.
Hypothesis absorbs' : forall layer q, recipes' layer = Some q -> absorbing_recipe Lx Ly q.
Variables (stacking stacking' : stackings) (d d' : nat) (name name' : string) (S S' : 'M[C]_((n + n) + (n + n))).
Hypothesis hS : pile_at J1 expm p L wl kp recipes stacking d name S.
Hypothesis hS' : pile_at J1 expm p L wl kp recipes' stacking' d' name' S'.
Lemma piles_join : is_ok (multS S S').
Proof.
move: (hi); rewrite -mi => hi'; have l1 := pile_lossy Lx0 Ly0 hL hf hexp wl0 absorbs hS.
have l2 := pile_lossy Lx0 Ly0 hL hf hexp wl0 absorbs' hS'; exact: (joined wl0 all hi' r0 hi' l1 l2).
Qed.
Lemma pile_closes : (0 < r')%Re -> exists T, closed_at J1 expm p L wl kp recipes stacking d name T.
Proof.
move=> r0'; move: (hi) (he); rewrite -mi -me => hi' he'; have l1 := pile_lossy Lx0 Ly0 hL hf hexp wl0 absorbs hS.
have e0 : num_val (l_emerg L) != 0 by rewrite he'; apply/eqP => /(congr1 fst) /=; lra.
have [U [_ [_ [hU _ _ _ _]]]] := l1.
have hs : has_sqrt (l_emerg L) by move: he'; case: (l_emerg L) => //= y /(congr1 fst) /= ->; lra.
have [V hV] := lattice_V_def kp hn (Rgt_not_eq _ _ wl0) e0 hs.
have [B hB] : is_ok (scattering_interface n L wl kp).
  by apply: (interface_ok wl0 all hi' r0 he' e0); [exists U|exists V].
have [T hT] := joined wl0 all hi' r0 he' l1 (interface_lossy hB).
by exists T, S, B.
Qed.
End Defined.
End Statements.

(** * An absorbing rectangle *)
Definition grey : recipe := ([:: (Rectangle 0 0 (/ 2) 1, (2%Re, 1%Re))], (1%Re, (/ 2)%Re), 1%Re, 2%N).
Definition grey_layer (name : string) : option recipe := if String.eqb name "grey" then Some grey else None.
Lemma grey_absorbs layer q : grey_layer layer = Some q -> absorbing_recipe 1 1 q.
Proof.
rewrite /grey_layer; case: (String.eqb layer "grey") => // -[<-]; exists [:: ((0%Re, 0%Re, (/ 2)%Re, 1%Re), (2%Re, 1%Re))]; split=> //=; try lra.
  by move=> q' [<-|[]] /=; have := PI2_3_2; rewrite /wide; repeat split; lra.
Qed.
Lemma grey_example J1 kp' : exists L S f, let expm := @mexp ((1 + 1) + (1 + 1)) in let kp := (0%Re, 0%Re) in let wl := 2%Re in
  [/\ mk_lattice (1, 1)%N (1%Re, 0%Re) (0%Re, 1%Re) (Float 1) (Float 4) = Ok L,
      closed_at J1 expm (1, 1)%N L wl kp grey_layer [::] 1 "grey" S, from_left L wl kp unit_wave,
      [/\ clear_orders L (Float 1) wl kp, clear_orders L (Float 4) wl kp & all_propagate 1 L wl kp] &
      compute_fluxes L wl unit_wave (S *m unit_wave) kp' = Ok f].
Proof.
have [L hL] := @mk_lattice_ok (1, 1)%N (Float 1) (Float 4) erefl.
have hexp : is_expm (@mexp ((1 + 1) + (1 + 1))) by exact: mexpP.
have fits : window_fits (1, 1)%N by left.
have p0 := PI_RGT_0; have t0 : (0 < 2)%Re by lra.
have one0 : (0 < 1)%Re by lra.
have [mi me] := one_media hL.
have e1 : (1 * (2 * PI / 2) ^ 2 - (0 ^ 2 + 0 ^ 2) = PI * PI)%Re by field.
have e4 : (4 * (2 * PI / 2) ^ 2 - (0 ^ 2 + 0 ^ 2) = (2 * PI) * (2 * PI))%Re by field.
have all : all_propagate 1 L 2 (0%Re, 0%Re).
  move=> g; rewrite (ord1 g) (one_g hL) mi (@kz_value (Float 1) 1 2 (0%Re, 0%Re) (0%Re, 0%Re) PI erefl) /=; [split=> //; lra|lra|].
  by rewrite !Rplus_0_r.
have [A hA] : is_ok (scattering_matrix_islands J1 (@mexp ((1 + 1) + (1 + 1))) (1, 1)%N L grey.1.1.1 grey.1.1.2 2 (0%Re, 0%Re) grey.1.2 grey.2).
  apply: (layer_ok J1 one0 one0 hL fits hexp t0 _ _ _ _ all (r := 1%Re)) => //; [exact: (grey_absorbs (layer := "grey"))| |by rewrite (one_ng hL)|by rewrite mi].
  split; first by apply/eqP => /(congr1 fst) /=; lra.
  by move=> s e /= [[_ <-]|[]]; apply/eqP => /(congr1 fst) /=; lra.
have hS : pile_at J1 (@mexp ((1 + 1) + (1 + 1))) (1, 1)%N L 2 (0%Re, 0%Re) grey_layer [::] 1 "grey" A.
  exists (fun name => if String.eqb name "grey" then Some A else None); last by [].
  by move=> name; rewrite /grey_layer; case: (String.eqb name "grey") => //; exists A.
have [T hT] := pile_closes one0 one0 hL fits hexp t0 (r := 1%Re) (r' := 4%Re) erefl one0 erefl (esym (one_ng hL)) all grey_absorbs hS ltac:(lra).
have [f hf] := @one_fluxes_ok (Float 1) (Float 4) L 1%Re 2%Re (T *m unit_wave) kp' hL erefl one0 t0.
exists L, T, f; split=> //.
  by apply: (one_from_left (x := 1%Re) (s := PI) hL) => //; lra.
by split; [apply: (one_clear (x := 1%Re) (s := PI) hL)|apply: (one_clear (x := 4%Re) (s := (2 * PI)%Re) hL)|exact: all] => //; lra.
Qed.

(** * Bloch waves of a grey medium *)
Lemma csqrt_34 : csqrt (3%Re, 4%Re) = (2%Re, 1%Re).
Proof.
have m5 : Cmod (3%Re, 4%Re) = 5%Re.
  rewrite /Cmod; cbn [fst snd]; have -> : (3 ^ 2 + 4 ^ 2 = 5 * 5)%Re by ring.
  by rewrite sqrt_square //; lra.
rewrite /csqrt m5; cbn [fst snd].
have -> : ((5 + 3) / 2 = 2 * 2)%Re by field.
have -> : ((5 - 3) / 2 = 1 * 1)%Re by field.
destruct (Rlt_dec 4 0) as [h|h]; first by exfalso; lra.
by rewrite !sqrt_square //; lra.
Qed.
Definition ink : num := Complex (3%Re, 4%Re).
Definition ink_layer (name : string) : option recipe := if String.eqb name "ink" then Some ([::], (3%Re, 4%Re), 1%Re, 2%N) else None.
Lemma ink_absorbs layer q : ink_layer layer = Some q -> absorbing_recipe 1 1 q.
Proof.
rewrite /ink_layer; case: (String.eqb layer "ink") => // -[<-]; exists [::]; split=> //=; lra.
Qed.
Lemma ink_example J1 : exists L S V w v, let expm := @mexp ((1 + 1) + (1 + 1)) in let kp := (0%Re, 0%Re) in let wl := (2 * PI)%Re in
  [/\ mk_lattice (1, 1)%N (1%Re, 0%Re) (0%Re, 1%Re) ink ink = Ok L,
      pile_at J1 expm (1, 1)%N L wl kp ink_layer [::] 1 "ink" S, eigenpair (scattering_splitlr S) w v,
      lattice_Vi 1 L wl kp = Ok V & (0 < power (V *m v))%Re /\ (Cmod w < 1)%Re].
Proof.
have [L hL] := @mk_lattice_ok (1, 1)%N ink ink erefl.
have p0 := PI_RGT_0; have mi := (one_media hL).1.
have fits : window_fits (1, 1)%N by left.
have hexp : is_expm (@mexp ((1 + 1) + (1 + 1))) by exact: mexpP.
have nt := one_not_tiny hL.
have kz (g : 'I_1) : compute_kz (l_incid L) (2 * PI) (0%Re, 0%Re) (l_g L g) = (2%Re, 1%Re).
  rewrite (ord1 g) (one_g hL) mi /compute_kz unorm2.
  have -> : num_val ink * RtoC ((twopi / (2 * PI)) ^ 2)%Re - RtoC (((0%Re, 0%Re).1 + (0%Re, 0%Re).1) ^ 2 + ((0%Re, 0%Re).2 + (0%Re, 0%Re).2) ^ 2)%Re = (3%Re, 4%Re).
    have -> : (twopi / (2 * PI) = 1)%Re by rewrite /twopi; field; lra.
    by apply: C_ext; rewrite /=; ring.
  rewrite csqrt_34; cbn [fst snd]; destruct (Rlt_dec 1 0) as [h|h]; first by exfalso; lra.
  destruct (Rle_dec (Rabs 1) (1 / 10 ^ 8)) as [h1|h1] => //=; destruct (Rlt_dec 2 0) as [h2|h2] => //; exfalso; lra.
have e0 : num_val (l_incid L) != 0 by rewrite mi /=; apply/eqP => /(congr1 fst) /=; lra.
have hh : (3%Re, 4%Re) = num_val (l_incid L) by rewrite mi.
have [A hA] : is_ok (@scattering_matrix_islands J1 1 (@mexp _) (1, 1)%N L [::] (3%Re, 4%Re) (2 * PI) (0%Re, 0%Re) 1 2).
  rewrite hh; apply: (@homogeneous_layer_ok J1 _ _ _ _ _ L 1 (@mexp _) (2 * PI) (0%Re, 0%Re) 1 2 hL fits (expm_exponential hexp) nt) => //.
  + by rewrite (one_ng hL).
  + lra.
  + by rewrite mi.
  + move=> g; rewrite (one_ng hL); case: g => // _ e; have := compute_kz2 (l_incid L) (2 * PI) (0%Re, 0%Re) (l_g L 0); rewrite e subrr (kz ord0) => /(congr1 snd) /=; lra.
set z : C := cexp (ci * (2%Re, 1%Re) * RtoC 1).
have eA : A = z%:M.
  rewrite (@homogeneous_layer J1 _ _ _ _ _ L 1 (@mexp _) [::] (3%Re, 4%Re) (2 * PI) (0%Re, 0%Re) 1 2 A hL fits (expm_exponential hexp) nt erefl hh hA).
  have -> : (fun g : 'I_1 => cexp (ci * compute_kz (l_incid L) (2 * PI) (0%Re, 0%Re) (l_g L g) * RtoC 1)) = fun=> z.
    by apply: functional_extensionality => g; rewrite kz.
  rewrite /each_order; have -> : (\row_(g < 1) z) = const_mx z by apply/rowP => g; rewrite !mxE.
  by rewrite !row_mx_const diag_const_mx.
have hs : has_sqrt (l_incid L) by rewrite mi.
have [V hV] := lattice_V_def (0%Re, 0%Re) (esym (one_ng hL)) (Rgt_not_eq (2 * PI) 0 ltac:(lra)) e0 hs.
exists L, A, V, z, (col_mx (const_mx 1) 0); split=> //.
- exists (fun name => if String.eqb name "ink" then Some A else None); last by [].
  by move=> name; rewrite /ink_layer; case: (String.eqb name "ink") => //; exists A.
- by rewrite eA; exact: scalar_bloch.
split.
  rewrite powerE big_ord1 /order_flux; set v := col_mx _ _.
  have [-> -> -> ->] := medium_fields hV v (ord0 : 'I_1).
  have q a : quarter_of v a (ord0 : 'I_1) 0 = match a with 0 | 1 => 1 | _ => 0 end.
    by rewrite /quarter_of /v; case: a => [|[|[|a]]]; rewrite ?(col_mxKu, col_mxKd) !mxE.
  rewrite !q kz mi (_ : cmath_sqrt ink = (2%Re, 1%Re)); last exact: csqrt_34.
  set f := (_ / (_ / _)); have -> : f = 1.
    rewrite /f -mulrA (_ : RtoC twopi / RtoC (2 * PI) = 1); first by rewrite mulr1 divff //; apply/eqP => /(congr1 fst) /=; lra.
    by rewrite /twopi; apply: divff; apply/eqP => /(congr1 fst) /=; lra.
  have := udir_unit (0%Re, 0%Re) (l_g L (ord0 : 'I_1)); move: (udir _ _) => u hu.
  have i0 := Rinv_0_lt_compat _ mu0c_pos; have m0 := mu0c_pos.
  set h := (_ / RtoC mu0c); have -> : h = ((2 * / mu0c)%Re, (/ mu0c)%Re).
    by rewrite /h; toC; apply: C_ext => /=; field; lra.
  move: (/ mu0c)%Re i0 => m i0; move: u.1 u.2 hu => x y hu /=; nra.
have -> : Cmod z = exp (-1).
  have -> : z = (exp (-1) * cos 2, exp (-1) * sin 2)%Re.
    by rewrite /z /cexp /=; f_equal; f_equal; f_equal; ring.
  rewrite /Cmod; cbn [fst snd].
  have -> : ((exp (-1) * cos 2) ^ 2 + (exp (-1) * sin 2) ^ 2 = exp (-1) * exp (-1) * ((sin 2)² + (cos 2)²))%Re by rewrite /Rsqr; ring.
  by rewrite sin2_cos2 Rmult_1_r sqrt_square //; exact/Rlt_le/exp_pos.
by have := exp_increasing (-1) 0; rewrite exp_0; apply; lra.
Qed.
