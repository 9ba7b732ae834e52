(** Proofs about the reciprocity of piles of layers (T-matrix API). *)
From Coq Require Import Reals ZArith String Lra Lia FunctionalExtensionality.
From mathcomp Require Import all_ssreflect all_algebra.
From Coquelicot Require Import Complex.
From Verif Require Import Base CField RField CFun ModelRedheffer RedhefferProofs ModelExpansion ModelFourier Blk ModelTmat SpecTmat TmatProofs
  ModelLattice SpecLattice LatticeProofs LookupProofs CurrentProofs FourierProofs SpecExp ExpProofs TmatTheorems
  ModelEz TmatEnergyProofs TmatExamples SpecBloch BlochProofs.
Set Implicit Arguments. Unset Strict Implicit. Unset Printing Implicit Defensive.
Import GRing.Theory.
Local Open Scope ring_scope.

Lemma lorentz_sum n (F F' : 'cV[C]_((n + n) + (n + n))) : (F^T *m lorentz n *m F') 0 0 =
  \sum_g ((quarter_of F 0 g 0 * quarter_of F' 3 (rev_ord g) 0 - quarter_of F 1 g 0 * quarter_of F' 2 (rev_ord g) 0) +
          (quarter_of F 2 g 0 * quarter_of F' 1 (rev_ord g) 0 - quarter_of F 3 g 0 * quarter_of F' 0 (rev_ord g) 0)).
Proof.
rewrite -mulmxA.
pose f0 := quarter_of F 0; pose f1 := quarter_of F 1; pose f2 := quarter_of F 2; pose f3 := quarter_of F 3.
pose h0 := quarter_of F' 0; pose h1 := quarter_of F' 1; pose h2 := quarter_of F' 2; pose h3 := quarter_of F' 3.
rewrite -/f0 -/f1 -/f2 -/f3 -/h0 -/h1 -/h2 -/h3.
have -> : F = col_mx (col_mx f0 f1) (col_mx f2 f3) by rewrite !vsubmxK.
have -> : F' = col_mx (col_mx h0 h1) (col_mx h2 h3) by rewrite !vsubmxK.
have -> : lorentz n *m col_mx (col_mx h0 h1) (col_mx h2 h3) =
   col_mx (col_mx (revm n *m h3) (- (revm n *m h2))) (col_mx (revm n *m h1) (- (revm n *m h0))).
  by rewrite /lorentz /quad !mul_block_col !(mul0mx, mulNmx, add_col_mx, add0r, addr0).
rewrite !tr_col_mx !mul_row_col.
have d (u v : 'cV[C]_n) : (u^T *m (revm n *m v)) 0 0 = \sum_g u g 0 * v (rev_ord g) 0.
  by rewrite mxE; apply: eq_bigr => g _; rewrite revm_l mxE.
have d' (u v : 'cV[C]_n) : (u^T *m - (revm n *m v)) 0 0 = \sum_g - (u g 0 * v (rev_ord g) 0).
  by rewrite mulmxN mxE d sumrN.
have ad (x y : 'M[C]_1) : (x + y) 0 0 = x 0 0 + y 0 0 by rewrite mxE.
by rewrite !ad !d !d' -!big_split.
Qed.

(** * The fields of the waves of one medium *)
Section Medium.
Variables (n : nat) (L : lattice) (wl : R) (kp : vec2) (eps : num) (V : 'M[C]_((n + n) + (n + n))).
Hypothesis hV : lattice_V n L eps wl kp = Ok V.
Lemma medium_fields (P : 'cV[C]_((n + n) + (n + n))) (g : 'I_n) : let p a := quarter_of P a g 0 in
  let X := RtoC (udir kp (l_g L g)).1 in let Y := RtoC (udir kp (l_g L g)).2 in
  let f := compute_kz eps wl kp (l_g L g) / (cmath_sqrt eps * RtoC twopi / RtoC wl) in let h := cmath_sqrt eps / RtoC mu0c in
  [/\ quarter_of (V *m P) 0 g 0 = Y * (p 0%N + p 2%N) + X * (f * (p 3%N - p 1%N)),
      quarter_of (V *m P) 1 g 0 = - X * (p 0%N + p 2%N) + Y * (f * (p 3%N - p 1%N)),
      quarter_of (V *m P) 2 g 0 = X * (h * f * (p 0%N - p 2%N)) + Y * (h * (p 1%N + p 3%N)) &
      quarter_of (V *m P) 3 g 0 = Y * (h * f * (p 0%N - p 2%N)) - X * (h * (p 1%N + p 3%N))].
Proof.
move=> p X Y f h; have [hn w0 e0 hv] := lattice_VE hV.
move: hv; rewrite /matrix_v; case hs : (np_sqrt _) => [s|//]; cbn [bind] => -[<-]; rewrite (np_sqrtE hs) {hs s}.
have e2 : RtoC (- (udir kp (l_g L g)).1)%Re = - RtoC (udir kp (l_g L g)).1 by apply: C_ext => /=; ring.
rewrite -/X -/Y in e2; set V' := quad _.
have kk : compute_kz eps wl kp (l_g L g) / (cmath_sqrt eps * RtoC twopi / RtoC wl) = f by [].
split; rewrite quad_quarters //= /etaf /= -?/h ?kk -?/X -?/Y ?e2; rewrite /p /quarter_of; toC; ring.
Qed.
End Medium.
Lemma index_field eps wl (K : C) : wl <> 0%Re -> num_val eps != 0 ->
  cmath_sqrt eps / RtoC mu0c * (K / (cmath_sqrt eps * RtoC twopi / RtoC wl)) = K * (RtoC wl / (RtoC mu0c * RtoC twopi)).
Proof.
move=> w0 e0; have n10 : cmath_sqrt eps != 0 by exact: cmath_sqrt_neq0.
have m0 := mu0c_neq0; have tp : twopi <> 0%Re by rewrite /twopi; have := PI_RGT_0; lra.
have c1 : RtoC mu0c <> 0 by move=> /(congr1 fst).
have c2 : RtoC wl <> 0 by move=> /(congr1 fst).
have c3 : RtoC twopi <> 0 by move=> /(congr1 fst).
by move/eqP: n10 => n10; toC; field.
Qed.

Definition wofi {n} (W : bool -> 'I_n -> C) (i : 'I_(n + n)) : C := match split i with inl g => W false g | inr g => W true g end.
Definition revw {n} (i : 'I_(n + n)) : 'I_(n + n) := match split i with inl g => lshift n (rev_ord g) | inr g => rshift n (rev_ord g) end.
Definition form {n} (W : bool -> 'I_n -> C) (u u' : 'cV[C]_(n + n)) : C := \sum_i wofi W i * u i 0 * u' (revw i) 0.
Lemma split_l n (g : 'I_n) : split (lshift n g) = inl g.
Proof. exact: (unsplitK (inl _ g)). Qed.
Lemma split_r n (g : 'I_n) : split (rshift n g) = inr g.
Proof. exact: (unsplitK (inr _ g)). Qed.
Lemma revw_wave n a (g : 'I_n) : revw (wave a g) = wave a (rev_ord g).
Proof. by rewrite /revw; case: a; rewrite /= ?split_l ?split_r. Qed.
Lemma wofi_wave n W a (g : 'I_n) : wofi W (wave a g) = W a g.
Proof. by rewrite /wofi; case: a; rewrite /= ?split_l ?split_r. Qed.
Lemma revwK n : involutive (@revw n).
Proof.
move=> i; rewrite /revw; case e : (split i) => [g|g]; rewrite ?split_l ?split_r rev_ordK -[i]splitK e //.
Qed.
Lemma form_r n W (u : 'cV[C]_(n + n)) k : form W u (delta_mx k 0) = wofi W (revw k) * u (revw k) 0.
Proof.
rewrite /form (bigD1 (revw k)) //= mxE revwK !eqxx mulr1 big1 ?addr0 // => i hi.
rewrite mxE; case: eqP => [e|_]; last by rewrite mulr0.
by case/eqP: hi; rewrite -e revwK.
Qed.
Lemma form_l n W (u : 'cV[C]_(n + n)) k : form W (delta_mx k 0) u = wofi W k * u (revw k) 0.
Proof.
rewrite /form (bigD1 k) //= mxE !eqxx mulr1 big1 ?addr0 // => i hi.
by rewrite mxE (negbTE hi) mulr0 mul0r.
Qed.
Lemma form_0l n W (u : 'cV[C]_(n + n)) : form W 0 u = 0.
Proof. by rewrite /form big1 // => i _; rewrite mxE mulr0 mul0r. Qed.
Lemma form_0r n W (u : 'cV[C]_(n + n)) : form W u 0 = 0.
Proof. by rewrite /form big1 // => i _; rewrite mxE mulr0. Qed.

(** * The waves of one medium for opposite wavevectors *)
Lemma form_split n W (u u' : 'cV[C]_(n + n)) : form W u u' =
  \sum_g (W false g * usubmx u g 0 * usubmx u' (rev_ord g) 0 + W true g * dsubmx u g 0 * dsubmx u' (rev_ord g) 0).
Proof.
rewrite /form big_split_ord big_split /=; congr (_ + _); apply: eq_bigr => g _;
  by rewrite /wofi /revw ?split_l ?split_r !mxE.
Qed.
Section Opposite.
Variables (p : nat * nat) (a1 a2 : vec2) (ei ee : num) (L : lattice).
Hypothesis hL : mk_lattice p a1 a2 ei ee = Ok L.
Hypothesis hf : window_fits p.
Hypothesis hp : odd p.1.
Variables (n : nat) (wl : R) (kp : vec2).
Hypothesis hn : n = (p.1 * p.2)%N.
Let sgn (g : 'I_n) : R := if Rlt_dec (unorm kp (l_g L g) ^ 2) float_eps then 1%Re else (-1)%Re.
Lemma opposite_u (g : 'I_n) : uvec (opposite kp) (l_g L (rev_ord g)) = ((- (uvec kp (l_g L g)).1)%Re, (- (uvec kp (l_g L g)).2)%Re).
Proof. by rewrite /l_g (window_reversed hL hp g hn) /uvec /=; congr (_, _); ring. Qed.
Lemma opposite_norm (g : 'I_n) : unorm (opposite kp) (l_g L (rev_ord g)) = unorm kp (l_g L g).
Proof. by rewrite /unorm opposite_u /=; congr sqrt; ring. Qed.
Lemma opposite_kz eps (g : 'I_n) : compute_kz eps wl (opposite kp) (l_g L (rev_ord g)) = compute_kz eps wl kp (l_g L g).
Proof. by rewrite /compute_kz opposite_norm. Qed.
Lemma opposite_dir (g : 'I_n) : udir (opposite kp) (l_g L (rev_ord g)) = ((sgn g * (udir kp (l_g L g)).1)%Re, (sgn g * (udir kp (l_g L g)).2)%Re).
Proof.
rewrite /udir opposite_norm opposite_u /sgn; destruct (Rlt_dec (unorm kp (l_g L g) ^ 2) float_eps) as [h|h]; cbn [is_left] => /=.
  by congr (_, _); ring.
by congr (_, _); rewrite /Rdiv; ring.
Qed.
Lemma weightE eps pol (g : 'I_n) : weight L eps wl kp pol g = (if pol then -1 else 1) * RtoC (sgn g) * compute_kz eps wl kp (l_g L g).
Proof.
rewrite /weight /sgn unorm2 /uvec -/float_eps /=; congr (_ * _ * _).
destruct (Rlt_dec _ _) as [h|h]; cbn [is_left] => //; by apply: C_ext => /=; ring.
Qed.
Variables (eps : num) (V V' : 'M[C]_((n + n) + (n + n))).
Hypotheses (hV : lattice_V n L eps wl kp = Ok V) (hV' : lattice_V n L eps wl (opposite kp) = Ok V').
Let W := weight L eps wl kp (n := n).
Let c : C := RtoC 2 * (RtoC wl / (RtoC mu0c * RtoC twopi)).
Lemma medium_lorentz P P' : ((V *m P)^T *m lorentz n *m (V' *m P')) 0 0 =
  c * (form W (dsubmx P) (usubmx P') - form W (usubmx P) (dsubmx P')).
Proof.
have [_ w0 e0 _] := lattice_VE hV.
rewrite lorentz_sum !form_split -sumrB mulr_sumr; apply: eq_bigr => g _.
have [-> -> -> ->] := medium_fields hV P g; have [-> -> -> ->] := medium_fields hV' P' (rev_ord g).
rewrite opposite_dir opposite_kz /W !weightE.
have es (x : R) : RtoC (sgn g * x)%Re = RtoC (sgn g) * RtoC x by apply: C_ext => /=; ring.
cbn [fst snd]; rewrite !es.
have e3 : RtoC (udir kp (l_g L g)).1 * RtoC (udir kp (l_g L g)).1 = 1 - RtoC (udir kp (l_g L g)).2 * RtoC (udir kp (l_g L g)).2.
  by apply: C_ext => /=; have := udir_unit kp (l_g L g); lra.
have hfK : cmath_sqrt eps / RtoC mu0c * (compute_kz eps wl kp (l_g L g) / (cmath_sqrt eps * RtoC twopi / RtoC wl)) =
  compute_kz eps wl kp (l_g L g) * (RtoC wl / (RtoC mu0c * RtoC twopi)) by exact: index_field.
rewrite /c; set q := RtoC wl / (_ * _) in hfK *; set f := compute_kz eps wl kp (l_g L g) / _ in hfK *.
set h := cmath_sqrt eps / _ in hfK *; set K := compute_kz _ _ _ _ in f hfK *; clearbody q f h.
move: (RtoC (udir kp (l_g L g)).1) (RtoC (udir kp (l_g L g)).2) e3 => X Y e3; set s := RtoC (sgn g).
have e4 : RtoC 2 = 1 + 1 by apply: C_ext => /=; ring.
rewrite e4 /quarter_of.
move: (usubmx (usubmx P) g 0) (dsubmx (usubmx P) g 0) (usubmx (dsubmx P) g 0) (dsubmx (dsubmx P) g 0) => p0 p1 p2 p3.
move: (usubmx (usubmx P') _ 0) (dsubmx (usubmx P') _ 0) (usubmx (dsubmx P') _ 0) (dsubmx (dsubmx P') _ 0) => q0 q1 q2 q3.
have -> : (1 + 1) * q * (1 * s * K * p2 * q0 + -1 * s * K * p3 * q1 - (1 * s * K * p0 * q2 + -1 * s * K * p1 * q3)) =
  (1 + 1) * s * (h * f) * (p2 * q0 - p3 * q1 - (p0 * q2 - p1 * q3)) by rewrite hfK; toC; ring.
have e5 : Cmult X X = Cminus (RtoC 1) (Cmult Y Y) by exact: e3.
by clear e3 hfK; toC; ring [e5].
Qed.
Lemma c_neq0 : c != 0.
Proof.
have [_ w0 _ _] := lattice_VE hV; have m0 := mu0c_neq0; have tp : twopi <> 0%Re by rewrite /twopi; have := PI_RGT_0; lra.
rewrite /c !mulf_neq0 ?invr_neq0 ?mulf_neq0 //; apply/eqP => /(congr1 fst) //=; lra.
Qed.
End Opposite.

(** * Piles closed by the interface *)
Section Closed.
Variables (p : nat * nat) (a1 a2 : vec2) (ei ee : num) (L : lattice).
Hypothesis hL : mk_lattice p a1 a2 ei ee = Ok L.
Hypothesis hf : window_fits p.
Hypothesis hp : odd p.1.
Variables (J1 : R -> R) (n : nat) (expm : 'M[C]_((n + n) + (n + n)) -> 'M[C]_((n + n) + (n + n))).
Hypothesis hexp : is_expm expm.
Variables (wl : R) (kp : vec2) (recipes : string -> option recipe) (stacking : stackings) (d : nat) (name : string).
Variables (S S' : 'M[C]_((n + n) + (n + n))).
Hypothesis hS : closed_at J1 expm p L wl kp recipes stacking d name S.
Hypothesis hS' : closed_at J1 expm p L wl (opposite kp) recipes stacking d name S'.
Let Wi := weight L (l_incid L) wl kp (n := n).
Let We := weight L (l_emerg L) wl kp (n := n).
Lemma interfaceE k (B : 'M[C]_((n + n) + (n + n))) : scattering_interface n L wl k = Ok B ->
  exists U V, [/\ lattice_U n L wl k = Ok U, lattice_Ve n L wl k = Ok V & matrix_s (U *m V) = Ok B].
Proof.
rewrite /scattering_interface; case hU : (lattice_U _ _ _ _) => [U|//]; cbn [bind].
by case hV : (lattice_Ve _ _ _ _) => [V|//]; cbn [bind]; rewrite /interface => hm; exists U, V.
Qed.
Lemma closed_lorentz lp lm rp rm lp' lm' rp' rm' : tscatters S lp lm rp rm -> tscatters S' lp' lm' rp' rm' ->
  form Wi lm lp' - form Wi lp lm' = form We rm rp' - form We rp rm'.
Proof.
have [A [B [hA hB hm]]] := hS; have [A' [B' [hA' hB' hm']]] := hS'.
have [U [V [E [U' [V' [E' [[hU hV mA] [hU' hV' mA' hE]]]]]]]] := pile_opposed hL hf hp hexp hA hA'.
have [X [Ve [hX hVe mB]]] := interfaceE hB; have [X' [Ve' [hX' hVe' mB']]] := interfaceE hB'.
move: hX hX'; rewrite hU hU' => -[e1] [e2]; subst X X'.
have hn : n = (p.1 * p.2)%N by have [e _ _ _ _] := lattice_UE hU; rewrite [LHS]e (window_ng hL hf).
have VU := mulmx1C (lattice_UV hU hV); have VU' := mulmx1C (lattice_UV hU' hV').
have mS : matrix_s (U *m E *m Ve) = Ok S.
  rewrite -hm -(matrix_s_mul mA mB); congr matrix_s; by rewrite !mulmxA -[_ *m V *m U]mulmxA VU mulmx1.
have mS' : matrix_s (U' *m E' *m Ve') = Ok S'.
  rewrite -hm' -(matrix_s_mul mA' mB'); congr matrix_s; by rewrite !mulmxA -[_ *m V' *m U']mulmxA VU' mulmx1.
move=> /(matrix_s_meaning _ _ _ _ mS) t /(matrix_s_meaning _ _ _ _ mS') t'.
have {}t : V *m col_mx lp lm = E *m (Ve *m col_mx rp rm) by rewrite t !mulmxA VU mul1mx.
have {}t' : V' *m col_mx lp' lm' = E' *m (Ve' *m col_mx rp' rm') by rewrite t' !mulmxA VU' mul1mx.
have fl := medium_lorentz hL hp hn hV hV' (col_mx lp lm) (col_mx lp' lm').
have fr := medium_lorentz hL hp hn hVe hVe' (col_mx rp rm) (col_mx rp' rm').
rewrite !(col_mxKu, col_mxKd) in fl fr.
apply: (mulfI (c_neq0 hV)); rewrite -/Wi -/We in fl fr; rewrite -fl -fr t t'.
by rewrite trmx_mul !mulmxA -[_ *m E^T *m _ *m E']mulmxA -[_ *m E^T *m _]mulmxA [E^T *m _]mulmxA hE.
Qed.
Lemma block_scatters (M : 'M[C]_((n + n) + (n + n))) lp rm :
  tscatters M lp (dlsubmx M *m lp + drsubmx M *m rm) (ulsubmx M *m lp + ursubmx M *m rm) rm.
Proof. by rewrite /tscatters -{5}[M]submxK mul_block_col. Qed.
Lemma col_entry (m : nat) (M : 'M[C]_m) i j : (M *m delta_mx j (0 : 'I_1)) i 0 = M i j.
Proof. by rewrite -colE mxE. Qed.
Lemma pile_reflection a b (g h : 'I_n) :
  Wi a g * dlsubmx S (wave a g) (wave b h) = Wi b h * dlsubmx S' (wave b (rev_ord h)) (wave a (rev_ord g)).
Proof.
have := closed_lorentz (block_scatters S (delta_mx (wave b h) 0) 0) (block_scatters S' (delta_mx (wave a (rev_ord g)) 0) 0).
rewrite !mulmx0 !addr0 form_r form_l form_0l form_0r subr0 !revw_wave rev_ordK !wofi_wave !col_entry => /eqP.
by rewrite subr_eq0 => /eqP.
Qed.
Lemma pile_back_reflection a b (g h : 'I_n) :
  We a g * ursubmx S (wave a g) (wave b h) = We b h * ursubmx S' (wave b (rev_ord h)) (wave a (rev_ord g)).
Proof.
have := closed_lorentz (block_scatters S 0 (delta_mx (wave b h) 0)) (block_scatters S' 0 (delta_mx (wave a (rev_ord g)) 0)).
rewrite !mulmx0 !add0r form_r form_l form_0l form_0r subr0 !revw_wave rev_ordK !wofi_wave !col_entry => /esym /eqP.
by rewrite subr_eq0 => /eqP ->.
Qed.
Lemma pile_transmission a b (g h : 'I_n) :
  We a g * ulsubmx S (wave a g) (wave b h) = Wi b h * drsubmx S' (wave b (rev_ord h)) (wave a (rev_ord g)).
Proof.
have := closed_lorentz (block_scatters S (delta_mx (wave b h) 0) 0) (block_scatters S' 0 (delta_mx (wave a (rev_ord g)) 0)).
rewrite !mulmx0 !add0r !addr0 form_r form_l form_0l form_0r !sub0r !revw_wave rev_ordK !wofi_wave !col_entry.
by move/oppr_inj.
Qed.
Lemma pile_specular a (g : 'I_n) : rev_ord g = g -> dlsubmx S (wave a g) (wave a g) = dlsubmx S' (wave a g) (wave a g).
Proof.
move=> e; have := pile_reflection a a g g; rewrite e; apply: mulfI.
have [A [B [_ /interfaceE [U [V [hU _ _]]] _]]] := hS; have [_ _ _ k0 _] := lattice_UE hU.
rewrite /Wi weightE mulf_neq0 ?(k0 g) // mulf_neq0 //.
  by case: a; apply/eqP => /(congr1 fst) /=; lra.
by destruct (Rlt_dec _ _) as [h|h]; cbn [is_left]; apply/eqP => /(congr1 fst) /=; lra.
Qed.
End Closed.

(** * A layer of air on glass *)
Lemma multS_scalar k (z : C) (B : 'M[C]_(k + k)) : is_ok (multS z%:M B).
Proof.
rewrite /multS; have -> : pm (z%:M : 'M[C]_(k + k)) = 0 by rewrite /pm scalar_mx_block block_mxKur.
by rewrite mul0mx subr0 /solve unitmx1; cbn [bind]; eexists.
Qed.
Lemma closed_example J1 : exists L S S', let expm := @mexp ((1 + 1) + (1 + 1)) in let kp := ((5 / 4)%Re, 0%Re) in
  [/\ is_expm expm, mk_lattice (1, 1)%N (1%Re, 0%Re) (0%Re, 1%Re) (Float 1) (Float (16 / 9)) = Ok L,
      closed_at J1 expm (1, 1)%N L (2 * PI) kp air_layer [::] 1 "air" S &
      closed_at J1 expm (1, 1)%N L (2 * PI) (opposite kp) air_layer [::] 1 "air" S'].
Proof.
have [L hL] := @mk_lattice_ok (1, 1)%N (Float 1) (Float (16 / 9)) erefl; have [mi me] := one_media hL; have p0 := PI_RGT_0.
have cl (x : R) : (x * x = 25 / 16)%Re -> exists S, closed_at J1 (@mexp ((1 + 1) + (1 + 1))) (1, 1)%N L (2 * PI) (x, 0%Re) air_layer [::] 1 "air" S.
  move=> hx; have hA := air_pile J1 hL hx.
  have [B hB] : is_ok (scattering_interface 1 L (2 * PI) (x, 0%Re)).
    apply: (@interface_def 1 L (2 * PI) (x, 0%Re) 1 (16 / 9)); rewrite ?(one_ng hL) ?mi ?me //; try lra.
    apply: (one_no_anomaly hL (r := 1%Re)) => //; have -> : (2 * PI / (2 * PI) = 1)%Re by field; lra.
    by rewrite /=; nra.
  have [S hS] := multS_scalar (RtoC (exp (- (3 / 4)))) B.
  by exists S, (RtoC (exp (- (3 / 4))))%:M, B.
have [S hS] := cl (5 / 4)%Re ltac:(lra); have [S' hS'] := cl (- (5 / 4))%Re ltac:(lra).
exists L, S, S'; split=> //; first exact: mexpP.
by rewrite /opposite /= Ropp_0.
Qed.

(** * Windows with an even number of orders *)
Lemma each_order_entry n (f : 'I_n -> C) : exists F : 'rV[C]_((n + n) + (n + n)), each_order f = diag_mx F /\
  (forall i, exists g, F 0 i = f g) /\ forall g, F 0 (lshift (n + n) (lshift n g)) = f g.
Proof.
exists (row_mx (row_mx (\row_g f g) (\row_g f g)) (row_mx (\row_g f g) (\row_g f g))); split=> //; split=> [i|g]; last first.
  by rewrite row_mxEl row_mxEl mxE.
rewrite mxE; case: (split i) => j; rewrite mxE; case: (split j) => g; exists g; by rewrite mxE.
Qed.
Lemma diag_bloch k (F : 'rV[C]_(k + k)) w v : eigenpair (scattering_splitlr (diag_mx F)) w v -> exists i, w = F 0 i \/ w * F 0 i = 1.
Proof.
move/blochE => -[v0]; rewrite /tscatters => e.
have ent i j : (diag_mx F *m col_mx (usubmx v) (w *: dsubmx v)) i j = F 0 i * col_mx (usubmx v) (w *: dsubmx v) i j.
  by rewrite mul_diag_mx mxE.
have : [exists i, v i 0 != 0].
  apply: contraNT v0; rewrite negb_exists => /forallP h; apply/eqP/matrixP => i j; rewrite (ord1 j) mxE.
  by apply/eqP; have := h i; rewrite negbK.
case/existsP => i; rewrite -[v]vsubmxK => hi; exists i.
have sc (x : 'cV[C]_k) m : (w *: x) m 0 = w * x m 0 by rewrite mxE.
have := congr1 (fun M : 'cV[C]_(k + k) => M i 0) e; rewrite ent.
move: hi; rewrite -[i]splitK; case: (split i) => j /=; rewrite ?col_mxEu ?col_mxEd => hi; rewrite sc.
  by move/(mulIf hi); left.
by move=> e1; right; apply: (mulIf hi); rewrite mul1r {2}e1; toC; ring.
Qed.
Lemma diag_bloch_l k (F : 'rV[C]_(k + k)) j : exists v, eigenpair (scattering_splitlr (diag_mx F)) (F 0 (lshift k j)) v.
Proof.
exists (col_mx (delta_mx j 0) 0); apply/blochE; split.
  apply/eqP => /(congr1 usubmx); rewrite col_mxKu linear0 => /matrixP /(_ j 0); rewrite !mxE !eqxx => /(congr1 fst) /=; exact: R1_neq_R0.
rewrite /tscatters !(col_mxKu, col_mxKd) scaler0; apply/matrixP => i l.
rewrite (ord1 l) mul_diag_mx [RHS]mxE -[i]splitK; case: (split i) => m /=; rewrite ?col_mxEu ?col_mxEd.
  rewrite !mxE; case: (m =P j) => [->|_] //=; by rewrite !mulr0.
by rewrite !mxE mulr0.
Qed.
(** The decay of the orders of a window of 2 x 2 orders in air, beyond the light line. *)
Definition decay (x : R) (g : 'I_4) : R :=
  ((x + IZR (Z.sub (Z.of_nat (g %% 2)%N) 1) * twopi) ^ 2 + (IZR (Z.sub (Z.of_nat (g %/ 2)%N) 1) * twopi) ^ 2 - PI ^ 2 / 16)%Re.
Lemma even_pile J1 L ee (x : R) : mk_lattice (2, 2)%N (1%Re, 0%Re) (0%Re, 1%Re) (Float 1) ee = Ok L ->
  (forall g, (0 < decay x g)%Re) -> (forall g, / 2 ^ 52 <= decay x g + PI ^ 2 / 16)%Re ->
  pile_at J1 (@mexp ((4 + 4) + (4 + 4))) (2, 2)%N L 8 (x, 0%Re) air_layer [::] 1 "air" (each_order (fun g => RtoC (exp (- sqrt (decay x g))))).
Proof.
move=> hL hx ht; have p0 := PI_RGT_0; have [_ _ _ _ [mi _ _ _ _]] := mk_latticeE hL.
have fits : window_fits (2, 2)%N by left.
have hexp : is_expm (@mexp ((4 + 4) + (4 + 4))) by exact: mexpP.
have ng : l_ng L = 4%N by rewrite (window_ng hL fits).
have gE (g : 'I_4) : l_g L g = ((IZR (Z.sub (Z.of_nat (g %% 2)%N) 1) * twopi)%Re, (IZR (Z.sub (Z.of_nat (g %/ 2)%N) 1) * twopi)%Re).
  rewrite /l_g /w_flat (window_rows hL).1 (window_at hL) (zero_lattice hL) /order_vector /=.
  by congr (_, _); ring.
have uE (g : 'I_4) : ((x + (l_g L g).1) ^ 2 + (0 + (l_g L g).2) ^ 2 = decay x g + PI ^ 2 / 16)%Re.
  by rewrite gE /decay; cbn [fst snd]; ring.
have nt : not_tiny L (x, 0%Re).
  by move=> g; rewrite ng => hg u; right; have := ht (Ordinal hg); rewrite -uE.
have kz (g : 'I_4) : compute_kz (l_incid L) 8 (x, 0%Re) (l_g L g) = ci * RtoC (sqrt (decay x g)).
  rewrite mi (kz_lossless _ _ _ (x := 1%Re)) //; cbn [fst snd]; rewrite uE.
  have -> : (1 * (2 * PI / 8) ^ 2 - (decay x g + PI ^ 2 / 16) = - decay x g)%Re by field.
  have := hx g; move: (decay x g) => y hy; destruct (Rle_dec 0 (- y)) as [h|h]; first by exfalso; lra.
  by cbn [is_left]; rewrite Ropp_involutive.
have hh : RtoC 1 = num_val (l_incid L) by rewrite mi.
have [A hA] : is_ok (@scattering_matrix_islands J1 4 (@mexp _) (2, 2)%N L [::] (RtoC 1) 8 (x, 0%Re) 1 2).
  rewrite hh; apply: (@homogeneous_layer_ok J1 _ _ _ _ _ L 4 (@mexp _) 8 (x, 0%Re) 1 2 hL fits (expm_exponential hexp) nt) => //.
  + by rewrite mi /=; apply/eqP => /(congr1 fst) /=; lra.
  + by rewrite mi /=; lra.
  + move=> g; rewrite ng => hg; rewrite mi -[num_val _]/(RtoC 1) => /(congr1 fst); cbn [fst snd]; rewrite (uE (Ordinal hg)) => e.
    have := hx (Ordinal hg); move: e; rewrite /=; lra.
have eA : A = each_order (fun g => RtoC (exp (- sqrt (decay x g)))).
  rewrite (@homogeneous_layer J1 _ _ _ _ _ L 4 (@mexp _) [::] (RtoC 1) 8 (x, 0%Re) 1 2 A hL fits (expm_exponential hexp) nt erefl hh hA).
  congr each_order; apply: functional_extensionality => g; rewrite kz.
  have -> : ci * (ci * RtoC (sqrt (decay x g))) * RtoC 1 = RtoC (- sqrt (decay x g)) by apply: C_ext; rewrite /=; ring.
  by rewrite /cexp /=; apply: C_ext; rewrite /= ?cos_0 ?sin_0; ring.
exists (fun name => if String.eqb name "air" then Some A else None); last by rewrite /= eA.
move=> name; rewrite /air_layer; case: (String.eqb name "air") => //; by exists A.
Qed.
Lemma even_windows J1 : exists L S S' w v, let expm := @mexp ((4 + 4) + (4 + 4)) in let kp := ((PI / 2)%Re, 0%Re) in
  [/\ is_expm expm, mk_lattice (2, 2)%N (1%Re, 0%Re) (0%Re, 1%Re) (Float 1) (Float 1) = Ok L,
      pile_at J1 expm (2, 2)%N L 8 kp air_layer [::] 1 "air" S, pile_at J1 expm (2, 2)%N L 8 (opposite kp) air_layer [::] 1 "air" S' &
      eigenpair (scattering_splitlr S) w v /\ forall v', ~ eigenpair (scattering_splitlr S') w^-1 v'].
Proof.
have [L hL] := @mk_lattice_ok (2, 2)%N (Float 1) (Float 1) erefl; have p0 := PI_RGT_0; have p3 := PI_4.
have four (P : 'I_4 -> Prop) : P (inord 0) -> P (inord 1) -> P (inord 2) -> P (inord 3) -> forall g, P g.
  move=> h0 h1 h2 h3 g; rewrite -[g]inord_val; case: g => -[|[|[|[|//]]]] //=.
have p1 : (1 < PI ^ 2)%Re by have := PI2_1; rewrite /PI2 /= => h; nra.
have tiny : (/ 2 ^ 52 <= 1 / 16)%Re by lra.
have dE x (g : 'I_4) a b : (g %% 2)%N = a -> (g %/ 2)%N = b -> decay x g =
  ((x + IZR (Z.sub (Z.of_nat a) 1) * twopi) ^ 2 + (IZR (Z.sub (Z.of_nat b) 1) * twopi) ^ 2 - PI ^ 2 / 16)%Re by move=> <- <-.
have d0 x := @dE x (inord 0) 0%N 0%N; have d1 x := @dE x (inord 1) 1%N 0%N; have d2 x := @dE x (inord 2) 0%N 1%N; have d3 x := @dE x (inord 3) 1%N 1%N.
rewrite !inordK //= in d0 d1 d2 d3.
have {}d0 x := d0 x erefl erefl; have {}d1 x := d1 x erefl erefl; have {}d2 x := d2 x erefl erefl; have {}d3 x := d3 x erefl erefl.
pose x := (PI / 2)%Re.
have pos y : y = x \/ y = (- x)%Re -> forall g, (0 < decay y g)%Re.
  by case=> ->; apply: four; rewrite ?d0 ?d1 ?d2 ?d3 /x /twopi; nra.
have big y : y = x \/ y = (- x)%Re -> forall g, (/ 2 ^ 52 <= decay y g + PI ^ 2 / 16)%Re.
  by move=> h g; have := pos y h g; move: (decay y g) => z hz; lra.
have h1 := even_pile J1 hL (pos x (or_introl erefl)) (big x (or_introl erefl)).
have h2 := even_pile J1 hL (pos _ (or_intror erefl)) (big _ (or_intror erefl)).
set f := (fun g => _) in h1; set f' := (fun g => _) in h2.
have [F [eF [_ hF]]] := each_order_entry f; have [F' [eF' [hF' _]]] := each_order_entry f'.
have [v hv] := diag_bloch_l F (lshift 4 (inord 2)); rewrite hF -eF in hv.
exists L, (each_order f), (each_order f'), (f (inord 2)), v; split; [exact: mexpP|exact: hL|exact: h1| |].
  have -> : opposite (x, 0%Re) = ((- x)%Re, 0%Re) by rewrite /opposite; cbn [fst snd]; rewrite Ropp_0.
  exact: h2.
split=> [|v']; [exact: hv|rewrite eF' => /diag_bloch [i]]; have [g ->] := hF' i.
have sq y g' : y = x \/ y = (- x)%Re -> (0 < sqrt (decay y g'))%Re by move=> h; apply: sqrt_lt_R0; exact: pos.
have s1 := sq x (inord 2) (or_introl erefl); have s2 := sq (- x)%Re g (or_intror erefl).
have inv : (f (inord 2))^-1 = RtoC (exp (sqrt (decay x (inord 2)))).
  apply: (mulfI (x := f (inord 2))); first by apply/eqP => /(congr1 fst) /=; have := exp_pos (- sqrt (decay x (inord 2))); lra.
  rewrite mulfV; last by apply/eqP => /(congr1 fst) /=; have := exp_pos (- sqrt (decay x (inord 2))); lra.
  rewrite /f; apply: C_ext => /=; last ring.
  by rewrite exp_Ropp Rmult_0_l Rminus_0_r Rinv_l //; apply: Rgt_not_eq; exact: exp_pos.
rewrite inv; case=> /(congr1 fst) /=; first by move/Rpower.exp_inv; lra.
rewrite Rmult_0_l Rminus_0_r -exp_plus -{1}exp_0 => /Rpower.exp_inv e.
have {}e : sqrt (decay x (inord 2)) = sqrt (decay (- x) g) by lra.
have {}e : decay x (inord 2) = decay (- x) g by apply: sqrt_inj => //; apply: Rlt_le; apply: pos; [left|right].
move: e; move: g {s2}; apply: four; rewrite ?d0 ?d1 ?d2 ?d3 /x /twopi => e; nra.
Qed.
