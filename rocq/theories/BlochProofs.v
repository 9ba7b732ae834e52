(** Proofs about the Bloch waves of piles of layers (T-matrix API). *)
From Coq Require Import Reals ZArith String Lra Lia FunctionalExtensionality.
From mathcomp Require Import all_ssreflect all_algebra.
From Coquelicot Require Import Complex.
From Verif Require Import SpecEnergy Base CField RField CFun ModelRedheffer RedhefferProofs ModelExpansion ModelFourier Blk ModelTmat SpecTmat TmatProofs
  ModelLattice SpecLattice LatticeProofs LookupProofs CurrentProofs FourierProofs SpecExp ExpProofs SpecExpansion AnalyticalProofs TmatTheorems
  StringEq ModelEz SpecEz EzProofs TmatEnergyProofs SpectrumProofs SpecBloch TmatExamples.
Set Implicit Arguments. Unset Strict Implicit. Unset Printing Implicit Defensive.
Import GRing.Theory.
Local Open Scope ring_scope.

(** * Two piles of the same shape *)
Section Kept.
Variables (F : fieldType) (k : nat) (Q : 'M[F]_(k + k) -> 'M[F]_(k + k) -> Prop).
Hypothesis kept : forall A B T A' B' T', Q A A' -> Q B B' -> multS A B = Ok T -> multS A' B' = Ok T' -> Q T T'.
Variables (p : stackings) (req req' : string -> option 'M[F]_(k + k)).
Let Qo (x y : option 'M[F]_(k + k)) := match x, y with Some A, Some B => Q A B | None, None => True | _, _ => False end.
Hypothesis all : forall name, Qo (req name) (req' name).
Lemma at_op_kept2 x y z x' y' z' : Qo x x' -> Qo y y' -> at_op x y = Ok z -> at_op x' y' = Ok z' -> Qo z z'.
Proof.
move=> hx hy /at_op_ok [a [b [c [? ? -> h]]]] /at_op_ok [a' [b' [c' [? ? -> h']]]]; subst x y x' y'.
exact: kept hx hy h h'.
Qed.
Lemma repeats_kept2 m x y z x' y' z' : Qo x x' -> Qo y y' -> repeats m x y = Ok z -> repeats m x' y' = Ok z' -> Qo z z'.
Proof.
elim: m x x' => [|m ih] x x' hx hy /=; first by case=> <- [<-].
case ha : (at_op _ _) => [a|//] /=; case ha' : (at_op _ _) => [a'|//] /=; apply: ih => //; exact: at_op_kept2 ha ha'.
Qed.
Lemma stack_kept2 d name z z' : stack_s p req d name = Ok z -> stack_s p req' d name = Ok z' -> Qo z z'.
Proof.
elim: d name z z' => [//|d ih] name z z' /=; have := all name.
case hr : (req name) => [A|]; case hr' : (req' name) => [A'|] //; first by move=> q [<-] [<-].
move=> _; case: (look p name) => [[ls rep]|]; last by case=> <- [<-].
case: ls => [//|l0 rest]; case h0 : (stack_s _ _ _ l0) => [S0|//]; cbn [bind].
set go := (X in bind (X S0 rest) _).
case h1 : (go _ _) => [S1|//]; cbn [bind] => e1.
case h0' : (stack_s _ _ _ l0) => [S0'|//]; cbn [bind].
set go' := (X in bind (X S0' rest) _).
case h1' : (go' _ _) => [S1'|//]; cbn [bind] => e1'.
have hgo ls acc w acc' w' : Qo acc acc' -> go acc ls = Ok w -> go' acc' ls = Ok w' -> Qo w w'.
  elim: ls acc acc' => [|s ls ih2] acc acc' hacc /=; first by case=> <- [<-].
  case hs : (stack_s _ _ _ s) => [T|//]; cbn [bind]; case ha : (at_op _ _) => [a|//]; cbn [bind] => e2.
  case hs' : (stack_s _ _ _ s) => [T'|//]; cbn [bind]; case ha' : (at_op _ _) => [a'|//]; cbn [bind].
  by apply: ih2 e2; apply: at_op_kept2 ha ha' => //; exact: ih hs hs'.
have q1 := hgo _ _ _ _ _ (ih _ _ _ h0 h0') h1 h1'.
move: e1 e1'; case: (Z.ltb _ _); last by case=> <- [<-].
case: S1 S1' q1 {h1 h1'} => [A|] [A'|] // q1; exact: repeats_kept2.
Qed.
End Kept.

(** * Eigenvalues of a matrix and of its dual *)
Lemma kernel_right (F : fieldType) m (A : 'M[F]_m) (u : 'rV[F]_m) : u != 0 -> u *m A = 0 -> exists2 y : 'cV[F]_m, y != 0 & A *m y = 0.
Proof.
move=> u0 h; have /det0P [x x0 hx] : \det A^T == 0.
  by rewrite det_tr; apply/det0P; exists u.
exists x^T; first by rewrite -(inj_eq (@trmx_inj _ _ _)) trmxK trmx0.
by apply: (@trmx_inj _ _ _); rewrite trmx_mul trmxK hx trmx0.
Qed.
Section Eigen.
Variables (F : fieldType) (k : nat).
Implicit Types (S U V E : 'M[F]_(k + k)).
Lemma bloch_eigen S U V E w v : matrix_s (U *m E *m V) = Ok S -> U *m V = 1%:M ->
  eigenpair (scattering_splitlr S) w v <-> v != 0 /\ V *m v = w *: (E *m (V *m v)).
Proof.
move=> hS UV; have VU := mulmx1C UV; rewrite -blochE /bloch_wave.
split=> -[v0 h]; split=> //.
  move/(matrix_s_meaning _ _ _ _ hS): h; rewrite /transfers -scale_col_mx vsubmxK => e.
  by rewrite {1}e !mulmxA VU mul1mx -!scalemxAr.
apply/(matrix_s_meaning _ _ _ _ hS); rewrite /transfers -scale_col_mx vsubmxK -scalemxAr -!mulmxA.
by rewrite scalemxAr -h mulmxA UV mul1mx.
Qed.
Lemma eigen_neq0 (E : 'M[F]_(k + k)) (y : 'cV[F]_(k + k)) w : y != 0 -> y = w *: (E *m y) -> w != 0.
Proof. by move=> y0 e; apply: contraNneq y0 => w0; rewrite e w0 scale0r. Qed.
End Eigen.
Section Dual.
Variables (F : fieldType) (k : nat).
Lemma left_bloch (S U V E : 'M[F]_(k + k)) (u : 'rV[F]_(k + k)) w : matrix_s (U *m E *m V) = Ok S -> U *m V = 1%:M ->
  u != 0 -> w != 0 -> u *m E = w *: u -> exists v, eigenpair (scattering_splitlr S) w^-1 v.
Proof.
move=> hS UV u0 w0 e; have VU := mulmx1C UV.
have h : u *m (E - w%:M) = 0 by rewrite mulmxBr e mul_mx_scalar subrr.
have [y y0 hy] := kernel_right u0 h; exists (U *m y); apply/(bloch_eigen _ _ hS UV).
have ey : V *m (U *m y) = y by rewrite mulmxA VU mul1mx.
split; first by apply: contraNneq y0 => z; rewrite -ey z mulmx0.
move: hy; rewrite ey mulmxBl mul_scalar_mx => /eqP; rewrite subr_eq0 => /eqP ->.
by rewrite scalerA mulVf // scale1r.
Qed.
End Dual.

(** * Lossless piles *)
Section Lossless.
Variables (J1 : R -> R) (n : nat) (expm : 'M[C]_((n + n) + (n + n)) -> 'M[C]_((n + n) + (n + n))).
Hypothesis hexp : is_expm expm.
Variables (p : nat * nat) (a1 a2 : vec2) (ei ee : num) (L : lattice).
Hypothesis hL : mk_lattice p a1 a2 ei ee = Ok L.
Hypothesis hf : window_fits p.
Variables (wl : R) (kp : vec2) (recipes : string -> option recipe).
Hypothesis real : forall name r, recipes name = Some r -> lossless_recipe r.
Lemma pile_lossless stacking d name S : pile_at J1 expm p L wl kp recipes stacking d name S -> lossless L wl kp S.
Proof.
case=> req hr hS; apply: (stack_kept (Q := lossless L wl kp) _ _ hS) => [A B T|nm M e]; first exact: losslessM.
have := hr nm; have := real (name := nm); case: (recipes nm) => [[[[isl host] dp] pow]|] h; last by rewrite e.
have [h1 h2] := h _ erefl; rewrite e => -[_ [<-]]; exact: (layer_conserves hL hf hexp h1 h2).
Qed.
Lemma quad1 : quad (fun a b => if a == b then 1%:M else 0) = 1%:M :> 'M[C]_((n + n) + (n + n)).
Proof. by rewrite /quad /= !block_mx0 -!scalar_mx_block. Qed.
Lemma fluxform_inv : fluxform n *m fluxform n = 1%:M.
Proof.
rewrite /fluxform quadM -quad1; apply: eq_quad.
by apply: below4; apply: below4; rewrite /= !(mulmx0, mul0mx, mulmx1, mul1mx, mulmxN, mulNmx, add0r, addr0, oppr0, opprK).
Qed.
Lemma adj_neq0 m (y : 'cV[C]_m) : y != 0 -> adj y != 0.
Proof.
move=> y0; apply: contraNneq y0 => e; apply/eqP/matrixP => i j.
have := congr1 (fun M : 'rV[C]_m => Cconj (M j i)) e; by rewrite adjE conjCK !mxE conjC0.
Qed.
Variables (stacking : stackings) (d : nat) (name : string) (S : 'M[C]_((n + n) + (n + n))).
Hypothesis hS : pile_at J1 expm p L wl kp recipes stacking d name S.
Variables (w : C) (v : 'cV[C]_((n + n) + (n + n))).
Hypothesis hv : eigenpair (scattering_splitlr S) w v.
Lemma bloch_pair : w != 0 /\ exists v', eigenpair (scattering_splitlr S) (Cconj w)^-1 v'.
Proof.
have [U [V [E [hU hV hm hc]]]] := pile_lossless hS; have UV := lattice_UV hU hV; have VU := mulmx1C UV.
have [v0 e] := (bloch_eigen _ _ hm UV).1 hv; set y := V *m v in e.
have y0 : y != 0 by apply: contraNneq v0 => z; rewrite -[v]mul1mx -UV -mulmxA -/y z mulmx0.
have w0 := eigen_neq0 y0 e; split=> //.
apply: (left_bloch hm UV (u := adj y *m fluxform n)).
- apply: contraNneq (adj_neq0 y0) => z; by rewrite -[adj y]mulmx1 -fluxform_inv mulmxA z mul0mx.
- by apply: contraNneq w0 => z; rewrite -[w]conjCK z conjC0.
by rewrite {1}e adj_scale adjM -!scalemxAl -!mulmxA [adj E *m _]mulmxA hc.
Qed.
Lemma powerE (F : 'cV[C]_((n + n) + (n + n))) : power F = \sum_g order_flux F g.
Proof.
rewrite /power /order_flux /quarter_of.
apply: (big_rec2 (fun (x : C) (y : R) => fst x = y)) => [//|g y x _ <-].
rewrite -[RHS]/(_ + _)%Re -[LHS]/(_ + _)%Re; congr (_ + _)%Re; rewrite /=; ring.
Qed.
Lemma bloch_no_power V : Cmod w <> 1%Re -> lattice_Vi n L wl kp = Ok V -> power (V *m v) = 0%Re.
Proof.
move=> hw hV'; have [U [V' [E [hU hV hm hc]]]] := pile_lossless hS; move: hV; rewrite hV' => -[eV]; subst V'.
have UV := lattice_UV hU hV'; have [v0 e] := (bloch_eigen _ _ hm UV).1 hv; set y := V *m v in e *.
have sc : power (w *: (E *m y)) = (Cmod w * Cmod w * power (E *m y))%Re.
  rewrite !powerE -[RHS]/((Cmod w * Cmod w)%Re * _) mulr_sumr; apply: eq_bigr => g _.
  rewrite /order_flux /quarter_of !linearZ !mxE -[RHS]/(_ * _)%Re.
  have -> : (Cmod w * Cmod w = fst w * fst w + snd w * snd w)%Re.
    by rewrite /Cmod sqrt_sqrt; [ring|apply: Rplus_le_le_0_compat; exact: pow2_ge_0].
  by rewrite /=; ring.
move: sc; rewrite -e !powerE flux_conserved //; set x := (\sum_g _) => sc.
have : ((1 - Cmod w * Cmod w) * x = 0)%Re by lra.
case/Rmult_integral => // h; case: hw; have := Cmod_ge_0 w => ?.
have : ((1 - Cmod w) * (1 + Cmod w) = 0)%Re by lra.
case/Rmult_integral; lra.
Qed.
End Lossless.

(** * Reversing the orders *)
Definition revm (n : nat) : 'M[C]_n := \matrix_(i, j) (if j == rev_ord i then 1 else 0).
Lemma revm_l n m (X : 'M[C]_(n, m)) i j : (revm n *m X) i j = X (rev_ord i) j.
Proof.
rewrite mxE (bigD1 (rev_ord i)) //= mxE eqxx mul1r big1 ?addr0 // => k hk.
by rewrite mxE (negbTE hk) mul0r.
Qed.
Lemma revm_r n m (X : 'M[C]_(m, n)) i j : (X *m revm n) i j = X i (rev_ord j).
Proof.
rewrite mxE (bigD1 (rev_ord j)) //= mxE rev_ordK eqxx mulr1 big1 ?addr0 // => k hk.
rewrite mxE; case: eqP => [e|_]; last by rewrite mulr0.
by case/eqP: hk; rewrite e rev_ordK.
Qed.
Lemma revm_L n m (X : 'M[C]_(n, m)) : revm n *m X = \matrix_(i, j) X (rev_ord i) j.
Proof. by apply/matrixP => i j; rewrite revm_l mxE. Qed.
Lemma revm_R n m (X : 'M[C]_(m, n)) : X *m revm n = \matrix_(i, j) X i (rev_ord j).
Proof. by apply/matrixP => i j; rewrite revm_r mxE. Qed.
Lemma revm_inv n : revm n *m revm n = 1%:M.
Proof.
apply/matrixP => i j; rewrite revm_l !mxE rev_ordK [j == i]eq_sym.
by case: eqP.
Qed.
(** The form of Lorentz reciprocity: Ex Hy' - Ey Hx' + Hx Ey' - Hy Ex' with opposite orders. *)
Definition lorentz (n : nat) : 'M[C]_((n + n) + (n + n)) :=
  quad (fun a b => match a, b with
    | 0%N, 3%N | 2%N, 1%N => revm n
    | 1%N, 2%N | 3%N, 0%N => - revm n
    | _, _ => 0
    end).
Lemma lorentz_inv n : lorentz n *m - lorentz n = 1%:M.
Proof.
rewrite /lorentz quadN quadM -quad1; apply: eq_quad.
by apply: below4; apply: below4;
   rewrite /= !(mulmx0, mul0mx, revm_inv, mulmxN, mulNmx, add0r, addr0, oppr0, opprK).
Qed.
Definition reverses (n : nat) (e : nat -> nat -> C) : Prop :=
  forall i j : 'I_n, e (rev_ord i) (rev_ord j) = e j i.
Lemma tr_quad n (B : nat -> nat -> 'M[C]_n) : (quad B)^T = quad (fun a b => (B b a)^T).
Proof. by rewrite /quad !tr_block_mx. Qed.
Lemma matrix_a_reciprocal n l w T Ti wl kp A A' : matrix_a n l w T Ti wl kp = Ok A -> matrix_a n l w T Ti wl (opposite kp) = Ok A' ->
  (forall s, order_lookups l (w_rows w %/ 2) (w_cols w %/ 2) n T = Ok s -> reverses n (looked s)) ->
  (forall s, order_lookups l (w_rows w %/ 2) (w_cols w %/ 2) n Ti = Ok s -> reverses n (looked s)) ->
  (forall g : 'I_n, w_flat w (rev_ord g) = ((- (w_flat w g).1)%Re, (- (w_flat w g).2)%Re)) ->
  A^T *m lorentz n = - (lorentz n *m A').
Proof.
rewrite /matrix_a; destruct (Req_EM_T wl 0) as [h|h] => //; cbn [is_left]; case: eqP => // hn.
case he : (order_lookups _ _ _ n T) => [e|//]; cbn [bind]; case hv : (order_lookups _ _ _ n Ti) => [v|//]; cbn [bind] => -[<-] [<-] He Hv hw.
have {}He := He _ erefl; have {}Hv := Hv _ erefl.
have He' (i j : 'I_n) : looked e (rev_ord i) j = looked e (rev_ord j) i by rewrite -{1}[j]rev_ordK He.
have Hv' (i j : 'I_n) : looked v (rev_ord i) j = looked v (rev_ord j) i by rewrite -{1}[j]rev_ordK Hv.
pose ux (g : 'I_n) := RtoC (uvec kp (w_flat w g)).1; pose uy (g : 'I_n) := RtoC (uvec kp (w_flat w g)).2.
pose ux' (g : 'I_n) := RtoC (uvec (opposite kp) (w_flat w g)).1; pose uy' (g : 'I_n) := RtoC (uvec (opposite kp) (w_flat w g)).2.
have e1 g : ux' (rev_ord g) = - ux g by rewrite /ux' hw /=; apply: C_ext; rewrite /=; ring.
have e2 g : uy' (rev_ord g) = - uy g by rewrite /uy' hw /=; apply: C_ext; rewrite /=; ring.
have e3 g : ux' g = - ux (rev_ord g) by rewrite -{1}[g]rev_ordK e1.
have e4 g : uy' g = - uy (rev_ord g) by rewrite -{1}[g]rev_ordK e2.
rewrite tr_quad /lorentz !quadM quadN; apply: eq_quad.
apply: below4; apply: below4; rewrite /= !(mulmx0, mul0mx, mulmxN, mulNmx, add0r, addr0, oppr0).
all: rewrite ?trmx0 ?mul0mx ?oppr0 ?opprK // ?revm_L ?revm_R; apply/matrixP => i j; rewrite !mxE.
all: rewrite -?/(ux _) -?/(uy _) -?/(ux' _) -?/(uy' _) ?e1 ?e2 ?e3 ?e4 ?(He' i j) ?(Hv' i j).
all: have eij : (rev_ord i == j) = (rev_ord j == i) by rewrite -{1}[j]rev_ordK (inj_eq rev_ord_inj) eq_sym.
all: rewrite ?eij {eij}.
all: case: (rev_ord j =P i) => [<-|_]; rewrite ?mulr1n ?mulr0n ?expr2.
all: toC; ring.
Qed.

(** * The window and the tables of odd windows *)
Lemma dif_rev q i j : (i < q)%N -> (j < q)%N -> dif q (q - i.+1) (q - j.+1) = dif q j i.
Proof.
move=> hi hj; rewrite /dif.
have e : (q - i.+1 + j.+1 = q - j.+1 + j.+1 + j - i)%N.
  by rewrite subnK //; move: hi hj => /leP ? /leP ?; rewrite -!plusE -!minusE; lia.
have : (i <= q)%N by exact: ltnW.
have le : (q - j.+1 <= q - i.+1 + 2 * (q %/ 2))%N.
  have := divn_eq q 2; rewrite modn2; have : (nat_of_bool (odd q) <= 1)%N by case: odd.
  move: (q %/ 2)%N (nat_of_bool (odd q)) => h b hb eq; nlia.
have := divn_eq q 2; rewrite modn2; have : (nat_of_bool (odd q) <= 1)%N by case: odd.
move: (q %/ 2)%N (nat_of_bool (odd q)) le => h b le hb eq _; nlia.
Qed.
Lemma rev_coords r c g : (g < r * c)%N -> ((r * c - g.+1) %% r)%N = (r - (g %% r).+1)%N /\ ((r * c - g.+1) %/ r)%N = (c - (g %/ r).+1)%N.
Proof.
move=> hg; have [h1 h2 r0] := coords_lt hg.
have -> : (r * c - g.+1)%N = ((c - (g %/ r).+1) * r + (r - (g %% r).+1))%N.
  rewrite {1}(divn_eq g r); move: h1 h2; move: (g %/ r)%N (g %% r)%N => a b h1 h2.
  have -> : c = (c - a.+1 + a.+1)%N by rewrite subnK.
  rewrite addnK; move: (c - a.+1)%N => x; rewrite mulnDr mulnC.
  rewrite mulnSr [(r * a)%N]mulnC; move: (x * r)%N (a * r)%N => y z; nlia.
have lt : (r - (g %% r).+1 < r)%N by rewrite -subn_gt0; move: h1; move: (g %% r)%N => b h1; nlia.
by rewrite modnMDl (modn_small lt) (divnMDl _ _ r0) (divn_small lt) addn0.
Qed.

Section Odd.
Variables (p : nat * nat) (a1 a2 : vec2) (ei ee : num) (L : lattice).
Hypothesis hL : mk_lattice p a1 a2 ei ee = Ok L.
Hypothesis hf : window_fits p.
Hypothesis hp : odd p.1.
Lemma window_reversed n (g : 'I_n) : n = (p.1 * p.2)%N ->
  w_flat (window L) (rev_ord g) = ((- (w_flat (window L) g).1)%Re, (- (w_flat (window L) g).2)%Re).
Proof.
move=> hn; have [ho _ _ _ _] := mk_latticeE hL; have hp2 : odd p.2 by rewrite -ho.
have hg : (g < p.1 * p.2)%N by rewrite -hn ltn_ord.
have ev : nat_of_ord (rev_ord g) = (p.1 * p.2 - g.+1)%N by rewrite -hn.
rewrite /w_flat (window_rows hL).1 !(window_at hL) ev /=; have [-> ->] := rev_coords hg; have [h1 h2 _] := coords_lt hg.
have o q i : odd q -> (i < q)%N -> Z.sub (Z.of_nat (q - i.+1)) (Z.of_nat (q %/ 2)) = Z.opp (Z.sub (Z.of_nat i) (Z.of_nat (q %/ 2))).
  move=> oq hi; have := divn_eq q 2; rewrite modn2 oq /= ; move: (q %/ 2)%N => h e; nlia.
by rewrite !o // /order_vector /= !opp_IZR; congr (_, _); ring.
Qed.
Lemma entry_reversed n T (i j : 'I_n) : n = (p.1 * p.2)%N -> entry p T (rev_ord i) (rev_ord j) = entry p T j i.
Proof.
move=> hn; have hi : (i < p.1 * p.2)%N by rewrite -hn ltn_ord.
have hj : (j < p.1 * p.2)%N by rewrite -hn ltn_ord.
have ei' : nat_of_ord (rev_ord i) = (p.1 * p.2 - i.+1)%N by rewrite -hn.
have ej : nat_of_ord (rev_ord j) = (p.1 * p.2 - j.+1)%N by rewrite -hn.
rewrite /entry ei' ej; have [-> ->] := rev_coords hi; have [-> ->] := rev_coords hj.
have [? ? _] := coords_lt hi; have [? ? _] := coords_lt hj; by rewrite !dif_rev.
Qed.
(** The matrices of one structure for opposite wavevectors. *)
Definition opposed n wl kp (S S' : 'M[C]_((n + n) + (n + n))) : Prop := exists U V E U' V' E',
  [/\ lattice_U n L wl kp = Ok U, lattice_Vi n L wl kp = Ok V & matrix_s (U *m E *m V) = Ok S] /\
  [/\ lattice_U n L wl (opposite kp) = Ok U', lattice_Vi n L wl (opposite kp) = Ok V', matrix_s (U' *m E' *m V') = Ok S' &
   E^T *m lorentz n *m E' = lorentz n].
Lemma opposedM n wl kp (A B T A' B' T' : 'M[C]_((n + n) + (n + n))) : opposed wl kp A A' -> opposed wl kp B B' ->
  multS A B = Ok T -> multS A' B' = Ok T' -> opposed wl kp T T'.
Proof.
move=> [U [V [E [U' [V' [E' [[hU hV h1] [hU' hV' h1' c1]]]]]]]] [X [Y [G [X' [Y' [G' [[hX hY h2] [hX' hY' h2' c2]]]]]]]] hm hm'.
move: hX hY hX' hY'; rewrite hU hV hU' hV' => -[e1] [e2] [e3] [e4]; subst X Y X' Y'.
have VU : V *m U = 1%:M by apply: mulmx1C; exact: lattice_UV hU hV.
have VU' : V' *m U' = 1%:M by apply: mulmx1C; exact: lattice_UV hU' hV'.
exists U, V, (E *m G), U', V', (E' *m G'); split; split=> //.
- rewrite -hm -(matrix_s_mul h1 h2); congr matrix_s; by rewrite !mulmxA -[_ *m V *m U]mulmxA VU mulmx1.
- rewrite -hm' -(matrix_s_mul h1' h2'); congr matrix_s; by rewrite !mulmxA -[_ *m V' *m U']mulmxA VU' mulmx1.
by rewrite trmx_mul -[RHS]c2 -[in RHS]c1 !mulmxA.
Qed.
Lemma layer_opposed J1 n expm isl host wl kp d pow S S' : is_expm expm ->
  @scattering_matrix_islands J1 n expm p L isl host wl kp d pow = Ok S ->
  @scattering_matrix_islands J1 n expm p L isl host wl (opposite kp) d pow = Ok S' -> opposed wl kp S S'.
Proof.
move=> hexp; rewrite /scattering_matrix_islands.
have [_ _ hq _ _] := mk_latticeE hL.
case hg : (grid_size _) => [nq|//]; cbn [bind]; have [_ e] := grid_sizeE hg; have {e} -> : nq.2 = l_q L by rewrite hq e.
case hd : (mapM _ _) => [data|//]; cbn [bind].
case hT : (epsilon_g _ _ _ false) => [T|//]; cbn [bind]; case hTi : (epsilon_g _ _ _ true) => [Ti|//]; cbn [bind].
case hU : (lattice_U _ _ _ kp) => [U|//]; cbn [bind]; case hV : (lattice_Vi _ _ _ kp) => [V|//]; cbn [bind].
rewrite (window_rows hL).1 (window_cols hL hf).
case hl : (mapM _ _) => [l|//]; cbn [bind].
have sl : standard_orders p.1 p.2 l by apply: coords_standard; rewrite -hl; case: (p) => ? ?.
case hA : (matrix_a _ _ _ _ _ _ _) => [A|//]; cbn [bind] => hS.
case hU' : (lattice_U _ _ _ (opposite kp)) => [U'|//]; cbn [bind]; case hV' : (lattice_Vi _ _ _ (opposite kp)) => [V'|//]; cbn [bind].
case hA' : (matrix_a _ _ _ _ _ _ (opposite kp)) => [A'|//]; cbn [bind] => hS'.
have UV := lattice_UV hU hV; have UV' := lattice_UV hU' hV'; have [hn _ _ _ _] := lattice_UE hU.
have hn' : n = (p.1 * p.2)%N by rewrite hn (window_ng hL hf).
exists U, V, (expm (RtoC d *: - A)), U', V', (expm (RtoC d *: - A')); split; split=> //.
- exact: (sliced_exp hexp UV hS).
- exact: (sliced_exp hexp UV' hS').
have her Tb : a_rows Tb = qof p.1 -> a_cols Tb = qof p.2 ->
   forall s, order_lookups l (w_rows (window L) %/ 2) (w_cols (window L) %/ 2) n Tb = Ok s -> reverses n (looked s).
  move=> h1 h2 s; rewrite (window_rows hL).1 (window_cols hL hf); have [s' -> lk] := order_lookupsE sl h1 h2 hn'.
  by case=> <- i j; rewrite !lk ?ltn_ord // (entry_reversed _ _ _ hn').
have sz inverse Tb : epsilon_g (l_q L) data host inverse = Ok Tb -> a_rows Tb = qof p.1 /\ a_cols Tb = qof p.2.
  by rewrite hq => /epsilon_gE [-> -> _].
have [r1 c1] := sz _ _ hT; have [r2 c2] := sz _ _ hTi.
rewrite !(is_expmE _ hexp) -exp_trmx; apply: exp_preserves; rewrite !linearZ !linearN /= -scalemxAl mulNmx.
rewrite (matrix_a_reciprocal hA hA' (her _ r1 c1) (her _ r2 c2)) => [|g]; last exact: window_reversed.
by rewrite ?scalerN ?opprK.
Qed.
Lemma pile_opposed J1 n expm wl kp recipes stacking d name S S' : is_expm expm ->
  @pile_at J1 n expm p L wl kp recipes stacking d name S ->
  @pile_at J1 n expm p L wl (opposite kp) recipes stacking d name S' -> opposed wl kp S S'.
Proof.
move=> hexp [req hr hS] [req' hr' hS'].
apply: (stack_kept2 (Q := opposed wl kp) _ _ hS hS') => [A B T A' B' T'|nm]; first exact: opposedM.
have := hr nm; have := hr' nm; case: (recipes nm) => [[[[isl host] dp] pow]|]; last by move=> -> ->.
move=> [M' -> h'] [M -> h]; exact: layer_opposed hexp h h'.
Qed.
Lemma opposed_factor n wl kp (S S' : 'M[C]_((n + n) + (n + n))) w v : opposed wl kp S S' -> eigenpair (scattering_splitlr S) w v ->
  w != 0 /\ exists v', eigenpair (scattering_splitlr S') w^-1 v'.
Proof.
move=> [U [V [E [U' [V' [E' [[hU hV hm] [hU' hV' hm' hc]]]]]]]] hv.
have UV := lattice_UV hU hV; have UV' := lattice_UV hU' hV'.
have [v0 e] := (bloch_eigen _ _ hm UV).1 hv; set y := V *m v in e.
have y0 : y != 0 by apply: contraNneq v0 => z; rewrite -[v]mul1mx -UV -mulmxA -/y z mulmx0.
have w0 := eigen_neq0 y0 e; split=> //.
apply: (left_bloch hm' UV' (u := y^T *m lorentz n)) => //.
- have yt : y^T != 0 by rewrite -(inj_eq (@trmx_inj _ _ _)) trmxK trmx0.
  apply: contraNneq yt => z; by rewrite -[y^T]mulmx1 -(lorentz_inv n) mulmxA z mul0mx.
by rewrite {1}e linearZ /= trmx_mul -!scalemxAl -!mulmxA [E^T *m _]mulmxA hc.
Qed.
End Odd.

(** * A layer of air beyond the light line *)
Definition air_layer (name : string) : option recipe := if String.eqb name "air" then Some ([::], RtoC 1, 1%Re, 2%N) else None.
Lemma air_pile J1 L ee (x : R) : mk_lattice (1, 1)%N (1%Re, 0%Re) (0%Re, 1%Re) (Float 1) ee = Ok L -> (x * x = 25 / 16)%Re ->
  pile_at J1 (@mexp ((1 + 1) + (1 + 1))) (1, 1)%N L (2 * PI) (x, 0%Re) air_layer [::] 1 "air" (RtoC (exp (- (3 / 4))))%:M.
Proof.
move=> hL hx; have p0 := PI_RGT_0; have mi := (one_media hL).1.
have fits : window_fits (1, 1)%N by left.
have hexp : is_expm (@mexp ((1 + 1) + (1 + 1))) by exact: mexpP.
have nt : not_tiny L (x, 0%Re).
  by move=> g; rewrite (one_ng hL); case: g => // _; rewrite (one_g hL) /=; right; set u := (_ + _)%Re; have -> : u = (x * x)%Re; [rewrite /u; ring|rewrite hx; lra].
have kz (g : 'I_1) : compute_kz (l_incid L) (2 * PI) (x, 0%Re) (l_g L g) = ci * RtoC (3 / 4).
  rewrite (ord1 g) (one_g hL) mi (kz_lossless _ _ _ (x := 1%Re)) //.
  set y := (_ - _)%Re; have -> : y = (- (3 / 4 * (3 / 4)))%Re.
    rewrite /y /=; have -> : (2 * PI / (2 * PI) = 1)%Re by field; lra.
    rewrite !Rplus_0_r; have : (x * (x * 1) = 25 / 16)%Re by lra.
    by move=> ->; lra.
  destruct (Rle_dec 0 (- (3 / 4 * (3 / 4)))) as [h|h]; first by exfalso; lra.
  by cbn [is_left]; rewrite Ropp_involutive sqrt_square //; lra.
have hh : RtoC 1 = num_val (l_incid L) by rewrite mi.
have [A hA] : is_ok (@scattering_matrix_islands J1 1 (@mexp _) (1, 1)%N L [::] (RtoC 1) (2 * PI) (x, 0%Re) 1 2).
  rewrite hh; apply: (@homogeneous_layer_ok J1 _ _ _ _ _ L 1 (@mexp _) (2 * PI) (x, 0%Re) 1 2 hL fits (expm_exponential hexp) nt) => //.
  + by rewrite (one_ng hL).
  + lra.
  + by rewrite mi /=; apply/eqP => /(congr1 fst) /=; lra.
  + by rewrite mi /=; lra.
  + apply: (one_no_anomaly hL (r := 1%Re)); rewrite ?mi //.
    have -> : (2 * PI / (2 * PI) = 1)%Re by field; lra.
    by rewrite /=; nra.
have eA : A = (RtoC (exp (- (3 / 4))))%:M.
  rewrite (@homogeneous_layer J1 _ _ _ _ _ L 1 (@mexp _) [::] (RtoC 1) (2 * PI) (x, 0%Re) 1 2 A hL fits (expm_exponential hexp) nt erefl hh hA).
  have -> : (fun g : 'I_1 => cexp (ci * compute_kz (l_incid L) (2 * PI) (x, 0%Re) (l_g L g) * RtoC 1)) = fun=> RtoC (exp (- (3 / 4))).
    apply: functional_extensionality => g; rewrite kz.
    have -> : ci * (ci * RtoC (3 / 4)) * RtoC 1 = RtoC (- (3 / 4)) by apply: C_ext; rewrite /=; ring.
    by rewrite /cexp /=; apply: C_ext; rewrite /= ?cos_0 ?sin_0; ring.
  rewrite /each_order; have -> : (\row_(g < 1) RtoC (exp (- (3 / 4)))) = const_mx (RtoC (exp (- (3 / 4)))) by apply/rowP => g; rewrite !mxE.
  by rewrite !row_mx_const diag_const_mx.
exists (fun name => if String.eqb name "air" then Some A else None); last by rewrite /= eA.
move=> name; rewrite /air_layer; case: (String.eqb name "air") => //; by exists A.
Qed.
Lemma scalar_bloch k (z : C) : (0 < k)%N -> eigenpair (scattering_splitlr (z%:M : 'M[C]_(k + k))) z (col_mx (const_mx 1) 0).
Proof.
case: k => // k _; apply/blochE; split.
  apply/eqP => /(congr1 usubmx); rewrite col_mxKu linear0 => /matrixP /(_ 0 0); rewrite !mxE => /(congr1 fst) /=; exact: R1_neq_R0.
by rewrite /tscatters !(col_mxKu, col_mxKd) scaler0 mul_scalar_mx scale_col_mx scaler0.
Qed.
Lemma bloch_example J1 : exists L V v, let expm := @mexp ((1 + 1) + (1 + 1)) in let kp := ((5 / 4)%Re, 0%Re) in
  let S := (RtoC (exp (- (3 / 4))))%:M in let wl := (2 * PI)%Re in
  [/\ is_expm expm, mk_lattice (1, 1)%N (1%Re, 0%Re) (0%Re, 1%Re) (Float 1) (Float 1) = Ok L,
      forall layer r, air_layer layer = Some r -> lossless_recipe r &
      pile_at J1 expm (1, 1)%N L wl kp air_layer [::] 1 "air" S] /\
  [/\ pile_at J1 expm (1, 1)%N L wl (opposite kp) air_layer [::] 1 "air" S,
      eigenpair (scattering_splitlr S) (RtoC (exp (- (3 / 4)))) v, Cmod (RtoC (exp (- (3 / 4)))) <> 1%Re &
      lattice_Vi 1 L wl kp = Ok V].
Proof.
have [L hL] := @mk_lattice_ok (1, 1)%N (Float 1) (Float 1) erefl.
have real layer r : air_layer layer = Some r -> lossless_recipe r.
  by rewrite /air_layer; case: (String.eqb layer "air") => // -[<-].
have hexp : is_expm (@mexp ((1 + 1) + (1 + 1))) by exact: mexpP.
have h1 : pile_at J1 (@mexp ((1 + 1) + (1 + 1))) (1, 1)%N L (2 * PI) ((5 / 4)%Re, 0%Re) air_layer [::] 1 "air" (RtoC (exp (- (3 / 4))))%:M.
  by apply: air_pile hL _; lra.
have h2 : pile_at J1 (@mexp ((1 + 1) + (1 + 1))) (1, 1)%N L (2 * PI) (opposite ((5 / 4)%Re, 0%Re)) air_layer [::] 1 "air" (RtoC (exp (- (3 / 4))))%:M.
  by rewrite /opposite /= Ropp_0; apply: air_pile hL _; lra.
have fits : window_fits (1, 1)%N by left.
have [U [V [E [_ hV _ _]]]] := pile_lossless hexp hL fits real h1.
exists L, V, (col_mx (const_mx 1) 0); split; split=> //; first exact: scalar_bloch.
rewrite Cmod_R Rabs_pos_eq; last exact/Rlt_le/exp_pos.
by move=> e; have := exp_increasing (- (3 / 4)) 0; rewrite exp_0 => /(_ ltac:(lra)); lra.
Qed.
