(** Energy of lossless layers in the T-matrix API. *)
From Coq Require Import Reals ZArith Lra Lia.
From mathcomp Require Import all_ssreflect all_algebra.
From Coquelicot Require Import Complex.
From Verif Require Import SpecEnergy Base CField RField CFun ModelRedheffer RedhefferProofs ModelExpansion ModelFourier Blk ModelTmat SpecTmat TmatProofs
  ModelLattice SpecLattice LatticeProofs LookupProofs CurrentProofs FourierProofs SpecExp ExpProofs SpecExpansion AnalyticalProofs TmatTheorems.
Set Implicit Arguments. Unset Strict Implicit. Unset Printing Implicit Defensive.
Import GRing.Theory.
Local Open Scope ring_scope.

(** * Conjugate transposes *)
Lemma adjE m n (A : 'M[C]_(m, n)) i j : adj A i j = Cconj (A j i).
Proof. by rewrite !mxE. Qed.
Lemma adjM m n p (A : 'M[C]_(m, n)) (B : 'M[C]_(n, p)) : adj (A *m B) = adj B *m adj A.
Proof. by rewrite /adj trmx_mul map_mxM. Qed.
Lemma adj_block m1 m2 n1 n2 (a : 'M[C]_(m1, n1)) (b : 'M[C]_(m1, n2)) (c : 'M[C]_(m2, n1)) (d : 'M[C]_(m2, n2)) :
  adj (block_mx a b c d) = block_mx (adj a) (adj c) (adj b) (adj d).
Proof. by rewrite /adj tr_block_mx map_block_mx. Qed.
Lemma adj_quad n (B : nat -> nat -> 'M[C]_n) : adj (quad B) = quad (fun a b => adj (B b a)).
Proof. by rewrite /quad !adj_block. Qed.
Lemma adj_exp n (X : 'M[C]_n) : adj (mexp X) = mexp (adj X).
Proof. by rewrite /adj -exp_trmx -exp_conj. Qed.
Lemma adj_scale m n (c : C) (A : 'M[C]_(m, n)) : adj (c *: A) = Cconj c *: adj A.
Proof. by apply/matrixP => i j; rewrite !mxE conjCM. Qed.
Lemma adjN m n (A : 'M[C]_(m, n)) : adj (- A) = - adj A.
Proof. by apply/matrixP => i j; rewrite !mxE conjCN. Qed.

(** * The form of the energy flux: Ex* Hy - Ey* Hx + c.c. *)
Definition fluxform (n : nat) : 'M[C]_((n + n) + (n + n)) :=
  quad (fun a b => match a, b with
    | 0%N, 3%N | 3%N, 0%N => 1%:M
    | 1%N, 2%N | 2%N, 1%N => - 1%:M
    | _, _ => 0
    end).
(** A matrix that conserves the flux. *)
Definition conserves (n : nat) (E : 'M[C]_((n + n) + (n + n))) : Prop := adj E *m fluxform n *m E = fluxform n.
Lemma conservesM n (E E' : 'M[C]_((n + n) + (n + n))) : conserves E -> conserves E' -> conserves (E *m E').
Proof.
rewrite /conserves => h h'; rewrite adjM -[RHS]h' -[in RHS]h !mulmxA; by [].
Qed.
Lemma quadN n (A : nat -> nat -> 'M[C]_n) : - quad A = quad (fun a b => - A a b).
Proof. by rewrite /quad !opp_block_mx. Qed.

Lemma exp_conserves n (A : 'M[C]_((n + n) + (n + n))) (s : R) :
  adj A *m fluxform n = - (fluxform n *m A) -> conserves (mexp (RtoC s *: - A)).
Proof.
move=> h; rewrite /conserves adj_exp; apply: exp_preserves.
rewrite adj_scale adjN conjC_R -!scalemxAl -!scalemxAr mulNmx h mulmxN opprK.
by rewrite -scalerN opprK.
Qed.

(** * The operator of a lossless layer *)
Definition hermitian (n : nat) (e : nat -> nat -> C) : Prop := forall i j, (i < n)%N -> (j < n)%N -> e j i = Cconj (e i j).
Lemma conj_imaginary (z : C) : fst z = 0%Re -> Cconj z = - z.
Proof. by move=> h; apply: C_ext => /=; rewrite ?h; ring. Qed.
Lemma matrix_a_flux n l w T Ti wl kp A : matrix_a n l w T Ti wl kp = Ok A ->
  (forall s, order_lookups l (w_rows w %/ 2) (w_cols w %/ 2) n T = Ok s -> hermitian n (looked s)) ->
  (forall s, order_lookups l (w_rows w %/ 2) (w_cols w %/ 2) n Ti = Ok s -> hermitian n (looked s)) ->
  adj A *m fluxform n = - (fluxform n *m A).
Proof.
rewrite /matrix_a; destruct (Req_EM_T wl 0) as [h|h] => //; cbn [is_left]; case: eqP => // hn.
case he : (order_lookups _ _ _ n T) => [e|//]; cbn [bind]; case hv : (order_lookups _ _ _ n Ti) => [v|//]; cbn [bind] => -[<-] He Hv.
have {}He := He _ erefl; have {}Hv := Hv _ erefl.
rewrite adj_quad /fluxform !quadM quadN; apply: eq_quad.
have ic : Cconj ci = - ci by apply: C_ext => /=; ring.
have i1 : Cconj (ismo wl) = - ismo wl by rewrite /ismo !conjCM !conjCV !conjC_R ic !mulNr.
have i2 : Cconj (iseo wl) = - iseo wl by rewrite /iseo !conjCM !conjCV !conjC_R ic !mulNr.
have i3 : Cconj (ieo wl) = - ieo wl by rewrite /ieo !conjCM !conjCV !conjC_R ic !mulNr.
have i4 : Cconj (imo wl) = - imo wl by rewrite /imo !conjCM !conjC_R ic !mulNr.
apply: below4; apply: below4; rewrite /= !(mulmx0, mul0mx, mulmx1, mul1mx, mulmxN, mulNmx, add0r, addr0, oppr0).
all: rewrite ?/adj ?trmx0 ?map_mx0 ?oppr0 ?opprK //; apply/matrixP => i j; rewrite !mxE.
all: rewrite ?(He i j) ?(Hv i j) ?ltn_ord // ?[j == i]eq_sym; case: (i =P j) => [->|_]; rewrite ?mulr1n ?mulr0n ?expr2.
all: rewrite !(conjCD, conjCN, conjCM, conjC_R, conjC0, conjCK, i1, i2, i3, i4).
all: toC; ring.
Qed.

(** * The coefficients of lossless islands *)
Lemma transform_pointwise J1 s area : exists f : vec2 -> C, (forall g, f (opp2 g) = Cconj (f g)) /\
  forall G l, transform J1 s G area = Ok l -> l = map f G.
Proof.
rewrite /transform; destruct (Req_EM_T area 0) as [h|h]; cbn [is_left].
  by exists (fun=> 0); split=> // g; rewrite conjC0.
case: s => [a b c d|a b r||].
- exists (fun g => transform_rectangle a b c d g.1 g.2 area); split=> [g|G l [<-] //]; exact: rectangle_conj.
- exists (fun g => transform_disc J1 a b r g.1 g.2 area); split=> [g|G l]; first exact: disc_conj.
  by destruct (Req_EM_T r 0) as [h2|h2] => // -[<-].
- by exists (fun=> 0); split=> [g|G l [<-] //]; rewrite conjC0.
- by exists (fun=> 0); split=> // g; rewrite conjC0.
Qed.
Lemma dif_opp p i j : (i < p)%N -> (j < p)%N ->
  Z.sub (Z.of_nat (dif p j i)) (Z.of_nat (2 * (p %/ 2))) = Z.opp (Z.sub (Z.of_nat (dif p i j)) (Z.of_nat (2 * (p %/ 2)))).
Proof. by move=> hi hj; have [_ ->] := dif_lt hi hj; have [_ ->] := dif_lt hj hi; lia. Qed.
Section Tables.
Variables (p : nat * nat) (a1 a2 : vec2) (ei ee : num) (L : lattice).
Hypothesis hL : mk_lattice p a1 a2 ei ee = Ok L.
Hypothesis hf : window_fits p.
(** A table whose lookups are Hermitian. *)
Definition hermitian_table (T : array2) : Prop := hermitian (p.1 * p.2) (entry p T).
Lemma grid_hermitian J1 s t : grid_transform J1 s (l_G L) (l_area L) = Ok t -> hermitian_table t.
Proof.
have [_ _ hq _ [_ _ _ hG at_]] := mk_latticeE hL.
have [f [fo hfm]] := transform_pointwise J1 s (l_area L).
rewrite /grid_transform; case ht : (transform _ _ _ _) => [l|//]; cbn [bind] => -[<-] i j hi hj.
have {ht} -> := hfm _ _ ht; rewrite /entry.
have [i1 i2 _] := coords_lt hi; have [j1 j2 _] := coords_lt hj.
have [hr hc] : w_rows (l_G L) = qof p.1 /\ w_cols (l_G L) = qof p.2 by move: hG; rewrite hq => -[].
have val a b : (a < qof p.1)%N -> (b < qof p.2)%N ->
  nth 0 [seq f g | g <- [seq w_at (l_G L) (k %/ w_cols (l_G L)) (k %% w_cols (l_G L)) | k <- iota 0 (w_ng (l_G L))]]
    (a * w_cols (l_G L) + b) = f (w_at (l_G L) a b).
  move=> ha hb; have lt : (a * w_cols (l_G L) + b < w_ng (l_G L))%N.
    rewrite /w_ng hr hc; apply: leq_trans (_ : (a.+1 * qof p.2 <= _)%N); last by rewrite leq_mul2r ha orbT.
    by rewrite mulSn addnC ltn_add2r.
  rewrite (nth_map (0%Re, 0%Re)) ?size_map ?size_iota // (nth_map 0%N) ?size_iota // nth_iota // add0n.
  have c0 : (0 < w_cols (l_G L))%N by rewrite hc; exact: leq_ltn_trans hb.
  by rewrite divnMDl // modnMDl divn_small ?modn_small ?addn0 // hc.
have [d1 _] := dif_lt i1 j1; have [d2 _] := dif_lt i2 j2; have [d3 _] := dif_lt j1 i1; have [d4 _] := dif_lt j2 i2.
rewrite /= !val // !at_ -fo; congr f.
rewrite (dif_opp i1 j1) (dif_opp i2 j2) /order_vector /opp2 /=.
by rewrite !opp_IZR; congr (_, _); ring.
Qed.
Lemma conj_real (z : C) : snd z = 0%Re -> Cconj z = z.
Proof. by move=> h; apply: C_ext => /=; rewrite ?h; ring. Qed.
Lemma epsilon_hermitian isl host inverse T : epsilon_g (l_q L) isl host inverse = Ok T -> snd host = 0%Re ->
  (forall t e, List.In (t, e) isl -> snd e = 0%Re /\ hermitian_table t) -> hermitian_table T.
Proof.
have [_ _ hq _ _] := mk_latticeE hL; rewrite hq => /epsilon_gE [_ _ hT] hh hi i j h1 h2.
have [i1 i2 _] := coords_lt h1; have [j1 j2 _] := coords_lt h2.
rewrite /entry !hT !dif_centre // conjCD; congr (_ + _).
  rewrite [(j %% _ == _)%N]eq_sym [(j %/ _ == _)%N]eq_sym; case: ifP => _; last by rewrite conjC0.
  by case: inverse {hT}; rewrite ?conjCV conj_real.
elim: isl {hT} hi => [|[t e] isl IH] hi; first by rewrite !big_nil conjC0.
rewrite !big_cons conjCD conjCM /=; have [er ht] := hi t e (or_introl erefl).
congr (_ * _ + _); last by apply: IH => t' e' h; apply: hi; right.
  by case: inverse {IH}; rewrite conjCD conjCN ?conjCV !conj_real.
exact: (ht i j h1 h2).
Qed.
End Tables.
Lemma mapM_In A B (f : A -> res B) l r y : mapM f l = Ok r -> List.In y r -> exists2 x, List.In x l & f x = Ok y.
Proof.
elim: l r => [|x l IH] r /=; first by case=> <-.
case hx : (f x) => [b|//]; cbn [bind]; case hl : (mapM f l) => [r'|//]; cbn [bind] => -[<-] /= [<-|h].
  by exists x => //; left.
by have [x' h1 h2] := IH _ hl h; exists x' => //; right.
Qed.
(** Every lossless layer conserves the flux. *)
Lemma layer_conserves J1 p a1 a2 ei ee L n expm isl host wl kp d pow S :
  mk_lattice p a1 a2 ei ee = Ok L -> window_fits p -> is_expm expm ->
  snd host = 0%Re -> (forall s e, List.In (s, e) isl -> snd e = 0%Re) ->
  @scattering_matrix_islands J1 n expm p L isl host wl kp d pow = Ok S ->
  exists U V E, [/\ lattice_U n L wl kp = Ok U, lattice_Vi n L wl kp = Ok V, matrix_s (U *m E *m V) = Ok S & conserves E].
Proof.
move=> hL hf hexp hh hi; rewrite /scattering_matrix_islands.
have [_ _ hq _ _] := mk_latticeE hL.
case hg : (grid_size _) => [nq|//]; cbn [bind]; have [_ e] := grid_sizeE hg; have {e} -> : nq.2 = l_q L by rewrite hq e.
case hd : (mapM _ _) => [data|//]; cbn [bind].
case hT : (epsilon_g _ _ _ false) => [T|//]; cbn [bind]; case hTi : (epsilon_g _ _ _ true) => [Ti|//]; cbn [bind].
case hU : (lattice_U _ _ _ _) => [U|//]; cbn [bind]; case hV : (lattice_Vi _ _ _ _) => [V|//]; cbn [bind].
rewrite (window_rows hL).1 (window_cols hL hf).
case hl : (mapM _ _) => [l|//]; cbn [bind].
have sl : standard_orders p.1 p.2 l by apply: coords_standard; rewrite -hl; case: (p) => ? ?.
case hA : (matrix_a _ _ _ _ _ _ _) => [A|//]; cbn [bind] => hS.
have UV := lattice_UV hU hV; have [hn _ _ _ _] := lattice_UE hU.
have hn' : n = (p.1 * p.2)%N by rewrite hn (window_ng hL hf).
exists U, V, (expm (RtoC d *: - A)); split=> //; first exact: (sliced_exp hexp UV hS).
have dat t e : List.In (t, e) data -> snd e = 0%Re /\ hermitian_table p t.
  move=> h; have [[s e'] h1] := mapM_In hd h; case ht : (grid_transform _ _ _ _) => [t'|//]; cbn [bind] => -[e1 e2].
  by split; [rewrite -e2; exact: hi h1|rewrite -e1; exact: (grid_hermitian hL ht)].
have her Tb : hermitian_table p Tb -> a_rows Tb = qof p.1 -> a_cols Tb = qof p.2 ->
   forall s, order_lookups l (w_rows (window L) %/ 2) (w_cols (window L) %/ 2) n Tb = Ok s -> hermitian n (looked s).
  move=> ht h1 h2 s; rewrite (window_rows hL).1 (window_cols hL hf); have [s' -> lk] := order_lookupsE sl h1 h2 hn'.
  by case=> <- i j ii jj; rewrite !lk // ht // -hn'.
have sz inverse Tb : epsilon_g (l_q L) data host inverse = Ok Tb -> a_rows Tb = qof p.1 /\ a_cols Tb = qof p.2.
  by rewrite hq => /epsilon_gE [-> -> _].
have [r1 c1] := sz _ _ hT; have [r2 c2] := sz _ _ hTi.
rewrite (is_expmE _ hexp); apply: exp_conserves; apply: (matrix_a_flux hA).
- exact: (her _ (epsilon_hermitian hL hT hh dat) r1 c1).
- exact: (her _ (epsilon_hermitian hL hTi hh dat) r2 c2).
Qed.

(** * The flux of the fields of one medium *)
Definition order_flux {n} (F : 'cV[C]_((n + n) + (n + n))) (g : 'I_n) : R :=
  fst (Cconj (quarter_of F 0 g 0) * quarter_of F 3 g 0 - Cconj (quarter_of F 1 g 0) * quarter_of F 2 g 0).
Lemma adj_col m1 m2 (a : 'cV[C]_m1) (b : 'cV[C]_m2) : adj (col_mx a b) = row_mx (adj a) (adj b).
Proof. by rewrite /adj tr_col_mx map_row_mx. Qed.
Lemma flux_sum n (G : 'cV[C]_((n + n) + (n + n))) :
  fst ((adj G *m fluxform n *m G) 0 0) = (2 * (\sum_g order_flux G g : R))%Re.
Proof.
rewrite -[adj G *m _ *m _]mulmxA /order_flux.
pose g0 := quarter_of G 0; pose g1 := quarter_of G 1; pose g2 := quarter_of G 2; pose g3 := quarter_of G 3.
rewrite -/g0 -/g1 -/g2 -/g3.
have -> : G = col_mx (col_mx g0 g1) (col_mx g2 g3) by rewrite !vsubmxK.
have -> : fluxform n *m col_mx (col_mx g0 g1) (col_mx g2 g3) = col_mx (col_mx g3 (- g2)) (col_mx (- g1) g0).
  by rewrite /fluxform /quad !mul_block_col !(mul0mx, mulNmx, mul1mx, add_col_mx, add0r, addr0).
rewrite !adj_col !mul_row_col.
have d (u v : 'cV[C]_n) : (adj u *m v) 0 0 = \sum_g Cconj (u g 0) * v g 0.
  by rewrite mxE; apply: eq_bigr => g _; rewrite !mxE.
have ad (x y : 'M[C]_1) : (x + y) 0 0 = x 0 0 + y 0 0 by rewrite mxE.
rewrite !ad !d -!big_split /= -[(2 * _)%Re]/(2%Re * (\sum_g _)) mulr_sumr.
apply: (big_rec2 (fun (x : C) (y : R) => fst x = y)) => [//|g y x _ <-].
rewrite !mxE -[RHS]/(_ + _)%Re -[LHS]/(_ + _)%Re; congr (_ + _)%Re.
rewrite [in RHS]/= -[2%Re * _]/(2 * _)%Re; rewrite /=; ring.
Qed.
Lemma flux_conserved n (E : 'M[C]_((n + n) + (n + n))) (F : 'cV[C]_((n + n) + (n + n))) : conserves E ->
  (\sum_g order_flux (E *m F) g : R) = \sum_g order_flux F g.
Proof.
move=> h; have h1 := flux_sum F; have h2 := flux_sum (E *m F).
have e : adj (E *m F) *m fluxform n *m (E *m F) = adj F *m fluxform n *m F.
  by rewrite adjM -[in RHS]h !mulmxA.
rewrite e h1 in h2; lra.
Qed.

(** The fields of the waves of one medium. *)
Definition wave_flux (K : C) (sg : R) (p0 p1 p2 p3 : C) : R :=
  fst (K * (p0 - p2) * Cconj (p0 + p2) + RtoC sg * (Cconj K * Cconj (p1 - p3) * (p1 + p3))).
Section Medium.
Variables (n : nat) (L : lattice) (wl : R) (kp : vec2) (eps : num) (V : 'M[C]_((n + n) + (n + n))) (r : R).
Hypotheses (hV : lattice_V n L eps wl kp = Ok V) (hr : num_val eps = RtoC r) (wl0 : (0 < wl)%Re).
Let kz (g : 'I_n) := compute_kz eps wl kp (l_g L g).
(** The sign of n / conj n. *)
Lemma index_sign : r <> 0%Re -> exists sg : R, (sg = 1%Re \/ (r < 0)%Re) /\
  cmath_sqrt eps = RtoC sg * Cconj (cmath_sqrt eps).
Proof.
move=> r0; have e := cmath_sqrt2 eps; rewrite hr in e; case: (real_or_imaginary e) => h.
  by exists 1%Re; split; [left|rewrite conj_real // -[RtoC 1]/(1 : C) mul1r].
move: (cmath_sqrt eps) e h => w e h; exists (-1)%Re; split; last by apply: C_ext => /=; rewrite h; ring.
right; have := congr1 fst e; rewrite /= h => e1; have : (0 <= snd w * snd w)%Re by nra.
by move=> ?; lra.
Qed.
(** The flux is that of independent orders, each divided into two polarisations. *)
Lemma medium_flux P (g : 'I_n) : exists sg : R, (sg = 1%Re \/ fst (kz g) = 0%Re) /\
  order_flux (V *m P) g = (wl / (mu0c * twopi) *
    wave_flux (kz g) sg (quarter_of P 0 g 0%R) (quarter_of P 1 g 0%R) (quarter_of P 2 g 0%R) (quarter_of P 3 g 0%R))%Re.
Proof.
have [hn w0 e0 hv] := lattice_VE hV.
have r0 : r <> 0%Re by move=> z; move: e0; rewrite hr z eqxx.
have [sg [hsg es]] := index_sign r0; exists sg; split.
  case: hsg => [->|rn]; [by left|right].
  have e := kz_real_sq wl kp (l_g L g) hr; rewrite -/(kz g) in e; case: (real_or_imaginary e) => // h.
  move: h e; move: (kz g) => w h /(congr1 fst); rewrite -[RHS]/(_ - _)%Re -[LHS]/(_ - _)%Re h => e2; exfalso.
  have q2 := pow2_ge_0 (kp.1 + (l_g L g).1); have q3 := pow2_ge_0 (kp.2 + (l_g L g).2).
  have q4 : (0 < (2 * PI / wl) ^ 2)%Re by apply: pow_lt; apply: Rdiv_lt_0_compat => //; have := PI_RGT_0; lra.
  by nra.
move: hv; rewrite /matrix_v; case hs : (np_sqrt _) => [s|//]; cbn [bind] => -[<-]; rewrite (np_sqrtE hs) {hs s}.
have e2 : RtoC (- (udir kp (l_g L g)).1)%Re = - RtoC (udir kp (l_g L g)).1 by apply: C_ext => /=; ring.
have e3 : RtoC (udir kp (l_g L g)).1 * RtoC (udir kp (l_g L g)).1 = 1 - RtoC (udir kp (l_g L g)).2 * RtoC (udir kp (l_g L g)).2.
  by apply: C_ext => /=; have := udir_unit kp (l_g L g); lra.
have n10 : cmath_sqrt eps != 0 by exact: cmath_sqrt_neq0.
have m0 := mu0c_neq0; have tp : twopi <> 0%Re by rewrite /twopi; have := PI_RGT_0; lra.
rewrite /order_flux; set V' := quad _.
pose X := RtoC (udir kp (l_g L g)).1; pose Y := RtoC (udir kp (l_g L g)).2; rewrite -/X -/Y in e2 e3.
pose f := kz g / (cmath_sqrt eps * RtoC twopi / RtoC wl); pose hv := cmath_sqrt eps / RtoC mu0c.
pose p a := quarter_of P a g 0; rewrite -!/(p _).
have F0 : quarter_of (V' *m P) 0 g 0 = Y * (p 0%N + p 2%N) + X * (f * (p 3%N - p 1%N)).
  by rewrite quad_quarters //= /etaf /= -/(kz g) -/f -/X -/Y /p /quarter_of; toC; ring.
have F1 : quarter_of (V' *m P) 1 g 0 = - X * (p 0%N + p 2%N) + Y * (f * (p 3%N - p 1%N)).
  by rewrite quad_quarters //= /etaf /= -/(kz g) -/f -/X -/Y /p /quarter_of e2; toC; ring.
have F2 : quarter_of (V' *m P) 2 g 0 = X * (hv * f * (p 0%N - p 2%N)) + Y * (hv * (p 1%N + p 3%N)).
  by rewrite quad_quarters //= /etaf /= -/(kz g) -/f -/hv -/X -/Y /p /quarter_of; toC; ring.
have F3 : quarter_of (V' *m P) 3 g 0 = Y * (hv * f * (p 0%N - p 2%N)) - X * (hv * (p 1%N + p 3%N)).
  by rewrite quad_quarters //= /etaf /= -/(kz g) -/f -/hv -/X -/Y /p /quarter_of e2; toC; ring.
have -> : (wl / (mu0c * twopi) * wave_flux (kz g) sg (p 0%N) (p 1%N) (p 2%N) (p 3%N))%Re =
  fst (RtoC wl / (RtoC mu0c * RtoC twopi) * (kz g * (p 0%N - p 2%N) * Cconj (p 0%N + p 2%N) +
   RtoC sg * (Cconj (kz g) * Cconj (p 1%N - p 3%N) * (p 1%N + p 3%N)))).
  rewrite /wave_flux; have -> : RtoC wl / (RtoC mu0c * RtoC twopi) = RtoC (wl / (mu0c * twopi)).
    by toC; apply: C_ext => /=; field; split.
  by move: (_ + _ : C) => z; rewrite -[in RHS]/(Cmult _ _) /=; ring.
congr fst; rewrite F0 F1 F2 F3.
have c1 : RtoC mu0c <> 0 by move=> /(congr1 fst).
have c2 : RtoC wl <> 0 by move=> /(congr1 fst).
have c3 : RtoC twopi <> 0 by move=> /(congr1 fst).
have c4 : Cconj (cmath_sqrt eps) <> 0 by move=> /(congr1 Cconj); rewrite conjCK conjC0; apply/eqP.
have c5 : RtoC sg <> 0 by move=> z; move/eqP: n10; rewrite es z mul0r.
have cX : Cconj X = X by exact: conjC_R.
have cY : Cconj Y = Y by exact: conjC_R.
have hf1 : hv * f = kz g * RtoC wl / (RtoC mu0c * RtoC twopi).
  by rewrite /hv /f; move/eqP: n10 => n10; toC; field.
have hf2 : hv * Cconj f = RtoC sg * Cconj (kz g) * RtoC wl / (RtoC mu0c * RtoC twopi).
  rewrite /hv /f !(conjCM, conjCV, conjC_R) {1}es; move: c1 c2 c3 c4; move: (Cconj (cmath_sqrt eps)) (RtoC mu0c) (RtoC wl) (RtoC twopi) (Cconj (kz g)) (RtoC sg) => *; toC; field; by repeat split.
clear F0 F1 F2 F3; clearbody f hv X Y; rewrite hf1 !(conjCD, conjCN, conjCM, cX, cY).
move: (p 0%N) (p 1%N) (p 2%N) (p 3%N) => p0 p1 p2 p3; set A := kz g * _ / _ in hf1 *.
have -> : (Y * (Cconj p0 + Cconj p2) + X * (Cconj f * (Cconj p3 - Cconj p1))) * (Y * (A * (p0 - p2)) - X * (hv * (p1 + p3))) -
   (- X * (Cconj p0 + Cconj p2) + Y * (Cconj f * (Cconj p3 - Cconj p1))) * (X * (A * (p0 - p2)) + Y * (hv * (p1 + p3))) =
   (X * X + Y * Y) * (A * (p0 - p2) * (Cconj p0 + Cconj p2) + hv * Cconj f * (Cconj p1 - Cconj p3) * (p1 + p3)).
  by move: (Cconj p0) (Cconj p1) (Cconj p2) (Cconj p3) (Cconj f) => *; toC; ring.
rewrite e3 subrK mul1r hf2 /A; move: c1 c3; move: (Cconj p0) (Cconj p1) (Cconj p2) (Cconj p3) (Cconj (kz g)) (RtoC mu0c) (RtoC twopi) => *.
by toC; field; split.
Qed.
(** Propagating orders, and evanescent orders with waves in one direction only. *)
Lemma wave_flux_real K sg p0 p1 p2 p3 : snd K = 0%Re -> sg = 1%Re \/ fst K = 0%Re ->
  wave_flux K sg p0 p1 p2 p3 = (fst K * ((sqmod p0 + sqmod p1) - (sqmod p2 + sqmod p3)))%Re.
Proof. by move=> hK [->|h]; rewrite /wave_flux !sqmodE /= ?h hK; ring. Qed.
Lemma wave_flux_zero K sg p0 p1 p2 p3 : fst K = 0%Re -> (p0 = 0 /\ p1 = 0) \/ (p2 = 0 /\ p3 = 0) ->
  wave_flux K sg p0 p1 p2 p3 = 0%Re.
Proof. by move=> hK [[-> ->]|[-> ->]]; rewrite /wave_flux /= hK; ring. Qed.
End Medium.

(** * Piles of lossless layers *)

(** A matrix whose transfer matrix, written for the fields, conserves the flux. *)
Definition lossless (n : nat) (L : lattice) (wl : R) (kp : vec2) (S : 'M[C]_((n + n) + (n + n))) : Prop :=
  exists U V E, [/\ lattice_U n L wl kp = Ok U, lattice_Vi n L wl kp = Ok V, matrix_s (U *m E *m V) = Ok S & conserves E].
Lemma losslessM n L wl kp (S1 S2 S : 'M[C]_((n + n) + (n + n))) :
  lossless L wl kp S1 -> lossless L wl kp S2 -> multS S1 S2 = Ok S -> lossless L wl kp S.
Proof.
move=> [U [V [E [hU hV h1 c1]]]] [U' [V' [E' [hU' hV' h2 c2]]]] hm.
move: hU' hV'; rewrite hU hV => -[eU] [eV]; subst U' V'.
exists U, V, (E *m E'); split=> //; last exact: conservesM.
have VU : V *m U = 1%:M by apply: mulmx1C; exact: lattice_UV hU hV.
rewrite -hm -(matrix_s_mul h1 h2); congr matrix_s.
by rewrite !mulmxA -[_ *m V *m U]mulmxA VU mulmx1.
Qed.
(** The same, seen from an interface. *)
Definition lossless_onto (n : nat) (L : lattice) (wl : R) (kp : vec2) (S : 'M[C]_((n + n) + (n + n))) : Prop :=
  exists U V E, [/\ lattice_U n L wl kp = Ok U, lattice_Ve n L wl kp = Ok V, matrix_s (U *m E *m V) = Ok S & conserves E].
Lemma conserves1 n : conserves (1%:M : 'M[C]_((n + n) + (n + n))).
Proof.
have e : adj (1%:M : 'M[C]_((n + n) + (n + n))) = 1%:M.
  by apply/matrixP => i j; rewrite !mxE eq_sym; case: eqP => _; rewrite ?conjC0 //=; apply: C_ext => /=; ring.
by rewrite /conserves e mul1mx mulmx1.
Qed.
Lemma interface_lossless n L wl kp (S : 'M[C]_((n + n) + (n + n))) :
  scattering_interface n L wl kp = Ok S -> lossless_onto L wl kp S.
Proof.
rewrite /scattering_interface; case hU : (lattice_U _ _ _ _) => [U|//]; cbn [bind].
case hV : (lattice_Ve _ _ _ _) => [V|//]; cbn [bind]; rewrite /interface => hm.
by exists U, V, 1%:M; split=> //; [rewrite mulmx1|exact: conserves1].
Qed.
Lemma lossless_ontoM n L wl kp (S1 S2 S : 'M[C]_((n + n) + (n + n))) :
  lossless L wl kp S1 -> lossless_onto L wl kp S2 -> multS S1 S2 = Ok S -> lossless_onto L wl kp S.
Proof.
move=> [U [V [E [hU hV h1 c1]]]] [U' [V' [E' [hU' hV' h2 c2]]]] hm.
move: hU'; rewrite hU => -[eU]; subst U'.
exists U, V', (E *m E'); split=> //; last exact: conservesM.
have VU : V *m U = 1%:M by apply: mulmx1C; exact: lattice_UV hU hV.
rewrite -hm -(matrix_s_mul h1 h2); congr matrix_s.
by rewrite !mulmxA -[_ *m V *m U]mulmxA VU mulmx1.
Qed.

(** * Currents *)
Definition propagating (K : C) (x : R) : R := if Req_EM_T (snd K) 0 then (fst K * x)%Re else 0%Re.
Definition two (n : nat) (P : 'cV[C]_((n + n) + (n + n))) (a b : nat) (g : 'I_n) : R :=
  (sqmod (quarter_of P a g 0%R) + sqmod (quarter_of P b g 0%R))%Re.
Lemma mu0c_pos : (0 < mu0c)%Re.
Proof.
rewrite /mu0c /mu0 /light_speed; have := PI_RGT_0; have : (0 < / 10 ^ 7)%Re by apply: Rinv_0_lt_compat; lra.
by move=> h1 h2; repeat apply: Rmult_lt_0_compat => //; lra.
Qed.
Section Powers.
Variables (n : nat) (L : lattice) (wl : R) (kp : vec2) (S E : 'M[C]_((n + n) + (n + n))).
Hypothesis hS : exists U V, [/\ lattice_U n L wl kp = Ok U, lattice_Ve n L wl kp = Ok V & matrix_s (U *m E *m V) = Ok S].
Hypothesis wl0 : (0 < wl)%Re.
Variables (r r' : R).
Hypotheses (hi : num_val (l_incid L) = RtoC r) (he : num_val (l_emerg L) = RtoC r') (r0 : (0 < r)%Re).
Variable pin : 'cV[C]_((n + n) + (n + n)).
Hypothesis forward : dsubmx pin = 0.
Let pout := S *m pin.
Let ki (g : 'I_n) := compute_kz (l_incid L) wl kp (l_g L g).
Let ke (g : 'I_n) := compute_kz (l_emerg L) wl kp (l_g L g).
Hypothesis prop : forall g : 'I_n, snd (ki g) = 0%Re \/ (quarter_of pin 0 g 0 = 0 /\ quarter_of pin 1 g 0 = 0).
(** The fluxes of the fields on both sides. *)
Lemma pile_flux : exists (F : 'cV[C]_((n + n) + (n + n))) (c : R), [/\ (0 < c)%Re,
  (\sum_g order_flux (E *m F) g : R) = (c * ((\sum_g propagating (ki g) (two pin 0 1 g) : R) - (\sum_g propagating (ki g) (two pout 2 3 g) : R)))%Re &
  (\sum_g order_flux F g : R) = (c * (\sum_g propagating (ke g) (two pout 0 1 g) : R))%Re].
Proof.
have [U [Ve [hU hVe hm]]] := hS.
have [hn w0 e0 k0 _] := lattice_UE hU.
have [Vi hVi] : is_ok (lattice_Vi n L wl kp).
  apply: lattice_V_def => //; move: hi; case: (l_incid L) => //= x /(congr1 fst) /= ->; lra.
have VU := mulmx1C (lattice_UV hU hVi).
pose P := col_mx (usubmx pin) (dsubmx pout); pose Q := col_mx (usubmx pout) (dsubmx pin).
have hPQ : P = U *m E *m Ve *m Q.
  have : tscatters S (usubmx P) (dsubmx P) (usubmx Q) (dsubmx Q).
    by rewrite /tscatters /P /Q !(col_mxKu, col_mxKd) !vsubmxK.
  by rewrite (matrix_s_meaning _ _ _ _ hm) /transfers !vsubmxK.
have {}hPQ : Vi *m P = E *m (Ve *m Q) by rewrite hPQ !mulmxA VU mul1mx.
have q0 a (g : 'I_n) : (a < 2)%N -> quarter_of P a g 0 = quarter_of pin a g 0 /\ quarter_of Q a g 0 = quarter_of pout a g 0.
  by case: a => [|[|//]] _; rewrite /quarter_of /P /Q !(col_mxKu, col_mxKd).
have q1 a (g : 'I_n) : (1 < a < 4)%N -> quarter_of P a g 0 = quarter_of pout a g 0 /\ quarter_of Q a g 0 = 0.
  by case: a => [|[|[|[|//]]]] // _; rewrite /quarter_of /P /Q !(col_mxKu, col_mxKd) forward !mxE.
have z0 : sqmod (0 : C) = 0%Re by rewrite sqmodE /=; ring.
set c := (wl / (mu0c * twopi))%Re.
have FP (g : 'I_n) : order_flux (Vi *m P) g = (c * (propagating (ki g) (two pin 0 1 g) - propagating (ki g) (two pout 2 3 g)))%Re.
  have [sg [hsg ->]] := medium_flux hVi hi wl0 P g; rewrite -/(ki g) -/c in hsg *; congr (_ * _)%Re.
  have [-> _] := q0 0%N g erefl; have [-> _] := q0 1%N g erefl; have [-> _] := q1 2%N g erefl; have [-> _] := q1 3%N g erefl.
  rewrite /propagating; destruct (Req_EM_T (snd (ki g)) 0) as [h|h]; cbn [is_left].
    by rewrite wave_flux_real // /two; ring.
  rewrite wave_flux_zero ?Rminus_0_r //; first by case: (real_or_imaginary (kz_real_sq wl kp (l_g L g) hi)).
  by case: (prop g) => // z; left.
have FQ (g : 'I_n) : order_flux (Ve *m Q) g = (c * propagating (ke g) (two pout 0 1 g))%Re.
  have [sg [hsg ->]] := medium_flux hVe he wl0 Q g; rewrite -/(ke g) -/c in hsg *; congr (_ * _)%Re.
  have [_ ->] := q0 0%N g erefl; have [_ ->] := q0 1%N g erefl; have [_ ->] := q1 2%N g erefl; have [_ ->] := q1 3%N g erefl.
  rewrite /propagating; destruct (Req_EM_T (snd (ke g)) 0) as [h|h]; cbn [is_left].
    by rewrite wave_flux_real // /two z0; ring.
  rewrite wave_flux_zero //; first by case: (real_or_imaginary (kz_real_sq wl kp (l_g L g) he)).
  by right.
have c0 : (0 < c)%Re.
  rewrite /c; have m0 := mu0c_pos; have p0 := PI_RGT_0; apply: Rmult_lt_0_compat => //; apply: Rinv_0_lt_compat.
  by rewrite /twopi; nra.
have ms (u : 'I_n -> R) : (\sum_g (c * u g)%Re : R) = (c * (\sum_g u g : R))%Re.
  by rewrite -[RHS]/(c * (\sum_g u g)) mulr_sumr.
exists (Ve *m Q), c; rewrite -hPQ (eq_bigr _ (fun g _ => FP g)) (eq_bigr _ (fun g _ => FQ g)) !ms; split=> //.
by congr (_ * _)%Re; exact: (sumrB (V := R_zmodType)).
Qed.
End Powers.
Section Currents.
Variables (n : nat) (L : lattice) (wl : R) (kp : vec2) (S : 'M[C]_((n + n) + (n + n))).
Hypothesis hS : lossless_onto L wl kp S.
Hypothesis wl0 : (0 < wl)%Re.
Variables (r r' : R).
Hypotheses (hi : num_val (l_incid L) = RtoC r) (he : num_val (l_emerg L) = RtoC r') (r0 : (0 < r)%Re).
Variable pin : 'cV[C]_((n + n) + (n + n)).
Hypothesis forward : dsubmx pin = 0.
Let pout := S *m pin.
Let ki (g : 'I_n) := compute_kz (l_incid L) wl kp (l_g L g).
Let ke (g : 'I_n) := compute_kz (l_emerg L) wl kp (l_g L g).
Hypothesis prop : forall g : 'I_n, snd (ki g) = 0%Re \/ (quarter_of pin 0 g 0 = 0 /\ quarter_of pin 1 g 0 = 0).
Lemma pile_energy :
  ((\sum_g propagating (ki g) (two pin 0 1 g) : R) =
   (\sum_g propagating (ki g) (two pout 2 3 g) : R) + (\sum_g propagating (ke g) (two pout 0 1 g) : R))%Re.
Proof.
have [U [Ve [E [hU hVe hm cE]]]] := hS.
have [F [c [c0 e1 e2]]] := pile_flux (ex_intro _ U (ex_intro _ Ve (And3 hU hVe hm))) wl0 hi he r0 forward prop.
have := flux_conserved F cE; rewrite e1 e2 => /(Rmult_eq_reg_l _ _ _) /(_ (Rgt_not_eq _ _ c0)) h.
have aux (x y z : R) : (x - y = z)%Re -> (x = y + z)%Re by move=> <-; match goal with |- @eq _ ?a ?b => change (@eq R a b) end; ring.
exact: aux h.
Qed.
Hypothesis clear_i : clear_orders L (l_incid L) wl kp.
Hypothesis clear_e : clear_orders L (l_emerg L) wl kp.
Lemma currents_form js (po : 'cV[C]_((n + n) + (n + n))) : compute_currents pin po L wl kp = Ok js -> let: (j1p, j1m, j3p) := js in
  exists2 q : R, q = (l_area L / (2 * mu0c * twopi / wl))%Re & [/\ forall g, j1p g = RtoC (q * propagating (ki g) (two pin 0 1 g)),
    forall g, j1m g = RtoC (q * propagating (ki g) (two po 2 3 g)) &
    forall g, j3p g = RtoC (q * propagating (ke g) (two po 0 1 g))].
Proof.
rewrite /compute_currents; case: eqP => // hn; destruct (Req_EM_T wl 0) as [h|h] => //; cbn [is_left].
have feps := feps.
have -> : (if Rlt_dec (Rabs (snd (num_val (l_emerg L)))) float_eps then false else true) = false.
  rewrite he /= Rabs_R0; by destruct (Rlt_dec 0 float_eps).
case=> <-; exists (l_area L / (2 * mu0c * twopi / wl))%Re => //; move: (l_area L / _)%Re => q.
have real (z : C) (x : R) : snd z = 0%Re -> RtoC q * z * RtoC x = RtoC (q * (fst z * x))%Re.
  by move=> e; apply: C_ext => /=; rewrite e; ring.
have qz : (0 : C) = RtoC (q * 0) by apply: C_ext => /=; ring.
have lt (g : 'I_n) : (g < l_ng L)%N by rewrite -hn; exact: ltn_ord.
have ci1 g := clear_i (lt g); have ce1 g := clear_e (lt g).
split=> g; rewrite /propagating.
- rewrite -/(ki g) -/(two pin 0%N 1%N g); destruct (Rle_dec (Rabs (snd (ki g))) float_eps) as [h1|h1]; destruct (Req_EM_T (snd (ki g)) 0) as [h2|h2] => //; cbn [is_left].
  + exact: real.
  + by case: (ci1 g) => // h3; rewrite -/float_eps -/(ki g) in h3; exfalso; lra.
  + by exfalso; apply: h1; rewrite h2 Rabs_R0; lra.
- rewrite -/(ki g) -/(two po 2%N 3%N g); destruct (Rle_dec (Rabs (snd (ki g))) float_eps) as [h1|h1]; destruct (Req_EM_T (snd (ki g)) 0) as [h2|h2] => //; cbn [is_left].
  + exact: real.
  + by case: (ci1 g) => // h3; rewrite -/float_eps -/(ki g) in h3; exfalso; lra.
  + by exfalso; apply: h1; rewrite h2 Rabs_R0; lra.
- rewrite -/(ke g) -/(two po 0%N 1%N g); destruct (Rlt_dec (Rabs (snd (ke g))) float_eps) as [h1|h1]; destruct (Req_EM_T (snd (ke g)) 0) as [h2|h2] => //; cbn [is_left].
  + exact: real.
  + by case: (ce1 g) => // h3; rewrite -/float_eps -/(ke g) in h3; exfalso; lra.
  + by exfalso; apply: h1; rewrite h2 Rabs_R0; lra.
Qed.
Lemma pile_currents js : compute_currents pin pout L wl kp = Ok js -> let: (j1p, j1m, j3p) := js in
  exists q a b c : R, [/\ \sum_g j1p g = RtoC (q * a), \sum_g j1m g = RtoC (q * b), \sum_g j3p g = RtoC (q * c), (a = b + c)%Re &
        [/\ (0 <= a)%Re, (0 <= b)%Re & (0 <= c)%Re]].
Proof.
move/currents_form; case: js => [[j1p j1m] j3p] [q _ [f1 f2 f3]].
have S0 (j : 'I_n -> C) (u : 'I_n -> R) : (forall g, j g = RtoC (q * u g)%Re) -> \sum_g j g = RtoC (q * (\sum_g u g : R))%Re.
  move=> e; rewrite (eq_bigr _ (fun g _ => e g)) -[(q * _)%Re]/(q * (\sum_g u g : R)) mulr_sumr.
  by apply: (big_rec2 (fun (x : C) (y : R) => x = RtoC y)) => [//|i y x _ ->]; apply: C_ext => //; exact: Rplus_0_r.
have P0 (u : 'I_n -> R) : (forall g, 0 <= u g)%Re -> (0 <= (\sum_g u g : R))%Re.
  by move=> e; apply: (big_ind (fun x : R => 0 <= x)%Re) => [|x y|i _]; [exact: Rle_refl|exact: Rplus_le_le_0_compat|exact: e].
have sq0 z : (0 <= sqmod z)%Re by rewrite /sqmod; exact: pow2_ge_0.
have p0 eps (g : 'I_n) P a b : (0 <= propagating (compute_kz eps wl kp (l_g L g)) (two P a b g))%Re.
  rewrite /propagating; destruct (Req_EM_T _ 0) as [h|h]; cbn [is_left]; last exact: Rle_refl.
  apply: Rmult_le_pos; first exact: (kz_pos wl0 h).
  by rewrite /two; have := sq0 (quarter_of P a g 0%R); have := sq0 (quarter_of P b g 0%R); lra.
exists q, (\sum_g propagating (ki g) (two pin 0 1 g)), (\sum_g propagating (ki g) (two pout 2 3 g)), (\sum_g propagating (ke g) (two pout 0 1 g)).
split; [exact: S0 f1|exact: S0 f2|exact: S0 f3|exact: pile_energy|].
by split; apply: P0 => g; exact: p0.
Qed.
Lemma pile_fluxes f kp' : kp = (0%Re, 0%Re) -> compute_fluxes L wl pin pout kp' = Ok f ->
  (f.1.1 + f.1.2 = 1)%Re /\ f.2 = 0%Re.
Proof.
move=> k0; rewrite /compute_fluxes -k0; case hj : (compute_currents _ _ _ _ _) => [[[j1p j1m] j3p]|//]; cbn [bind].
have [q [a [b [c [-> -> -> e [a0 b0 c0]]]]]] := pile_currents hj.
case: eqP => // nz [<-] /=.
have qa : (q * a)%Re <> 0%Re by move=> z; apply: nz; rewrite z.
have q0 : q <> 0%Re by move=> z; apply: qa; rewrite z; ring.
have a1 : a <> 0%Re by move=> z; apply: qa; rewrite z; ring.
have rat x : (0 <= x)%Re -> Cmod (RtoC (q * x) / RtoC (q * a)) = (x / a)%Re.
  move=> x0; have -> : RtoC (q * x) / RtoC (q * a) = RtoC (x / a) by toC; apply: C_ext => /=; field; repeat split => //; nra.
  by rewrite Cmod_R Rabs_pos_eq //; apply: Rmult_le_pos => //; apply/Rlt_le/Rinv_0_lt_compat; lra.
have h : (b / a + c / a = 1)%Re by rewrite e; field; rewrite -e.
by rewrite !rat //; split; lra.
Qed.
End Currents.
