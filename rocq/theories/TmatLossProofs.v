(** Energy of absorbing layers in the T-matrix API. *)
From Coq Require Import Reals ZArith String Lra Lia.
From mathcomp Require Import all_ssreflect all_algebra.
From Coquelicot Require Import Complex.
From Verif Require Import SpecEnergy Base CField RField CFun ModelRedheffer RedhefferProofs ModelExpansion ModelFourier Blk ModelTmat SpecTmat TmatProofs
  ModelLattice SpecLattice LatticeProofs LookupProofs CurrentProofs FourierProofs SpecExp ExpProofs ExpDerive SpecExpansion AnalyticalProofs TmatTheorems
  TmatEnergyProofs ModelDevice SpecTransform TransformProofs IslandProofs CellForms SpecLoss.
Set Implicit Arguments. Unset Strict Implicit. Unset Printing Implicit Defensive.
Import GRing.Theory.
Local Open Scope ring_scope.

(** x* M x for the coefficients between orders. *)
Definition herm (n : nat) (e : nat -> nat -> C) (x : 'cV[C]_n) : C := \sum_(i < n) \sum_(j < n) Cconj (x i 0) * e i j * x j 0.
Lemma herm_mx n (e : nat -> nat -> C) (x : 'cV[C]_n) : (adj x *m (\matrix_(i, j) e i j) *m x) 0 0 = herm e x.
Proof.
rewrite /herm mxE exchange_big /=; apply: eq_bigr => j _; rewrite mxE mulr_suml; apply: eq_bigr => i _.
by rewrite !mxE.
Qed.
Lemma herm_conj n (e : nat -> nat -> C) (x : 'cV[C]_n) : herm (fun i j => Cconj (e j i)) x = Cconj (herm e x).
Proof.
rewrite /herm conjC_sum exchange_big /=; apply: eq_bigr => j _; rewrite conjC_sum; apply: eq_bigr => i _.
by rewrite !conjCM conjCK; toC; ring.
Qed.
Lemma hermB n (e f : nat -> nat -> C) (x : 'cV[C]_n) : herm (fun i j => e i j - f i j) x = herm e x - herm f x.
Proof. by rewrite /herm -sumrB; apply: eq_bigr => i _; rewrite -sumrB; apply: eq_bigr => j _; rewrite mulrBr mulrBl. Qed.
Lemma hermZ n (c : C) (e : nat -> nat -> C) (x : 'cV[C]_n) : herm (fun i j => c * e i j) x = c * herm e x.
Proof. by rewrite /herm mulr_sumr; apply: eq_bigr => i _; rewrite mulr_sumr; apply: eq_bigr => j _; rewrite mulrCA !mulrA. Qed.
Definition part (e : nat -> nat -> C) (i j : nat) : C := e i j - Cconj (e j i).

Lemma quadD n (A B : nat -> nat -> 'M[C]_n) : quad A + quad B = quad (fun a b => A a b + B a b).
Proof. by rewrite /quad !add_block_mx. Qed.

(** What the layer loses per unit of depth. *)
Definition weigh (n : nat) (u : 'I_n -> C) (x : 'cV[C]_n) : 'cV[C]_n := \col_g (u g * x g 0).
Lemma matrix_a_loss n l w T Ti wl kp A : matrix_a n l w T Ti wl kp = Ok A -> exists e v, [/\
    order_lookups l (w_rows w %/ 2) (w_cols w %/ 2) n T = Ok e, order_lookups l (w_rows w %/ 2) (w_cols w %/ 2) n Ti = Ok v &
    forall G, (adj G *m (adj A *m fluxform n + fluxform n *m A) *m G) 0 0 =
      ieo wl * (herm (part (looked e)) (quarter_of G 0) + herm (part (looked e)) (quarter_of G 1)) -
      iseo wl * herm (part (looked v)) (weigh (fun g => - RtoC (uvec kp (w_flat w g)).2) (quarter_of G 2) + weigh (fun g => RtoC (uvec kp (w_flat w g)).1) (quarter_of G 3))].
Proof.
rewrite /matrix_a; destruct (Req_EM_T wl 0) as [h|h] => //; cbn [is_left]; case: eqP => // hn.
case he : (order_lookups _ _ _ n T) => [e|//]; cbn [bind]; case hv : (order_lookups _ _ _ n Ti) => [v|//]; cbn [bind] => -[<-].
exists e, v; split=> // G.
set ux := fun g : 'I_n => RtoC (uvec kp (w_flat w g)).1; set uy := fun g : 'I_n => RtoC (uvec kp (w_flat w g)).2.
pose K a b : 'M[C]_n := match a, b with
  | 0%N, 0%N | 1%N, 1%N => \matrix_(i, j) (ieo wl * part (looked e) i j)
  | 2%N, 2%N => \matrix_(i, j) (- iseo wl * uy i * part (looked v) i j * uy j)
  | 2%N, 3%N => \matrix_(i, j) (iseo wl * uy i * part (looked v) i j * ux j)
  | 3%N, 2%N => \matrix_(i, j) (iseo wl * ux i * part (looked v) i j * uy j)
  | 3%N, 3%N => \matrix_(i, j) (- iseo wl * ux i * part (looked v) i j * ux j)
  | _, _ => 0 end.
set B := quad _.
have -> : adj B *m fluxform n + fluxform n *m B = quad K.
{ rewrite {}/B.
  rewrite adj_quad /fluxform !quadM quadD; apply: eq_quad.
  have ic : Cconj ci = - ci by apply: C_ext => /=; ring.
  have i1 : Cconj (ismo wl) = - ismo wl by rewrite /ismo !conjCM !conjCV !conjC_R ic !mulNr.
  have i2 : Cconj (iseo wl) = - iseo wl by rewrite /iseo !conjCM !conjCV !conjC_R ic !mulNr.
  have i3 : Cconj (ieo wl) = - ieo wl by rewrite /ieo !conjCM !conjCV !conjC_R ic !mulNr.
  have i4 : Cconj (imo wl) = - imo wl by rewrite /imo !conjCM !conjC_R ic !mulNr.
  apply: below4; apply: below4; rewrite /K /ux /uy /= !(mulmx0, mul0mx, mulmx1, mul1mx, mulmxN, mulNmx, add0r, addr0, oppr0).
  all: rewrite ?/adj ?trmx0 ?map_mx0 ?oppr0 ?addr0 ?opprK //; apply/matrixP => i j; rewrite !mxE.
  all: rewrite /part ?[j == i]eq_sym; case: (i =P j) => [->|_]; rewrite ?mulr1n ?mulr0n ?expr2.
  all: rewrite !(conjCD, conjCN, conjCM, conjC_R, conjC0, conjCK, i1, i2, i3, i4).
  all: toC; ring. }
have eG : G = col_mx (col_mx (quarter_of G 0) (quarter_of G 1)) (col_mx (quarter_of G 2) (quarter_of G 3)) by rewrite !vsubmxK.
rewrite [in LHS]eG; move: (quarter_of G 0) (quarter_of G 1) (quarter_of G 2) (quarter_of G 3) => a b c d.
rewrite -mulmxA /quad /K !mul_block_col !(mul0mx, add_col_mx, add0r, addr0) !adj_col !mul_row_col.
have ad (x y : 'M[C]_1) : (x + y) 0 0 = x 0 0 + y 0 0 by rewrite mxE.
have en (M : 'M[C]_n) (x y : 'cV[C]_n) : (adj x *m (M *m y)) 0 0 = \sum_i \sum_j Cconj (x i 0) * M i j * y j 0.
  by rewrite mxE; apply: eq_bigr => i _; rewrite !mxE mulr_sumr; apply: eq_bigr => j _; rewrite mulrA.
rewrite !mulmxDr !ad !en mulrDr -!hermZ /herm.
congr (_ + _); first congr (_ + _); try by apply: eq_bigr => i _; apply: eq_bigr => j _; rewrite mxE.
rewrite -sumrN -!big_split /=; apply: eq_bigr => i _.
rewrite -sumrN -!big_split /=; apply: eq_bigr => j _.
rewrite !mxE !conjCD !conjCM !conjCN /ux /uy !conjC_R; toC; ring.
Qed.

(** * Matrices that lose power, from the left to the right *)
Definition dissipates (n : nat) (E : 'M[C]_((n + n) + (n + n))) : Prop :=
  forall F, (formval (fluxform n) F <= formval (fluxform n) (E *m F))%Re.
Lemma dissipatesM n (E E' : 'M[C]_((n + n) + (n + n))) : dissipates E -> dissipates E' -> dissipates (E *m E').
Proof. by move=> h h' F; rewrite -mulmxA; exact: Rle_trans (h' F) (h _). Qed.
Lemma dissipates1 n : dissipates (1%:M : 'M[C]_((n + n) + (n + n))).
Proof. by move=> F; rewrite mul1mx; exact: Rle_refl. Qed.
Lemma part_imaginary n (e : nat -> nat -> C) (x : 'cV[C]_n) : herm (part e) x = ci * RtoC (2 * snd (herm e x))%Re.
Proof. by rewrite (hermB e (fun i j => Cconj (e j i))) herm_conj; apply: C_ext => /=; ring. Qed.
Lemma matrix_a_dissipates n l w T Ti wl kp A d : matrix_a n l w T Ti wl kp = Ok A -> (0 < wl)%Re -> (0 <= d)%Re ->
  (forall e, order_lookups l (w_rows w %/ 2) (w_cols w %/ 2) n T = Ok e -> forall x : 'cV[C]_n, (0 <= snd (herm (looked e) x))%Re) ->
  (forall v, order_lookups l (w_rows w %/ 2) (w_cols w %/ 2) n Ti = Ok v -> forall x : 'cV[C]_n, (snd (herm (looked v) x) <= 0)%Re) ->
  dissipates (mexp (RtoC d *: - A)).
Proof.
move=> hA w0 d0 he hv F; have [e [v [le lv loss]]] := matrix_a_loss hA; apply: exp_grows => G.
have {}he := he _ le; have {}hv := hv _ lv.
have -> : adj (RtoC d *: - A) *m fluxform n + fluxform n *m (RtoC d *: - A) = RtoC (- d) *: (adj A *m fluxform n + fluxform n *m A).
  have -> : RtoC (- d) = - RtoC d by apply: C_ext => /=; ring.
  by rewrite adj_scale adjN conjC_R scalerN -scaleNr -!scalemxAl scalerN -scaleNr -!scalemxAr -scalerDr.
rewrite /formval -scalemxAr -scalemxAl mxE loss !part_imaginary.
set a := snd (herm _ (quarter_of G 0)); set b := snd (herm _ (quarter_of G 1)); set c := snd (herm (looked v) _).
have [a0 b0 c0] : [/\ (0 <= a)%Re, (0 <= b)%Re & (c <= 0)%Re] by split; [exact: he|exact: he|exact: hv].
have tw : (0 < twopi)%Re by rewrite /twopi; have := PI_RGT_0; lra.
have m0 := mu0c_pos.
have -> : RtoC (- d) * (ieo wl * (ci * RtoC (2 * a) + ci * RtoC (2 * b)) - iseo wl * (ci * RtoC (2 * c))) =
  RtoC (2 * d * ((a + b) * (twopi / (mu0c * wl)) - c * (mu0c * wl / twopi))).
  by rewrite /ieo /iseo; toC; apply: C_ext => /=; field; repeat split; nra.
cbn [fst RtoC]; have k1 : (0 < twopi / (mu0c * wl))%Re by apply: Rdiv_lt_0_compat => //; exact: Rmult_lt_0_compat.
have k2 : (0 < mu0c * wl / twopi)%Re by apply: Rdiv_lt_0_compat => //; exact: Rmult_lt_0_compat.
move: (twopi / _)%Re (mu0c * wl / _)%Re k1 k2 => x y k1 k2.
have p1 : (0 <= (a + b) * x)%Re by apply: Rmult_le_pos; lra.
have p2 : (0 <= - c * y)%Re by apply: Rmult_le_pos; lra.
by apply: Rmult_le_pos; lra.
Qed.

(** * Tables of rectangles *)
Definition inverted (inverse : bool) (z : C) : C := if inverse then z^-1 else z.
Definition inverted_rects (inverse : bool) (rects : seq (R * R * R * R * C)) : seq (R * R * R * R * C) :=
  [seq (p.1, inverted inverse p.2) | p <- rects].
Lemma inverted_disjoint inverse rects : disjoint (regions rects) -> disjoint (regions (inverted_rects inverse rects)).
Proof.
elim: rects => [//|[r e] rects ih] /= [h1 h2]; split; last exact: ih.
move=> q e' x y; rewrite /regions /inverted_rects -map_comp => /List.in_map_iff [[r' f] [[<- _] hi]] hp.
by apply: (h1 (in_rect r') f) => //; apply/List.in_map_iff; exists (r', f).
Qed.
Section Rects.
Variables (J1 : R -> R) (Lx Ly : R) (p : nat * nat) (ei ee : num) (L : lattice).
Hypotheses (Lx0 : (0 < Lx)%Re) (Ly0 : (0 < Ly)%Re) (hL : mk_lattice p (Lx, 0%Re) (0%Re, Ly) ei ee = Ok L) (hf : window_fits p).
Lemma rect_grid s t a b : grid_transform J1 s (l_G L) (l_area L) = Ok t -> (a < qof p.1)%N -> (b < qof p.2)%N ->
  forall x0 y0 x1 y1, s = Rectangle x0 y0 x1 y1 ->
  a_at t a b = transform_rectangle x0 y0 x1 y1 (w_at (l_G L) a b).1 (w_at (l_G L) a b).2 (l_area L).
Proof.
have [_ _ hq _ [_ _ _ hG at_]] := mk_latticeE hL.
move=> ht ha hb x0 y0 x1 y1 es; subst s; move: ht.
rewrite /grid_transform /transform; destruct (Req_EM_T (l_area L) 0) as [z|z] => //; cbn [is_left bind] => -[<-] /=.
have [hr hc] : w_rows (l_G L) = qof p.1 /\ w_cols (l_G L) = qof p.2 by move: hG; rewrite hq => -[].
have lt : (a * w_cols (l_G L) + b < w_ng (l_G L))%N.
  rewrite /w_ng hr hc; apply: leq_trans (_ : (a.+1 * qof p.2 <= _)%N); last by rewrite leq_mul2r ha orbT.
  by rewrite mulSn addnC ltn_add2r.
rewrite (nth_map (0%Re, 0%Re)) ?size_map ?size_iota // (nth_map 0%N) ?size_iota // nth_iota // add0n.
have c0 : (0 < w_cols (l_G L))%N by rewrite hc; exact: leq_ltn_trans hb.
by rewrite divnMDl // modnMDl divn_small ?modn_small ?addn0 // hc.
Qed.
Lemma wide_off (l w : R) m : (0 < l)%Re -> (l < 200 * PI * w)%Re -> off_small_branch (IZR m * (2 * PI / l) * w).
Proof.
move=> l0 h; case: (Z.eq_dec m Z0) => [->|m0]; first by left; rewrite -[IZR Z0]/0%Re; ring.
right; have pi := PI_RGT_0.
have hm : (1 <= Rabs (IZR m))%Re by rewrite -abs_IZR; apply: IZR_le; lia.
rewrite Rmult_assoc Rabs_mult; have w0 : (0 < w)%Re by apply: (Rmult_lt_reg_l (200 * PI)); lra.
have e : (1 / 100 < 2 * PI / l * w)%Re.
  apply: (Rmult_lt_reg_l (100 * l)); first lra.
  have -> : (100 * l * (2 * PI / l * w) = 200 * PI * w)%Re by field; lra.
  by have -> : (100 * l * (1 / 100) = l)%Re by field.
rewrite (Rabs_pos_eq (_ * w)); last lra.
have : (1 * (2 * PI / l * w) <= Rabs (IZR m) * (2 * PI / l * w))%Re by apply: Rmult_le_compat_r; lra.
lra.
Qed.
Variables (n : nat) (rects : seq (R * R * R * R * C)) (host : C).
Hypotheses (hin : forall q, List.In q rects -> rect_inside Lx Ly q.1) (hd : disjoint (regions rects)).
Hypothesis hw : forall q, List.In q rects -> wide Lx Ly q.1.
Lemma rect_table l data inverse T s (i j : nat) : standard_orders p.1 p.2 l ->
  mapM (fun isl => do t <- grid_transform J1 isl.1 (l_G L) (l_area L); Ok (t, isl.2)) (islands_of rects) = Ok data ->
  epsilon_g (l_q L) data host inverse = Ok T ->
  order_lookups l (w_rows (window L) %/ 2) (w_cols (window L) %/ 2) (l_ng L) T = Ok s ->
  (i < l_ng L)%N -> (j < l_ng L)%N ->
  fourier_integral Lx Ly (drawn (regions (inverted_rects inverse rects)) (inverted inverse host)) (minus2 (l_g L i) (l_g L j)) (looked s i j).
Proof.
have [_ _ hq hb [_ _ harea hG at_]] := mk_latticeE hL.
move=> sl hdat hT hs hi hj; have [r1 c1 vT] := epsilon_gE hT.
have [s' hs' lk] := lookups_difference hL hf sl r1 c1; rewrite hs' in hs; case: hs => es; subst s'.
have [a [b [la lb -> eg]]] := lk i j hi hj; rewrite r1 hq in la; rewrite c1 hq in lb.
rewrite -eg vT; have eb := rect_reciprocal Lx0 Ly0 hb.
set m := Z.sub (Z.of_nat a) (Z.of_nat (2 * (p.1 %/ 2))); set k := Z.sub (Z.of_nat b) (Z.of_nat (2 * (p.2 %/ 2))).
have ew : w_at (l_G L) a b = ((IZR m * (2 * PI / Lx))%Re, (IZR k * (2 * PI / Ly))%Re).
  by rewrite at_ -/m -/k eb /order_vector; cbn [fst snd]; congr (_, _); ring.
have g1 : ((w_at (l_G L) a b).1 * Lx = 2 * IZR m * PI)%Re by rewrite ew /=; field; lra.
have g2 : ((w_at (l_G L) a b).2 * Ly = 2 * IZR k * PI)%Re by rewrite ew /=; field; lra.
have es : l_area L = (Lx * Ly)%Re by rewrite harea rect_sigma.
have hin' q : List.In q (inverted_rects inverse rects) -> rect_inside Lx Ly q.1.
  move/List.in_map_iff => [q' [<- h]].
  exact (hin h).
have [w [w1 [_ w3]]] := islands_value (inverted inverse host) Lx0 Ly0 g1 g2 hin' (inverted_disjoint inverse hd).
suff <- : w = (if (a == (l_q L).1 %/ 2)%N && (b == (l_q L).2 %/ 2)%N then if inverse then host^-1 else host else 0) +
   \sum_(q <- data) (if inverse then q.2^-1 - host^-1 else q.2 - host) * a_at q.1 a b by [].
rewrite -w3; last first.
  move=> x0 y0 x1 y1 e /List.in_map_iff [[q f] [[eq _] h]]; rewrite ew; have := hw h; rewrite /= eq => -[h1 h2].
  by split; [exact: wide_off|exact: wide_off].
congr (_ + _).
  rewrite /inverted hq /= /qof !div4_2 /m /k.
  have ez x y : Z.eqb (Z.sub (Z.of_nat x) (Z.of_nat y)) Z0 = (x == y) by apply/Z.eqb_spec/eqP => [h|->]; lia.
  by rewrite !ez.
rewrite big_map /=; elim: (rects) (data) hdat => [|[[[[x0 y0] x1] y1] f] rs ih] dat /=; first by case=> <-; rewrite !big_nil.
case ht : (grid_transform _ _ _ _) => [t|//]; cbn [bind]; case hm : (mapM _ _) => [dat'|//]; cbn [bind] => -[<-].
rewrite !big_cons /= (ih _ hm) (rect_grid ht la lb erefl) es; congr (_ * _ + _).
by case: inverse {hT w3 w1 hin' vT ih}.
Qed.
End Rects.
