(** Islands given as pictures. *)
From Coq Require Import Reals ZArith Lra Lia FunctionalExtensionality.
From mathcomp Require Import all_ssreflect all_algebra.
From Coquelicot Require Import Complex.
From Verif Require Import Base CField RField CFun ModelExpansion ModelFourier SpecFourier FourierProofs ModelTmat ModelLattice LatticeProofs LookupProofs TmatExamples ModelPixmap SpecPixmap.
Set Implicit Arguments. Unset Strict Implicit. Unset Printing Implicit Defensive.
Import GRing.Theory.
Local Open Scope ring_scope.

Lemma pictures_shapes J1 n (expm : 'M[C]_((n + n) + (n + n)) -> 'M[C]_((n + n) + (n + n))) pw L islands host wl kp d pow :
  scattering_matrix_pictures J1 expm pw L [seq (inl s.1, s.2) | s <- islands] host wl kp d pow =
  scattering_matrix_islands J1 expm pw L islands host wl kp d pow.
Proof.
rewrite /scattering_matrix_pictures /scattering_matrix_islands; case: (grid_size pw) => //= nq.
congr bind; elim: islands => //= -[s e] l /= ->; by [].
Qed.

Section Table.
Variables (q : nat * nat) (map : array2) (sigma : R) (eps host : C) (inverse : bool) (t T : array2).
Hypothesis ht : transform_pixmap map sigma = Ok t.
Lemma pixmapE : [/\ sigma <> 0%Re, (0 < a_rows map)%N, (0 < a_cols map)%N, a_rows t = a_rows map /\ a_cols t = a_cols map &
  forall i j, a_at t i j = RtoC (INR (a_rows map * a_cols map) / sigma) * fourier_coef map (Z.of_nat i) (Z.of_nat j)].
Proof.
move: ht; rewrite /transform_pixmap; destruct (Req_EM_T sigma 0) as [h|h] => //.
rewrite /fft2; case: ifP => // /norP [r0 c0] /= [<-] /=; rewrite !lt0n r0 c0; split=> // i j.
rewrite /fourier_coef; have n0 : INR (a_rows map * a_cols map) <> 0%Re.
  by apply: not_0_INR => /eqP; rewrite muln_eq0 (negbTE r0) (negbTE c0).
have -> : (\sum_(x < a_rows map) \sum_(y < a_cols map) a_at map x y * wave (a_rows map) (Z.of_nat i) x * wave (a_cols map) (Z.of_nat j) y) =
  \sum_(x < a_rows map) \sum_(y < a_cols map) a_at map x y * fft_kernel (a_rows map) i x * fft_kernel (a_cols map) j y.
  by apply: eq_bigr => x _; apply: eq_bigr => y _; rewrite !kernel_wave.
set z := (\sum_(_ < _) _); rewrite RtoC_div // mulrACA [X in _ = X * _]mulrC.
by rewrite mulrC; toC; field; split; move/(congr1 fst).
Qed.
End Table.

(** The table that an island of value [eps] in [host] must have: the coefficient of the
    order (i - q1 // 2, j - q2 // 2) of the map of permittivities. *)
Lemma coef_flat map i : a_rows map = 1%N -> fourier_coef map i = fourier_coef map Z0.
Proof.
move=> h; apply: functional_extensionality => j; rewrite /fourier_coef; congr (_ / _); rewrite h; apply: eq_bigr => x _; apply: eq_bigr => y _.
by rewrite (ord1 x) /wave /= !Rmult_0_r.
Qed.
Lemma coef_flat' map i j : a_cols map = 1%N -> fourier_coef map i j = fourier_coef map i Z0.
Proof.
move=> h; rewrite /fourier_coef; congr (_ / _); rewrite h; apply: eq_bigr => x _; apply: eq_bigr => y _.
by rewrite (ord1 y) /wave /= !Rmult_0_r.
Qed.
Section Tables.
Variables (J1 : R -> R) (q : nat * nat) (L : lattice) (map t : array2).
Hypothesis ht : island_table J1 q L (inr map) = Ok t.
Lemma picture_sizes : (a_rows map = q.1 \/ a_rows map = 1%N) /\ (a_cols map = q.2 \/ a_cols map = 1%N).
Proof.
move: ht => /=; case h1 : (transform_pixmap map (l_area L)) => [u|//]; cbn [bind].
rewrite /broadcast; have [_ _ _ [-> ->] _] := pixmapE h1.
by case: ifP => // /andP [/orP [/eqP ->|/eqP ->] /orP [/eqP ->|/eqP ->]] _; auto.
Qed.
Lemma pictureE i j : a_at t i j = RtoC (INR (a_rows map * a_cols map) / l_area L) * fourier_coef map (Z.of_nat i) (Z.of_nat j).
Proof.
move: ht => /=; case h1 : (transform_pixmap map (l_area L)) => [u|//]; cbn [bind].
have [_ _ _ [r c] v] := pixmapE h1; rewrite /broadcast r c; case: ifP => // _ [<-] /=; rewrite v; congr (_ * _).
case: eqP => [e|_]; last by case: eqP => // e; rewrite (coef_flat' _ _ e) [RHS](coef_flat' _ _ e).
by rewrite !(coef_flat _ e); case: eqP => // e'; rewrite (coef_flat' _ _ e') [RHS](coef_flat' _ _ e').
Qed.
Lemma picture_table eps host inverse T i j : epsilon_g q [:: (t, eps)] host inverse = Ok T ->
  a_at T i j = (if (i == q.1 %/ 2)%N && (j == q.2 %/ 2)%N then (if inverse then host^-1 else host) else 0) +
    (if inverse then eps^-1 - host^-1 else eps - host) *
    (RtoC (INR (a_rows map * a_cols map) / l_area L) * fourier_coef map (Z.of_nat i) (Z.of_nat j)).
Proof. by move=> /epsilon_gE [_ _ ->]; rewrite big_seq1 /= pictureE. Qed.
End Tables.

(** A picture that fills the cell, with 3 x 3 orders. *)
Definition full (q : nat * nat) : array2 := Array2 q.1 q.2 (fun _ _ => 1).
Lemma full_coef q i j : (0 < q.1)%N -> (0 < q.2)%N -> (i < q.1)%N -> (j < q.2)%N ->
  fourier_coef (full q) (Z.of_nat i) (Z.of_nat j) = if (i == 0)%N && (j == 0)%N then 1 else 0.
Proof.
move=> h1 h2 hi hj; rewrite (@coef_constant (full q) 1) //=; [|by move/ltP: hi; lia|by move/ltP: hj; lia].
by case: i {hi} => [|i]; case: j {hj} => [|j].
Qed.
Lemma epsg_ok q t eps host : a_rows t = q.1 -> a_cols t = q.2 -> (0 < q.1)%N -> (0 < q.2)%N -> is_ok (epsilon_g q [:: (t, eps)] host false).
Proof.
move=> h1 h2 q1 q2; rewrite /epsilon_g /=.
have lt n : (0 < n)%N -> (n %/ 2 < n)%N by move=> n0; apply: ltn_Pdiv.
by rewrite !lt //= h1 h2 !eqxx /=; eexists.
Qed.
Lemma table_ok J1 q L map : l_area L <> 0%Re -> (0 < a_rows map)%N -> (0 < a_cols map)%N -> a_rows map = q.1 -> a_cols map = q.2 ->
  exists t, [/\ island_table J1 q L (inr map) = Ok t, a_rows t = q.1 & a_cols t = q.2].
Proof.
move=> s0 r0 c0 r c; rewrite /= /transform_pixmap; destruct (Req_EM_T (l_area L) 0) as [h|h] => //.
rewrite /fft2; move: (r0) (c0); rewrite !lt0n => /negbTE -> /negbTE -> /=.
by rewrite /broadcast /= {1 2}r {1 2}c !eqxx /=; eexists; split.
Qed.
(** A picture that fills the cell leaves the middle of the table as it is. *)
Lemma full_table J1 q L eps host t T : (1 < q.1)%N -> (1 < q.2)%N ->
  island_table J1 q L (inr (full q)) = Ok t -> epsilon_g q [:: (t, eps)] host false = Ok T ->
  a_at T (q.1 %/ 2) (q.2 %/ 2) = host /\ a_at T 0 0 = (eps - host) * RtoC (INR (q.1 * q.2) / l_area L).
Proof.
move=> q1 q2 ht hT; have p1 : (0 < q.1)%N by exact: ltnW. have p2 : (0 < q.2)%N by exact: ltnW.
have m1 : (0 < q.1 %/ 2)%N by rewrite divn_gt0. have m2 : (0 < q.2 %/ 2)%N by rewrite divn_gt0.
have l1 : (q.1 %/ 2 < q.1)%N by exact: ltn_Pdiv. have l2 : (q.2 %/ 2 < q.2)%N by exact: ltn_Pdiv.
rewrite !(picture_table ht _ _ hT) !eqxx !full_coef //.
have -> : (q.1 %/ 2 == 0)%N = false by apply/negbTE; rewrite -lt0n.
have -> : (0 == q.1 %/ 2)%N = false by apply/negbTE; rewrite eq_sym -lt0n.
by rewrite /= !mulr0 addr0 mulr1 add0r.
Qed.
Lemma full_wrong q eps host T : (1 < q.1)%N -> (1 < q.2)%N -> eps <> host ->
  a_at T (q.1 %/ 2) (q.2 %/ 2) = host -> ~ right_table q (full q) eps host T.
Proof.
move=> q1 q2 ne h /(_ _ _ (ltn_Pdiv (erefl : (1 < 2)%N) (ltnW q1)) (ltn_Pdiv (erefl : (1 < 2)%N) (ltnW q2))).
rewrite h !Z.sub_diag !eqxx /= -[Z0]/(Z.of_nat 0) full_coef ?(ltnW q1) ?(ltnW q2) //= mulr1 => e.
by apply: ne; rewrite [RHS]e [RHS]addrC subrK.
Qed.
Lemma pixmap_wrong J1 : exists L t T, [/\ mk_lattice (3, 3)%N (1%Re, 0%Re) (0%Re, 1%Re) (Float 1) (Float 1) = Ok L,
  island_table J1 (l_q L) L (inr (full (l_q L))) = Ok t,
  epsilon_g (l_q L) [:: (t, RtoC 4)] 1 false = Ok T, ~ right_table (l_q L) (full (l_q L)) (RtoC 4) 1 T &
  a_at T 2 2 = 1 /\ a_at T 0 0 = RtoC 75].
Proof.
have [L hL] := @mk_lattice_ok (3, 3)%N (Float 1) (Float 1) erefl.
have [_ _ hq _ [_ _ ha _ _]] := mk_latticeE hL.
have a1 : l_area L = 1%Re by rewrite ha /unitcellarea /= Rmult_0_r Rminus_0_r Rmult_1_r Rabs_R1.
have q5 : l_q L = (5, 5)%N by rewrite hq.
have [t [ht r c]] := @table_ok J1 (l_q L) L (full (l_q L)) ltac:(rewrite a1; lra) ltac:(by rewrite q5) ltac:(by rewrite q5) erefl erefl.
have g1 : (1 < (l_q L).1)%N by rewrite q5. have g2 : (1 < (l_q L).2)%N by rewrite q5.
have [T hT] := epsg_ok (RtoC 4) 1 r c (ltnW g1) (ltnW g2).
have [h1 h2] := full_table g1 g2 ht hT.
exists L, t, T; split=> //.
  by apply: full_wrong h1; rewrite ?q5 // => /(congr1 fst) /=; lra.
move: h1 h2; rewrite q5 => h1 h2; split; first exact: h1.
rewrite h2 a1; have -> : INR ((5, 5)%N.1 * (5, 5)%N.2) = 25%Re by rewrite INR_IZR_INZ.
by apply: injective_projections => /=; field.
Qed.
(** One order, a cell of area 1. *)
Lemma one_order_right J1 L map t eps host T : l_area L = 1%Re -> island_table J1 (1, 1)%N L (inr map) = Ok t ->
  epsilon_g (1, 1)%N [:: (t, eps)] host false = Ok T -> right_table (1, 1)%N map eps host T.
Proof.
move=> a1 ht hT m i j hi hj; have -> : i = 0%N by case: i hi. have -> : j = 0%N by case: j hj.
have [r c] : a_rows map = 1%N /\ a_cols map = 1%N by have [[r|r] [c|c]] := picture_sizes ht; rewrite r c.
by rewrite (picture_table ht _ _ hT) /= a1 r c muln1 /Rdiv Rinv_1 Rmult_1_r mul1r.
Qed.
Lemma one_order_example J1 : exists L t T, [/\ mk_lattice (1, 1)%N (1%Re, 0%Re) (0%Re, 1%Re) (Float 1) (Float 1) = Ok L, l_area L = 1%Re,
  island_table J1 (1, 1)%N L (inr (Array2 1 1 (fun _ _ => RtoC (/ 2)))) = Ok t & epsilon_g (1, 1)%N [:: (t, RtoC 4)] 1 false = Ok T].
Proof.
have [L hL] := @mk_lattice_ok (1, 1)%N (Float 1) (Float 1) erefl.
have [_ _ hq _ [_ _ ha _ _]] := mk_latticeE hL.
have a1 : l_area L = 1%Re by rewrite ha /unitcellarea /= Rmult_0_r Rminus_0_r Rmult_1_r Rabs_R1.
have [t [ht r c]] := @table_ok J1 (1, 1)%N L (Array2 1 1 (fun _ _ => RtoC (/ 2))) ltac:(rewrite a1; lra) erefl erefl erefl erefl.
have [T hT] := epsg_ok (q := (1, 1)%N) (RtoC 4) 1 r c erefl erefl.
by exists L, t, T.
Qed.
