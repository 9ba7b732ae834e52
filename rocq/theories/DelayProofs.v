(** Proofs about the delay line and the order of the reciprocal vectors of the
    T-matrix API. *)
From Coq Require Import Reals ZArith Lra Lia.
From mathcomp Require Import all_ssreflect all_algebra.
From Coquelicot Require Import Complex.
From Verif Require Import Base CField CFun ModelExpansion ModelFourier ModelDraw ModelLattice SpecLattice LatticeProofs LookupProofs
  CurrentProofs FieldsProofs ModelRest SpecRest CanvasProofs.
Set Implicit Arguments. Unset Strict Implicit. Unset Printing Implicit Defensive.
Import GRing.Theory.
Local Open Scope ring_scope.
Delimit Scope Z_scope with Zc.

Section Delay.
Variables (p : nat * nat) (a1 a2 : vec2) (ei ee : num) (L : lattice).
Hypotheses (hL : mk_lattice p a1 a2 ei ee = Ok L) (hf : window_fits p).

Definition normsq (g : vec2) : R := (g.1 * g.1 + g.2 * g.2)%Re.
Lemma kz_norm wl g g' : normsq g = normsq g' -> compute_kz (Float 1) wl (0%Re, 0%Re) g = compute_kz (Float 1) wl (0%Re, 0%Re) g'.
Proof.
move=> h; rewrite /compute_kz; have -> // : unorm (0%Re, 0%Re) g = unorm (0%Re, 0%Re) g'.
by rewrite /unorm /uvec /=; congr sqrt; move: h; rewrite /normsq /=; lra.
Qed.
Lemma rows_at g : (g < p.1 * p.2)%N -> w_flat_rows (window L) g = order_vector (l_b L)
  (Z.sub (Z.of_nat (g %/ p.2)) (Z.of_nat (p.1 %/ 2))) (Z.sub (Z.of_nat (g %% p.2)) (Z.of_nat (p.2 %/ 2))).
Proof. by move=> h; rewrite /w_flat_rows (window_cols hL hf) (window_at hL). Qed.
Lemma cols_at g : l_g L g = order_vector (l_b L)
  (Z.sub (Z.of_nat (g %% p.1)) (Z.of_nat (p.1 %/ 2))) (Z.sub (Z.of_nat (g %/ p.1)) (Z.of_nat (p.2 %/ 2))).
Proof. by rewrite /l_g /w_flat (window_rows hL).1 (window_at hL). Qed.
Lemma order_swap b m1 m2 : normsq b.1 = normsq b.2 -> normsq (order_vector b m1 m2) = normsq (order_vector b m2 m1).
Proof. by move=> h; rewrite /order_vector /normsq /=; move: h; rewrite /normsq => h; move: (IZR m1) (IZR m2) => x y; nra. Qed.
Lemma recip_norms : normsq a1 = normsq a2 -> normsq (l_b L).1 = normsq (l_b L).2.
Proof.
have [_ _ _ hb _] := mk_latticeE hL; move: hb; rewrite /reciproc; destruct (Req_EM_T (a1.1 * a2.2 - a1.2 * a2.1) 0) as [h|h] => // -[<-].
rewrite /normsq; cbn [fst snd]; set c := (_ / _)%Re; move=> e.
by rewrite (_ : (_ + _ = (a2.1 * a2.1 + a2.2 * a2.2) * (c * c))%Re); [rewrite -e | ]; ring.
Qed.
Lemma same_norm g : (g < p.1 * p.2)%N -> p.2 = 1%N \/ normsq a1 = normsq a2 ->
  normsq (w_flat_rows (window L) g) = normsq (l_g L g).
Proof.
move=> hg hh; rewrite rows_at // cols_at.
have H : p.2 = 1%N -> (g %/ p.2 = g %% p.1 /\ g %% p.2 = g %/ p.1)%N.
  move=> e; have q : (g < p.1)%N by move: hg; rewrite e muln1.
  by rewrite e divn1 modn1 (modn_small q) (divn_small q).
case: hf => e; last by have [-> ->] := H e.
case: hh => h; first by have [-> ->] := H h.
by rewrite e; apply: order_swap; apply: recip_norms.
Qed.
Lemma delayE n wl d : n = l_ng L -> wl <> 0%Re ->
  scattering_air_tmp n L wl d = Ok (each_order (fun g : 'I_n => cexp (ci * compute_kz (Float 1) wl (0%Re, 0%Re) (w_flat_rows (window L) g) * RtoC d))).
Proof.
move=> hn hw; rewrite /scattering_air_tmp; destruct (Req_EM_T wl 0) => //; rewrite -hn ltnn /each_order.
set r := (\row_g (if _ then _ else _)); set r' := (\row_g cexp _).
by have -> : r = r' by apply/rowP => g; rewrite !mxE ltn_ord.
Qed.
Lemma delay_ok n wl d : n = l_ng L -> wl <> 0%Re -> p.2 = 1%N \/ normsq a1 = normsq a2 ->
  scattering_air_tmp n L wl d = Ok (each_order (fun g : 'I_n => cexp (ci * compute_kz (Float 1) wl (0%Re, 0%Re) (l_g L g) * RtoC d))).
Proof.
move=> hn hw h; rewrite delayE //; congr (Ok (each_order _)); apply: FunctionalExtensionality.functional_extensionality => g.
have hg : (g < p.1 * p.2)%N by rewrite -(window_ng hL hf) -hn.
by rewrite (kz_norm wl (same_norm hg h)).
Qed.
Lemma delay_layer n J1 expm wl d pow S : ei = Float 1 -> exponential expm -> not_tiny L (0%Re, 0%Re) -> n = l_ng L -> wl <> 0%Re ->
  p.2 = 1%N \/ normsq a1 = normsq a2 ->
  @scattering_matrix_islands J1 n expm p L [::] 1 wl (0%Re, 0%Re) d pow = Ok S -> scattering_air_tmp n L wl d = Ok S.
Proof.
move=> h1 hx ht hn hw h hS; rewrite delay_ok //; congr Ok; have ei1 : l_incid L = Float 1.
  by have [_ _ _ _ [-> _ _ _ _]] := mk_latticeE hL.
by rewrite (homogeneous_layer hL hf hx ht _ _ hS) // ei1.
Qed.

(** The mask of a disc. *)
Lemma gvectors_at g : (g < l_ng L)%N -> nth (0%Re, 0%Re) (lattice_g_vectors L) g = w_flat_rows (window L) g.
Proof. by move=> h; rewrite /lattice_g_vectors (nth_map 0%N) ?size_iota // nth_iota. Qed.
End Delay.

Lemma Ok_eq (A : Type) (a b : A) : Ok a = Ok b -> a = b. Proof. by case. Qed.
Lemma each_order_at n (f : 'I_n -> C) g : each_order f (lshift _ (lshift _ g)) (lshift _ (lshift _ g)) = f g.
Proof. by rewrite /each_order mxE eqxx mulr1n !row_mxEl mxE. Qed.

(** * A rectangular lattice *)

Section Rectangle.
Let a1 : vec2 := (1%Re, 0%Re).
Let a2 : vec2 := (0%Re, (1 / 2)%Re).
Let wl : R := (2 / 3)%Re.
Let kp : vec2 := (0%Re, 0%Re).
Variable L : lattice.
Hypothesis hL : mk_lattice (3, 3)%N a1 a2 (Float 1) (Float 1) = Ok L.
Lemma rect_b : l_b L = (((2 * PI)%Re, 0%Re), (0%Re, (4 * PI)%Re)).
Proof.
have [_ _ _ hb _] := mk_latticeE hL; move: hb; rewrite /reciproc /a1 /a2 /twopi; cbn [fst snd].
destruct (Req_EM_T (1 * (1 / 2) - 0 * 0) 0) as [h|h] => // -[<-]; congr ((_, _), (_, _)); field.
Qed.
Lemma rect_fits : window_fits (3, 3)%N. Proof. by left. Qed.
Lemma rect_ng : l_ng L = 9%N. Proof. by rewrite (window_ng hL rect_fits). Qed.
Lemma rect_norm m1 m2 : normsq (order_vector (l_b L) m1 m2) = (4 * PI ^ 2 * (IZR m1 ^ 2 + 4 * IZR m2 ^ 2))%Re.
Proof. by rewrite rect_b /order_vector /normsq /=; ring. Qed.
Lemma rect_order g : (g < l_ng L)%N -> exists m1 m2, [/\ (-1 <= m1 <= 1)%Zc, (-1 <= m2 <= 1)%Zc & l_g L g = order_vector (l_b L) m1 m2].
Proof.
rewrite rect_ng => hg; do 2 eexists; split; last by rewrite (cols_at hL).
  by have /leP := ltn_pmod g (isT : (0 < 3)%N); rewrite /=; lia.
have : (g %/ 3 < 3)%N by rewrite ltn_divLR.
by move/leP; rewrite /=; lia.
Qed.

Lemma pi2 : (4 < PI ^ 2)%Re.
Proof. have := PI2_1; nra. Qed.
Lemma rect_tiny : not_tiny L kp.
Proof.
move=> g /rect_order [m1 [m2 [_ _ ->]]]; cbv zeta.
have -> : ((kp.1 + (order_vector (l_b L) m1 m2).1) ^ 2 + (kp.2 + (order_vector (l_b L) m1 m2).2) ^ 2 = normsq (order_vector (l_b L) m1 m2))%Re.
  by rewrite /normsq /kp; cbn [fst snd]; ring.
rewrite rect_norm -[(IZR m1 ^ 2 + _)%Re]/(IZR m1 ^ 2 + 4 * IZR m2 ^ 2)%Re.
have -> : (IZR m1 ^ 2 + 4 * IZR m2 ^ 2 = IZR (m1 * m1 + 4 * (m2 * m2)))%Re by rewrite plus_IZR !mult_IZR; ring.
case: (Z.eq_dec (m1 * m1 + 4 * (m2 * m2)) 0) => [->|ne]; first by left; ring.
right; have h : (1 <= m1 * m1 + 4 * (m2 * m2))%Zc by nia.
move/IZR_le: h => h; have := pi2; have : (/ 2 ^ 52 <= 1)%Re by lra.
by move: (IZR _) h => x h; nra.
Qed.
Lemma rect_clear : no_anomaly L (Float 1) wl kp.
Proof.
move=> g /rect_order [m1 [m2 [h1 h2 ->]]] /(congr1 fst) /=.
have -> : ((0 + (order_vector (l_b L) m1 m2).1) * ((0 + (order_vector (l_b L) m1 m2).1) * 1) +
   (0 + (order_vector (l_b L) m1 m2).2) * ((0 + (order_vector (l_b L) m1 m2).2) * 1) = normsq (order_vector (l_b L) m1 m2))%Re.
  by rewrite /normsq; ring.
rewrite rect_norm.
have -> : (IZR m1 ^ 2 + 4 * IZR m2 ^ 2 = IZR (m1 * m1 + 4 * (m2 * m2)))%Re by rewrite plus_IZR !mult_IZR; ring.
rewrite /wl => e.
have e2 : (2 * PI / (2 / 3) = 3 * PI)%Re by field.
have e' : (9 * PI ^ 2 = PI ^ 2 * IZR (4 * (m1 * m1 + 4 * (m2 * m2))))%Re.
  by rewrite mult_IZR; move: e; rewrite e2; move: (IZR (_ + _)) => x e; lra.
have : IZR 9 = IZR (4 * (m1 * m1 + 4 * (m2 * m2))) by have := pi2; move: (IZR (_ * _)) e' => x; nra.
by move/eq_IZR; lia.
Qed.
Lemma rect_delay S : scattering_air_tmp 9 L wl 1 = Ok S ->
  S <> each_order (fun g : 'I_9 => cexp (ci * compute_kz (Float 1) wl kp (l_g L g) * RtoC 1)).
Proof.
rewrite (delayE _ (esym rect_ng)); last by rewrite /wl; lra.
move=> h0 e; rewrite -(Ok_eq h0) in e.
have lt : (1 < 9)%N by []; pose g := Ordinal lt.
have := congr1 (fun M : 'M[C]_((9 + 9) + (9 + 9)) => M (lshift _ (lshift _ g)) (lshift _ (lshift _ g))) e.
rewrite !each_order_at; cbv beta; rewrite (rows_at hL rect_fits) // (cols_at hL).
set m := order_vector _ _ _; set m' := order_vector _ _ _.
rewrite (@kz_lossless _ 1) // (@kz_lossless _ 1) //.
have n1 : ((0 + m.1) ^ 2 + (0 + m.2) ^ 2 = 4 * PI ^ 2)%Re.
  by rewrite (_ : (_ + _ = normsq m)%Re); [rewrite rect_norm /=; ring | rewrite /normsq; ring].
have n2 : ((0 + m'.1) ^ 2 + (0 + m'.2) ^ 2 = 16 * PI ^ 2)%Re.
  by rewrite (_ : (_ + _ = normsq m')%Re); [rewrite rect_norm /=; ring | rewrite /normsq; ring].
rewrite n1 n2 (_ : (2 * PI / wl = 3 * PI)%Re); last by rewrite /wl; field.
have p2 := pi2.
destruct (Rle_dec 0 (1 * (3 * PI) ^ 2 - 4 * PI ^ 2)) as [h|h]; last by exfalso; apply: h; nra.
destruct (Rle_dec 0 (1 * (3 * PI) ^ 2 - 16 * PI ^ 2)) as [h'|h']; first by exfalso; nra.
cbn [is_left]; move/(congr1 Cmod); rewrite !Cmod_cexp => /exp_inv /=.
have : (0 < sqrt (- (1 * (3 * PI) ^ 2 - 16 * PI ^ 2)))%Re by apply: sqrt_lt_R0; nra.
by rewrite /=; move: (sqrt _) (sqrt _) => x y; lra.
Qed.
End Rectangle.

Lemma delay_wrong J1 expm pow : exponential expm -> exists L (S S' : 'M[C]_((9 + 9) + (9 + 9))),
  [/\ mk_lattice (3, 3)%N (1%Re, 0%Re) (0%Re, (1 / 2)%Re) (Float 1) (Float 1) = Ok L,
      scattering_air_tmp 9 L (2 / 3) 1 = Ok S,
      scattering_matrix_islands J1 expm (3, 3)%N L [::] 1 (2 / 3) (0%Re, 0%Re) 1 pow = Ok S' & S <> S'].
Proof.
move=> hx; case hL : (mk_lattice (3, 3)%N (1%Re, 0%Re) (0%Re, (1 / 2)%Re) (Float 1) (Float 1)) => [L|]; last first.
  exfalso; move: hL; rewrite /mk_lattice /reciproc; cbn [fst snd].
  by destruct (Req_EM_T (1 * (1 / 2) - 0 * 0) 0) as [h|h] => //; lra.
have w0 : (2 / 3 <> 0)%Re by lra.
have ei1 : l_incid L = Float 1 by have [_ _ _ _ [-> _ _ _ _]] := mk_latticeE hL.
have [S' hS'] : is_ok (scattering_matrix_islands J1 expm (3, 3)%N L [::] (num_val (l_incid L)) (2 / 3) (0%Re, 0%Re) 1 pow).
  apply: (homogeneous_layer_ok _ _ _ hL) => //; rewrite ?ei1.
  - exact: rect_fits.
  - exact: rect_tiny.
  - by rewrite (rect_ng hL).
  - by apply/eqP => /(congr1 fst) /=; lra.
  - by rewrite /=; lra.
  - exact: rect_clear.
have dE := delayE 1 (esym (rect_ng hL)) w0.
have [S dS] : is_ok (scattering_air_tmp 9 L (2 / 3) 1) by rewrite dE; eexists.
exists L, S, S'; split; [by [] | exact: dS | by move: hS'; rewrite ei1 | ].
rewrite (homogeneous_layer hL rect_fits hx (rect_tiny hL) _ _ hS') // ei1.
exact: (rect_delay hL dS).
Qed.

(** * The mask of a disc *)
Lemma mask_at p a1 a2 ei ee L radius i j : mk_lattice p a1 a2 ei ee = Ok L -> window_fits p -> (i < p.1)%N -> (j < p.2)%N ->
  let g := order_vector (l_b L) (Z.sub (Z.of_nat i) (Z.of_nat (p.1 %/ 2))) (Z.sub (Z.of_nat j) (Z.of_nat (p.2 %/ 2))) in
  nth false (restrict_radius_mask L radius) (i * p.2 + j) <-> (sqrt (g.1 * g.1 + g.2 * g.2) < radius)%Re.
Proof.
move=> hL hf hi hj g.
have hg : (i * p.2 + j < p.1 * p.2)%N.
  by apply: (@leq_trans (i.+1 * p.2)); [rewrite mulSn addnC ltn_add2r | rewrite leq_mul2r hi orbT].
have hn := window_ng hL hf.
have sz : size (lattice_g_vectors L) = (p.1 * p.2)%N by rewrite /lattice_g_vectors size_map size_iota hn.
rewrite /restrict_radius_mask (nth_map (0%Re, 0%Re)) ?sz // gvectors_at ?hn // (rows_at hL hf hg).
have -> : ((i * p.2 + j) %/ p.2 = i)%N by rewrite divnMDl ?(leq_ltn_trans _ hj) // divn_small ?addn0.
have -> : ((i * p.2 + j) %% p.2 = j)%N by rewrite modnMDl modn_small.
by rewrite -/g /Rltb; destruct Rlt_dec as [h|h].
Qed.
Lemma mask_size p a1 a2 ei ee L radius : mk_lattice p a1 a2 ei ee = Ok L -> window_fits p ->
  size (restrict_radius_mask L radius) = (p.1 * p.2)%N.
Proof. by move=> hL hf; rewrite size_map /lattice_g_vectors size_map size_iota (window_ng hL hf). Qed.
