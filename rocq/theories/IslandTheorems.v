(** The statements proved about islands and direct sums, and their witnesses. *)
From Coq Require Import Reals ZArith Lra Lia.
From mathcomp Require Import all_ssreflect all_algebra.
From Coquelicot Require Import Complex.
From Verif Require Import Base CField CFun ModelExpansion SpecExpansion ExpansionProofs ModelFourier SpecFourier
  FourierProofs SpecTransform TransformProofs ModelExtension ModelDevice IslandProofs SpecSums SumProofs.
Set Implicit Arguments. Unset Strict Implicit. Unset Printing Implicit Defensive.
Import GRing.Theory.
Local Open Scope ring_scope.

Lemma rectangle_integral l0 l1 u0 u1 (G : vec2) s : s <> 0%Re ->
  exists I, cint2 (planewave G) l0 u0 l1 u1 I /\
   (Cmod (transform_rectangle l0 l1 u0 u1 G.1 G.2 s - I / RtoC s)%R <=
    Rabs ((u0 - l0) * (u1 - l1) / s) * / 10 ^ 18)%Re /\
   (off_small_branch (G.1 * (u0 - l0))%Re -> off_small_branch (G.2 * (u1 - l1))%Re ->
    transform_rectangle l0 l1 u0 u1 G.1 G.2 s = I / RtoC s).
Proof.
move=> s0; exists (rect_integral l0 l1 u0 u1 G); split; first exact: rect_integralP.
have -> : rect_integral l0 l1 u0 u1 G / RtoC s = RtoC (/ s)%Re * rect_integral l0 l1 u0 u1 G.
  by rewrite mulrC RtoC_inv.
by split; [exact: rectangle_close|move=> h1 h2; exact: rectangle_exact].
Qed.

Lemma any_islands Lx Ly (isl : seq ((R -> R -> bool) * C)) (bfs : seq (seq C)) host r (G : vec2) (m n : Z) k :
  (0 < Lx)%Re -> (0 < Ly)%Re ->
  (G.1 * Lx = 2 * IZR m * PI)%Re -> (G.2 * Ly = 2 * IZR n * PI)%Re ->
  combine_fourier_masks [seq (q.2, q.1.2) | q <- zip isl bfs] host false = Ok r -> size bfs = size isl ->
  (k < size r)%N -> (k == ((size r - 1) %/ 2)%N) = (Z.eqb m Z0 && Z.eqb n Z0) ->
  disjoint isl ->
  (forall i, (i < size isl)%N ->
    fourier_integral Lx Ly (indicator (nth (fun _ _ => false, 0) isl i).1) G (nth 0 (nth [::] bfs i) k)) ->
  fourier_integral Lx Ly (drawn isl host) G (nth 0 r k).
Proof.
move=> Lx0 Ly0 g1 g2 hc sb hk ck hd hi.
have L0 : (Lx * Ly <> 0)%Re by apply: Rmult_integral_contrapositive; split; lra.
pose one : C := if Z.eqb m Z0 && Z.eqb n Z0 then 1 else 0.
have h1 : cint2 (planewave G) 0 Lx 0 Ly (RtoC (Lx * Ly)%Re * one).
  have := rect_integralP G 0%Re 0%Re Lx Ly; rewrite (constant_wave g1 g2) /one.
  by case: (_ && _); rewrite ?mulr1 ?mulr0.
have [_ ->] := combine_nth hc hk; rewrite ck.
pose t i := nth 0 (nth [::] bfs i) k.
have hz i : (i < size isl)%N ->
    fourier_integral Lx Ly (indicator (nth (fun _ _ => false, 0) isl i).1) G (t i) /\ (Cmod (t i - t i)%R <= 0)%Re.
  by move=> hi'; split; [exact: hi|rewrite subrr Cmod_0; exact: Rle_refl].
have [w [w1 w2]] := @combine_integral Lx Ly G host one isl t t (fun=> 0%Re) L0 h1 hd hz.
move: w2; rewrite [X in Rle _ X -> _]big1; last by move=> i _; exact: Rmult_0_r.
have -> : host * one = if Z.eqb m Z0 && Z.eqb n Z0 then host else 0.
  by rewrite /one; case: (_ && _); rewrite ?mulr1 ?mulr0.
have -> : \sum_(p <- [seq (q.2, q.1.2) | q <- zip isl bfs]) (p.2 - host) * nth 0 p.1 k =
  \sum_(i < size isl) ((nth (fun _ _ => false, 0) isl i).2 - host) * nth 0 (nth [::] bfs i) k.
  rewrite big_map (big_seq_nth ((fun _ _ => false, 0), [::])) size_zip sb minnn.
  by apply: eq_bigr => i _; rewrite nth_zip.
set v := (if _ then host else 0) + _; move=> h; suff -> : v = w by [].
have : Cmod (v - w) = 0%Re by apply: Rle_antisym; [exact: h|exact: Cmod_ge_0].
by move/Cmod_eq_0/eqP; rewrite subr_eq0 => /eqP.
Qed.

(** A half-filled unit cell. *)
Definition half_rect : R * R * R * R * C := (0%Re, 0%Re, (1 / 2)%Re, 1%Re, RtoC 2).
Lemma half_inside p : List.In p [:: half_rect] -> rect_inside 1 1 p.1.
Proof. by case=> [<-|[]] /=; lra. Qed.
Lemma half_disjoint : disjoint (regions [:: half_rect]).
Proof. by split=> // q e x y []. Qed.
Lemma unit_expansion pw : odd pw.1 -> odd pw.2 -> exists e, mk_expansion pw (rect_lattice 1 1) = Ok e.
Proof.
move=> h1 h2; have [idx hi] := indices_def h1 h2; rewrite /mk_expansion /rect_lattice /reciproc /=.
destruct (Req_EM_T (1 * 1 - 0 * 0) 0) as [z|z]; first by exfalso; lra.
by cbn [bind]; rewrite hi; cbn [bind]; eexists.
Qed.
Lemma sincint_PI : sincint PI = (0%Re, (- 2 / PI)%Re).
Proof.
have p := PI_RGT_0; rewrite /sincint; destruct (Req_EM_T PI 0) as [z|z]; first by exfalso; lra.
by rewrite sin_PI cos_PI; apply: C_ext => /=; field.
Qed.
Lemma sincint_2PI : sincint (2 * PI) = 0.
Proof.
have p := PI_RGT_0; rewrite /sincint; destruct (Req_EM_T (2 * PI) 0) as [z|z]; first by exfalso; lra.
by rewrite sin_2PI cos_2PI; apply: C_ext; cbn [fst snd is_left]; rewrite /Rdiv ?Rminus_diag_eq // Rmult_0_l.
Qed.
Lemma sincint_0 : sincint 0 = 1.
Proof. by rewrite /sincint; destruct (Req_EM_T 0 0) as [z|z]. Qed.

Lemma analytical_swapped (J1 : R -> R) : exists e (M : 'M[C]_(3 * 3)) (i j : 'I_(3 * 3)) w,
  [/\ mk_expansion (3, 3)%N (rect_lattice 1 1) = Ok e,
      analytical_matrix J1 (3 * 3) e (islands_of [:: half_rect]) 1 = Ok M,
      fourier_integral 1 1 (drawn (regions [:: half_rect]) 1) (sub2 (gth e i) (gth e j)) w,
      M i j = 0 & (1 / 5 < Cmod w)%Re].
Proof.
have [e he] := @unit_expansion (3, 3)%N erefl erefl.
have l1 : (0 < 1)%Re by lra.
have p := PI_RGT_0; have p4 := PI_4; have p3 := PI2_3_2.
have n1 : (1 : C) != 0 by exact: oner_neq0.
have n2 q : List.In q [:: half_rect] -> q.2 != 0.
  by case=> [<-|[]] /=; apply/eqP => /(congr1 fst) /=; lra.
have [M hM] := @analytical_def J1 1 1 (3, 3)%N e [:: half_rect] 1 l1 l1 he ltac:(by []) n1 n2.
pose i : 'I_(3 * 3) := inord 5; pose j : 'I_(3 * 3) := inord 4.
have ei : (i : nat) = 5%N by rewrite /i inordK.
have ej : (j : nat) = 4%N by rewrite /j inordK.
have [b [idx0 [hb hi0 ee]]] := mk_expansion_ok he.
have eb := rect_reciprocal l1 l1 hb.
have si := indices_size hi0.
have gd : sub2 (gth e i) (gth e j) = ((2 * PI)%Re, 0%Re).
  rewrite /sub2 /gth ee ei ej /= !nth_gvecs ?si // !(indices_nth hi0) // eb /=.
  by congr pair; field.
have [_ h2] := analytical_good l1 l1 he half_inside half_disjoint hM i j.
have [w' [w1 [_ w3]]] := h2 erefl erefl.
have c1 : rects_clear [:: half_rect] (swap2 (sub2 (gth e i) (gth e j))).
  rewrite gd => a0 a1 b0 b1 x [[<- <- <- <- _]|[]] /=; split; first by left; ring.
  right; rewrite Rabs_pos_eq; lra.
have e1 := w3 c1.
have g1 : ((0, 2 * PI)%Re.1 * 1 = 2 * IZR 0 * PI)%Re by rewrite /=; ring.
have g2 : ((0, 2 * PI)%Re.2 * 1 = 2 * IZR 1 * PI)%Re by rewrite /=; ring.
have g3 : ((2 * PI, 0)%Re.1 * 1 = 2 * IZR 1 * PI)%Re by rewrite /=; ring.
have g4 : ((2 * PI, 0)%Re.2 * 1 = 2 * IZR 0 * PI)%Re by rewrite /=; ring.
have [v1 [a1 [_ a3]]] := islands_value 1 l1 l1 g1 g2 half_inside half_disjoint.
have [v2 [b1 [_ b3]]] := islands_value 1 l1 l1 g3 g4 half_inside half_disjoint.
have c2 : rects_clear [:: half_rect] (2 * PI, 0)%Re.
  move=> x0 x1 y0 y1 x [[<- <- <- <- _]|[]] /=; split; last by left; ring.
  right; rewrite Rabs_pos_eq; lra.
have c1' : rects_clear [:: half_rect] (0, 2 * PI)%Re by move: c1; rewrite gd.
have s1 : (1 * 1 <> 0)%Re by lra.
move: (a3 c1') (b3 c2); rewrite !big_seq1 /= !add0r => f1 f2.
have n11 : (RtoC (1 * 1)%Re : C) != 0 by apply/eqP => /(congr1 fst) /=; lra.
have e2 : w' = v1.
  by apply: (mulfI n11); apply: (cint2_unique w1); rewrite gd.
exists e, M, i, j, v2; split=> //.
- by rewrite gd.
- rewrite e1 e2 -f1.
  rewrite (@rectangle_exact 0 0 (1 / 2) 1 (0%Re, (2 * PI)%Re)) //=; last first.
  + by right; rewrite Rabs_pos_eq; lra.
  + by left; ring.
  rewrite /rect_integral /=; have -> : (2 * PI * (1 - 0) = 2 * PI)%Re by ring.
  by rewrite sincint_2PI mulr0 mul0r !mulr0.
rewrite -f2 (@rectangle_exact 0 0 (1 / 2) 1 ((2 * PI)%Re, 0%Re)) //=; last first.
- by left; ring.
- by right; rewrite Rabs_pos_eq; lra.
rewrite /rect_integral /=; have -> : (2 * PI * (1 / 2 - 0) = PI)%Re by field.
rewrite Rmult_0_l sincint_0 sincint_PI /planewave /= !Rmult_0_r Rplus_0_l cos_0 sin_0.
have -> : (RtoC 2 - 1) * (RtoC (/ (1 * 1))%Re * (RtoC (1 / 2 - 0)%Re * (0%Re, (- 2 / PI)%Re) *
   (RtoC (1 - 0)%Re * 1 * (1%Re, (- 0)%Re)))) = (0%Re, (- (1 / PI))%Re) :> C.
  by apply: C_ext => /=; field; lra.
rewrite /Cmod /=.
have -> : (0 * (0 * 1) + - (1 / PI) * (- (1 / PI) * 1) = Rsqr (1 / PI))%Re by rewrite /Rsqr; ring.
have q : (1 / 5 < 1 / PI)%Re.
  rewrite /Rdiv !Rmult_1_l; apply: Rinv_lt_contravar; last by lra.
  by apply: Rmult_lt_0_compat; lra.
by rewrite sqrt_Rsqr; lra.
Qed.

(** The same rectangle drawn twice. *)
Definition twice : seq (R * R * R * R * C) := [:: half_rect; half_rect].
Lemma twice_inside p : List.In p twice -> rect_inside 1 1 p.1.
Proof. by case=> [<-|[<-|[]]] /=; lra. Qed.
Lemma overlap_wrong (J1 : R -> R) : exists e ge data r w,
  [/\ mk_expansion (1, 1)%N (rect_lattice 1 1) = Ok e, g_vectors_expanded e 3 = Ok ge,
      island_transforms J1 (islands_of twice) ge.1 (e_sigma e) = Ok data,
      combine_fourier_masks data 1 false = Ok r &
      nth (0%Re, 0%Re) ge.1 0 = (0%Re, 0%Re) /\
      fourier_integral 1 1 (drawn (regions twice) 1) (0%Re, 0%Re) w /\
      w = RtoC (3 / 2)%Re /\ nth 0 r 0 = RtoC 2].
Proof.
have [e he] := @unit_expansion (1, 1)%N erefl erefl.
have l1 : (0 < 1)%Re by lra.
have s1 : (1 * 1 <> 0)%Re by lra.
have [b [idx0 [hb hi0 ee]]] := mk_expansion_ok he.
have eb := rect_reciprocal l1 l1 hb.
have es : e_sigma e = (1 * 1)%Re by rewrite ee /=; exact: rect_sigma.
have hg : g_vectors_expanded e 3 = Ok ([:: (0%Re, 0%Re)], (1, 1)%N).
  rewrite /g_vectors_expanded ee /=; congr (Ok (_ :: _, _)).
  by rewrite /Z.sub /=; congr pair; ring.
have tr : transform_rectangle 0 0 (1 / 2) 1 0 0 (1 * 1) = RtoC (1 / 2)%Re.
  by rewrite rectangle_zero //; congr RtoC; field.
have hdat : island_transforms J1 (islands_of twice) [:: (0%Re, 0%Re)] (e_sigma e) =
  Ok [:: ([:: RtoC (1 / 2)%Re], RtoC 2); ([:: RtoC (1 / 2)%Re], RtoC 2)].
  rewrite /island_transforms es /twice /half_rect /=.
  have -> : transform J1 (Rectangle 0 0 (1 / 2) 1) [:: (0%Re, 0%Re)] (1 * 1) = Ok [:: RtoC (1 / 2)%Re].
    by rewrite /transform; destruct (Req_EM_T (1 * 1) 0) as [z|z] => //=; rewrite tr.
  by [].
have hcmb : combine_fourier_masks [:: ([:: RtoC (1 / 2)%Re], RtoC 2); ([:: RtoC (1 / 2)%Re], RtoC 2)] 1 false =
  Ok [:: RtoC 2].
  rewrite /combine_fourier_masks /=; congr (Ok [:: _]); apply: C_ext => /=; field.
have d1 : disjoint (regions [:: half_rect]) by exact: half_disjoint.
have g0 : (((0, 0)%Re : vec2).1 * 1 = 2 * IZR 0 * PI)%Re by rewrite /=; ring.
have [w [w1 [_ w3]]] := islands_value 1 l1 l1 g0 g0 half_inside half_disjoint.
exists e, ([:: (0%Re, 0%Re)], (1, 1)%N), [:: ([:: RtoC (1 / 2)%Re], RtoC 2); ([:: RtoC (1 / 2)%Re], RtoC 2)], [:: RtoC 2], w.
split=> //; split=> //; split.
  apply: cint2_ext w1 => x y; congr (_ * _).
  by rewrite /twice /regions; cbn [map drawn]; case: (in_rect half_rect.1 x y).
split=> //; rewrite -w3; last first.
  by move=> a0 a1 b0 b1 x [[<- <- <- <- _]|[]] /=; split; left; ring.
by rewrite big_seq1 /= tr; apply: C_ext => /=; field.
Qed.

(** Direct sums. *)
Lemma round_trip N a terms (coefs : seq C) :
  (0 < N)%N -> a <> 0%Re -> resolved N terms ->
  mapM (fun t => dft (sampled N a terms) (2 * PI * IZR t.2.1 / a)%Re (2 * PI * IZR t.2.2 / a)%Re a) terms = Ok coefs ->
  forall x y, idft [seq (q.1, (RtoC (2 * PI * IZR q.2.2.1 / a)%Re, RtoC (2 * PI * IZR q.2.2.2 / a)%Re)) | q <- zip coefs terms] x y =
    RtoC (INR (N * N)) * sample_at a terms x y.
Proof.
move=> N0 a0 hr hm x y; rewrite idftE big_map /sample_at.
set A := sampled N a terms in hm.
have mm (s : seq (C * (Z * Z))) cs : mapM (fun t => dft A (2 * PI * IZR t.2.1 / a)%Re (2 * PI * IZR t.2.2 / a)%Re a) s = Ok cs ->
  size cs = size s /\ forall i, (i < size s)%N ->
    dft A (2 * PI * IZR (nth ((0%R : C), (Z0, Z0)) s i).2.1 / a)%Re (2 * PI * IZR (nth ((0%R : C), (Z0, Z0)) s i).2.2 / a)%Re a = Ok (nth 0 cs i).
  elim: s cs => [|t s IH] cs; first by case=> <-.
  rewrite /=; case ht : (dft A _ _ a) => [v|//]; cbn [bind].
  case hs : (mapM _ s) => [vs|//]; cbn [bind] => -[<-]; have [sz IH'] := IH _ hs.
  by split=> [|[|i]] //=; [rewrite sz|exact: IH'].
have [sz hc] := mm _ _ hm.
rewrite (big_seq_nth ((0 : C), ((0 : C), (Z0, Z0)))) (big_seq_nth ((0 : C), (Z0, Z0))) size_zip sz minnn mulr_sumr.
apply: eq_bigr => i _; rewrite nth_zip //=.
rewrite (dft_order N0 a0 hr (ltn_ord i) (hc i (ltn_ord i))) -mulrA.
congr (_ * (_ * cexp _)); by apply: C_ext => /=; ring.
Qed.
Lemma round_trip_def N a terms : (0 < N)%N ->
  is_ok (mapM (fun t => dft (sampled N a terms) (2 * PI * IZR t.2.1 / a)%Re (2 * PI * IZR t.2.2 / a)%Re a) terms).
Proof.
move=> N0; elim: {-1}terms => [|t s [vs IH]] /=; first by eexists.
have [v hv] := @dft_def (sampled N a terms) (2 * PI * IZR t.2.1 / a)%Re (2 * PI * IZR t.2.2 / a)%Re a N0.
by rewrite hv; cbn [bind]; rewrite IH; cbn [bind]; eexists.
Qed.
Lemma not_normalised : exists N a terms coefs x y,
  [/\ resolved N terms,
   mapM (fun t => dft (sampled N a terms) (2 * PI * IZR t.2.1 / a)%Re (2 * PI * IZR t.2.2 / a)%Re a) terms = Ok coefs &
   idft [seq (q.1, (RtoC (2 * PI * IZR q.2.2.1 / a)%Re, RtoC (2 * PI * IZR q.2.2.2 / a)%Re)) | q <- zip coefs terms] x y
     <> sample_at a terms x y].
Proof.
have hr : resolved 2 [:: (1, (Z0, Z0))].
  by move=> [|i] [|j].
have [coefs hc] := @round_trip_def 2 1 [:: (1, (Z0, Z0))] erefl.
exists 2%N, 1%Re, [:: (1, (Z0, Z0))], coefs, 0%Re, 0%Re; split=> //.
have n1 : (1 <> 0)%Re by lra.
rewrite (@round_trip 2 _ _ _ erefl n1 hr hc) /sample_at big_seq1 /= mul1r.
have -> : ci * RtoC (2 * PI * 0 / 1 * 0 + 2 * PI * 0 / 1 * 0)%Re = 0.
  have -> : (2 * PI * 0 / 1 * 0 + 2 * PI * 0 / 1 * 0 = 0)%Re by field.
  exact: mulr0.
by rewrite cexp0 mulr1 => /(congr1 fst) /=; lra.
Qed.

Lemma idft2_wrong : exists coefs xmin xmax ymin ymax rows cols k l,
  [/\ (k < rows)%N, (l < cols)%N &
   idft2 coefs xmin xmax ymin ymax rows cols k l <>
   idft [seq (f.1, (RtoC f.2.1, RtoC f.2.2)) | f <- coefs] (grid_point xmin xmax rows k) (grid_point ymin ymax cols l)].
Proof.
exists [:: (1, (PI, 0%Re))], 0%Re, 1%Re, 0%Re, 1%Re, 2%N, 2%N, 1%N, 0%N; split=> //.
rewrite idft2E !idftE !big_seq1 /= !mul1r /grid_point /=.
have -> : ci * (RtoC PI * RtoC (0 + 1 * ((1 - 0) / (1 + 1)))%Re + RtoC 0 * RtoC (0 + 0 * ((1 - 0) / (1 + 1)))%Re) =
  - (ci * RtoC (- (PI / 2))%Re).
  by apply: C_ext => /=; field.
have -> : ci * (RtoC PI * RtoC (0 + 1 * ((1 - 0) / 1))%Re + RtoC 0 * RtoC (0 + 0 * ((1 - 0) / 1))%Re) =
  - (ci * RtoC (- PI)%Re).
  by apply: C_ext => /=; field.
rewrite !cexp_cis !cos_neg !sin_neg cos_PI2 cos_PI => /(congr1 fst) /=; lra.
Qed.

Lemma coefficient_unique Lx Ly f G v w : (0 < Lx)%Re -> (0 < Ly)%Re ->
  fourier_integral Lx Ly f G v -> fourier_integral Lx Ly f G w -> v = w.
Proof.
move=> x0 y0 h1 h2; have s0 : RtoC (Lx * Ly)%Re != 0.
  by apply/eqP => /(congr1 fst) /=; apply: Rmult_integral_contrapositive; split; lra.
exact: (mulfI s0 (cint2_unique h1 h2)).
Qed.
Lemma rectangle_integral_unique l0 l1 u0 u1 (G : vec2) s : s <> 0%Re ->
  exists I, (cint2 (planewave G) l0 u0 l1 u1 I /\ forall I', cint2 (planewave G) l0 u0 l1 u1 I' -> I' = I) /\
   (Cmod (transform_rectangle l0 l1 u0 u1 G.1 G.2 s - I / RtoC s)%R <=
    Rabs ((u0 - l0) * (u1 - l1) / s) * / 10 ^ 18)%Re /\
   (off_small_branch (G.1 * (u0 - l0))%Re -> off_small_branch (G.2 * (u1 - l1))%Re ->
    transform_rectangle l0 l1 u0 u1 G.1 G.2 s = I / RtoC s).
Proof.
move=> s0; have [I [h1 h2]] := rectangle_integral l0 l1 u0 u1 G s0.
by exists I; split=> //; split=> // I' h'; exact: cint2_unique h' h1.
Qed.
