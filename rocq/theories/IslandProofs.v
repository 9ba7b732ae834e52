(** Lemmas about combining the transforms of islands. *)
From Coq Require Import Reals ZArith Lra Lia.
From mathcomp Require Import all_ssreflect all_algebra.
From Coquelicot Require Import Complex RInt Hierarchy.
From Verif Require Import Base CField CFun ModelExpansion SpecExpansion ExpansionProofs ModelFourier SpecTransform
  FourierProofs TransformProofs ModelExtension ModelDevice.
Set Implicit Arguments. Unset Strict Implicit. Unset Printing Implicit Defensive.
Import GRing.Theory.
Local Open Scope ring_scope.

Lemma add_masks_nth host islands acc r k : add_masks false host islands acc = Ok r -> (k < size acc)%N ->
  [/\ size r = size acc, (forall p, List.In p islands -> size p.1 = size acc) &
   nth 0 r k = nth 0 acc k + \sum_(p <- islands) (p.2 - host) * nth 0 p.1 k].
Proof.
elim: islands acc => [|[bf eps] islands IH] acc /=; first by case=> -> hk; rewrite big_nil addr0.
case: eqP => //= hs h hk.
have sz : size [seq p.1 + (eps - host) * p.2 | p <- zip acc bf] = size acc.
  by rewrite size_map size_zip hs minnn.
have [|h1 h2 h3] := IH _ h; first by rewrite sz.
rewrite sz in h1 h2; split=> //; first by move=> p [<-|]//; exact: h2.
rewrite h3 big_cons /= addrA; congr (_ + _).
by rewrite (nth_map (0, 0)) ?size_zip ?hs ?minnn // nth_zip.
Qed.
Lemma combine_size bf eps islands host r :
  combine_fourier_masks ((bf, eps) :: islands) host false = Ok r -> size r = size bf.
Proof.
rewrite /combine_fourier_masks; case: ifP => // n0; cbn [bind mask_trsf] => h'.
have z : (0 < size bf)%N by rewrite lt0n n0.
by have := @add_masks_nth _ _ _ _ 0%N h'; rewrite size_mkseq => /(_ z) [].
Qed.
Lemma combine_nth islands host r k : combine_fourier_masks islands host false = Ok r -> (k < size r)%N ->
  (forall p, List.In p islands -> size p.1 = size r) /\
  nth 0 r k = (if k == ((size r - 1) %/ 2)%N then host else 0) + \sum_(p <- islands) (p.2 - host) * nth 0 p.1 k.
Proof.
case: islands => [//|[bf eps] islands].
rewrite /combine_fourier_masks; case: ifP => // n0; cbn [bind mask_trsf] => h' hk.
have z : (0 < size bf)%N by rewrite lt0n n0.
have [h1 h2 h3] : [/\ size r = size bf, (forall p, List.In p ((bf, eps) :: islands) -> size p.1 = size bf) &
   nth 0 r 0 = nth 0 (mkseq (fun i => if i == ((size bf - 1) %/ 2)%N then host else 0) (size bf)) 0 +
     \sum_(p <- (bf, eps) :: islands) (p.2 - host) * nth 0 p.1 0].
  by have := @add_masks_nth _ _ _ _ 0%N h'; rewrite size_mkseq => /(_ z).
have := @add_masks_nth host ((bf, eps) :: islands) _ r k h'; rewrite size_mkseq -h1 => /(_ hk) [_ h4 h5].
by split=> //; rewrite h5 nth_mkseq.
Qed.

Lemma drawn_sum islands host x y : disjoint islands ->
  drawn islands host x y = host + \sum_(p <- islands) (p.2 - host) * indicator p.1 x y.
Proof.
elim: islands => [|[p e] rest IH] /=; first by rewrite big_nil addr0.
case=> h1 h2; rewrite big_cons /= IH //.
case hp : (p x y); last by rewrite {2}/indicator hp mulr0 add0r.
have -> : \sum_(q <- rest) (q.2 - host) * indicator q.1 x y = 0.
  elim: rest h1 {h2 IH} => [|[q f] rest IH] h1; first by rewrite big_nil.
  rewrite big_cons /= /indicator (h1 q f x y) ?hp //; last by left.
  by rewrite mulr0 add0r IH // => q' f' x' y' hin; apply: (h1 q' f'); right.
by rewrite /indicator hp mulr1 addr0 addrC subrK.
Qed.

(** The constant map. *)
Lemma constant_wave Lx Ly (G : vec2) (m n : Z) :
  (G.1 * Lx = 2 * IZR m * PI)%Re -> (G.2 * Ly = 2 * IZR n * PI)%Re ->
  rect_integral 0 0 Lx Ly G = if Z.eqb m Z0 && Z.eqb n Z0 then RtoC (Lx * Ly)%Re else 0.
Proof.
move=> h1 h2; rewrite /rect_integral !Rminus_0_r h1 h2.
have e k : sincint (2 * IZR k * PI) = if Z.eqb k Z0 then 1 else 0.
  rewrite /sincint; destruct (Req_EM_T (2 * IZR k * PI) 0) as [z|z].
    have pi := PI_neq0.
    have : IZR k = 0%Re.
      case: (Rmult_integral _ _ z) => // h; lra.
    by move/(eq_IZR k 0) => k0; cbn [is_left]; rewrite k0.
  have -> : Z.eqb k Z0 = false by apply/negP => /Z.eqb_spec e; apply: z; rewrite e; ring.
  by cbn [is_left]; rewrite cos_2kPI sin_2kPI /Rdiv; apply: C_ext; cbn [fst snd]; [rewrite Rmult_0_l|rewrite Rminus_diag_eq // Rmult_0_l].
rewrite !e /planewave !Rmult_0_r Rplus_0_l cos_0 sin_0.
by case: Z.eqb; case: Z.eqb => /=; rewrite ?mulr0 ?mul0r ?mulr0 ?mulr1 //; apply: C_ext => /=; ring.
Qed.

(** An island: its region, its permittivity, the number used for its transform,
    the exact transform and the error. *)
Lemma combine_integral Lx Ly G (host one : C) (isl : seq ((R -> R -> bool) * C)) (t v : nat -> C) (d : nat -> R) :
  (Lx * Ly <> 0)%Re ->
  cint2 (planewave G) 0 Lx 0 Ly (RtoC (Lx * Ly)%Re * one) ->
  disjoint isl ->
  (forall i, (i < size isl)%N ->
     fourier_integral Lx Ly (indicator (nth (fun _ _ => false, 0) isl i).1) G (v i) /\ (Cmod (t i - v i)%R <= d i)%Re) ->
  exists w, fourier_integral Lx Ly (drawn isl host) G w /\
    (Cmod (host * one + \sum_(i < size isl) ((nth (fun _ _ => false, 0%R) isl i).2 - host) * t i - w)%R <=
     \sum_(i < size isl) (Cmod ((nth (fun _ _ => false, 0%R) isl i).2 - host)%R * d i)%Re)%Re.
Proof.
move=> L0 h1 hd hi.
exists (host * one + \sum_(i < size isl) ((nth (fun _ _ => false, 0) isl i).2 - host) * v i); split.
  rewrite /fourier_integral.
  have S k : (k <= size isl)%N -> cint2 (fun x y => (\sum_(p <- take k isl) (p.2 - host) * indicator p.1 x y) * planewave G x y)
      0 Lx 0 Ly (RtoC (Lx * Ly)%Re * \sum_(i < k) ((nth (fun _ _ => false, 0) isl i).2 - host) * v i).
    elim: k => [|k IH] hk.
      rewrite big_ord0 mulr0; exists (fun=> 0); split; last exact: cint0.
      by move=> y; apply: cint_ext (cint0 _ _) => x _; rewrite take0 big_nil mul0r.
    rewrite big_ord_recr /= mulrDr.
    have [hf _] := hi k hk.
    have := cint2D (IH (ltnW hk)) (cint2Z ((nth (fun _ _ => false, 0) isl k).2 - host) hf).
    rewrite [_ * (RtoC _ * v k)]mulrCA; apply: cint2_ext => x y.
    by rewrite (take_nth (fun _ _ => false, 0)) // -cats1 big_cat big_seq1 /= [RHS]mulrDl -[in RHS]mulrA.
  have := cint2D (cint2Z host h1) (S (size isl) (leqnn _)).
  rewrite [host * (RtoC _ * one)]mulrCA -mulrDr; apply: cint2_ext => x y.
  by rewrite take_size -mulrDl -drawn_sum.
have -> : host * one + \sum_(i < size isl) ((nth (fun _ _ => false, 0) isl i).2 - host) * t i -
  (host * one + \sum_(i < size isl) ((nth (fun _ _ => false, 0) isl i).2 - host) * v i) =
  \sum_(i < size isl) ((nth (fun _ _ => false, 0) isl i).2 - host) * (t i - v i).
  rewrite opprD addrACA subrr add0r -sumrB; apply: eq_bigr => i _; by rewrite mulrBr.
elim/big_ind2: _ => //.
- by rewrite Cmod_0; exact: Rle_refl.
- by move=> x1 x2 y1 y2 a b; apply: Rle_trans (CmodD _ _) _; exact: Rplus_le_compat.
move=> i _; rewrite CmodM; apply: Rmult_le_compat_l; first exact: Cmod_ge_0.
by have [_] := hi i (ltn_ord i).
Qed.

Lemma island_transforms_rect J1 rects G s data : s <> 0%Re ->
  island_transforms J1 (islands_of rects) G s = Ok data ->
  data = [seq ([seq (let: (l0, l1, u0, u1) := p.1 in transform_rectangle l0 l1 u0 u1 g.1 g.2 s) | g <- G], p.2) | p <- rects].
Proof.
move=> s0; rewrite /island_transforms; elim: rects data => [|[[[[l0 l1] u0] u1] e] rects IH] data /=; first by case=> <-.
have -> : transform J1 (Rectangle l0 l1 u0 u1) G s = Ok [seq transform_rectangle l0 l1 u0 u1 g.1 g.2 s | g <- G].
  by rewrite /transform; destruct (Req_EM_T s 0) as [z|z].
rewrite /=; by case h : (mapM _ _) => [d|//] /= [<-]; rewrite (IH _ h).
Qed.
Lemma big_seq_nth (V : zmodType) (T : Type) (x0 : T) (s : seq T) (f : T -> V) :
  \sum_(p <- s) f p = \sum_(i < size s) f (nth x0 s i).
Proof. by rewrite (big_nth x0) big_mkord. Qed.

Lemma islands_value Lx Ly (G : vec2) (m n : Z) (rects : seq (R * R * R * R * C)) host :
  (0 < Lx)%Re -> (0 < Ly)%Re ->
  (G.1 * Lx = 2 * IZR m * PI)%Re -> (G.2 * Ly = 2 * IZR n * PI)%Re ->
  (forall p, List.In p rects -> rect_inside Lx Ly p.1) -> disjoint (regions rects) ->
  let value := (if Z.eqb m Z0 && Z.eqb n Z0 then host else 0) +
    \sum_(p <- rects) (p.2 - host) *
      (let: (l0, l1, u0, u1) := p.1 in transform_rectangle l0 l1 u0 u1 G.1 G.2 (Lx * Ly)%Re) in
  exists w, fourier_integral Lx Ly (drawn (regions rects) host) G w /\
    (Cmod (value - w)%R <= branch_error Lx Ly rects host)%Re /\ (rects_clear rects G -> value = w).
Proof.
move=> Lx0 Ly0 g1 g2 hin hd.
have L0 : (Lx * Ly <> 0)%Re by apply: Rmult_integral_contrapositive; split; lra.
pose one : C := if Z.eqb m Z0 && Z.eqb n Z0 then 1 else 0.
have h1 : cint2 (planewave G) 0 Lx 0 Ly (RtoC (Lx * Ly)%Re * one).
  have := rect_integralP G 0%Re 0%Re Lx Ly; rewrite (constant_wave g1 g2) /one.
  by case: (_ && _); rewrite ?mulr1 ?mulr0.
pose p0 : R * R * R * R * C := (0%Re, 0%Re, 0%Re, 0%Re, 0).
pose rc i := (nth p0 rects i).1.
pose t i := (let: (l0, l1, u0, u1) := rc i in transform_rectangle l0 l1 u0 u1 G.1 G.2 (Lx * Ly)%Re).
pose v i := (let: (l0, l1, u0, u1) := rc i in RtoC (/ (Lx * Ly))%Re * rect_integral l0 l1 u0 u1 G).
have sz : size (regions rects) = size rects by rewrite size_map.
have nr i : (i < size rects)%N -> nth (fun _ _ => false, 0) (regions rects) i = (in_rect (rc i), (nth p0 rects i).2).
  by move=> hi; rewrite (nth_map p0).
have In_nth i : (i < size rects)%N -> List.In (nth p0 rects i) rects.
  elim: (rects) i => [|q r IH] [|i] //=; first by left.
  by move=> /IH; right.
have hv i : (i < size rects)%N -> fourier_integral Lx Ly (indicator (in_rect (rc i))) G (v i).
  move=> hi; have := hin _ (In_nth i hi); rewrite /v -/(rc i); case: (rc i) => [[[l0 l1] u0] u1] [a1 [a2 [a3 [a4 [a5 a6]]]]].
  rewrite /fourier_integral mulrA.
  have -> : RtoC (Lx * Ly)%Re * RtoC (/ (Lx * Ly))%Re = 1.
    by rewrite -[_ * _]RtoC_mult Rinv_r.
  by rewrite mul1r; exact: rect_indicator.
have key (d : nat -> R) : (forall i, (i < size rects)%N -> (Cmod (t i - v i)%R <= d i)%Re) ->
  exists w, fourier_integral Lx Ly (drawn (regions rects) host) G w /\
   (Cmod ((if Z.eqb m Z0 && Z.eqb n Z0 then host else 0%R) + \sum_(i < size rects) ((nth p0 rects i).2 - host) * t i - w)%R <=
    \sum_(i < size rects) (Cmod ((nth p0 rects i).2 - host)%R * d i)%Re)%Re.
  move=> hd'; have := @combine_integral Lx Ly G host one (regions rects) t v d L0 h1 hd.
  case=> [i|w [w1 w2]]; first by rewrite sz => hi; rewrite nr //=; split; [exact: hv|exact: hd'].
  exists w; split=> //; move: w2; rewrite sz.
  have -> : host * one = if Z.eqb m Z0 && Z.eqb n Z0 then host else 0.
    by rewrite /one; case: (_ && _); rewrite ?mulr1 ?mulr0.
  rewrite (eq_bigr (fun i : 'I_(size rects) => ((nth p0 rects i).2 - host) * t i)); last by move=> i _; rewrite nr.
  rewrite [X in Rle _ X -> _](eq_bigr (fun i : 'I_(size rects) => (Cmod ((nth p0 rects i).2 - host)%R * d i)%Re)) //.
  by move=> i _; rewrite nr.
move=> value.
have ev : value = (if Z.eqb m Z0 && Z.eqb n Z0 then host else 0) + \sum_(i < size rects) ((nth p0 rects i).2 - host) * t i.
  by rewrite /value (big_seq_nth p0).
have [|w [w1 w2]] := key (fun i => (rect_area (rc i) / (Lx * Ly) * / 10 ^ 18)%Re).
  move=> i hi; rewrite /t /v /rect_area; have := hin _ (In_nth i hi); rewrite -/(rc i).
  case: (rc i) => [[[l0 l1] u0] u1] [a1 [a2 [a3 [a4 [a5 a6]]]]].
  have := @rectangle_close l0 l1 u0 u1 G (Lx * Ly)%Re L0; rewrite Rabs_pos_eq //.
  apply: Rmult_le_pos; first by apply: Rmult_le_pos; lra.
  by apply: Rlt_le; apply: Rinv_0_lt_compat; apply: Rmult_lt_0_compat.
exists w; split=> //; split.
  rewrite ev; apply: Rle_trans w2 _; right; by rewrite /branch_error (big_seq_nth p0).
move=> hc; have [|w' [w1' w2']] := key (fun=> 0%Re).
  move=> i hi; rewrite /t /v; have := hc; rewrite /rects_clear.
  have := In_nth i hi; rewrite /rc; case: (nth p0 rects i) => [[[[l0 l1] u0] u1] e] /= hI /(_ _ _ _ _ _ hI) [c1 c2].
  by rewrite rectangle_exact // subrr Cmod_0; exact: Rle_refl.
have ew : w' = w.
  have := cint2_unique w1' w1; apply: mulfI.
  by apply/eqP => /(congr1 fst) /= e; apply: L0.
move: w2'; rewrite ew -ev big1; last by move=> i _; exact: Rmult_0_r.
move=> h; have : Cmod (value - w) = 0%Re by have := Cmod_ge_0 (value - w); move: h; rewrite -[GRing.zero _]/0%Re; lra.
by move/Cmod_eq_0/eqP; rewrite subr_eq0 => /eqP.
Qed.

(** Rectangular lattices. *)
Definition rect_lattice (Lx Ly : R) : vec2 * vec2 := ((Lx, 0%Re), (0%Re, Ly)).
Lemma rect_reciprocal Lx Ly b : (0 < Lx)%Re -> (0 < Ly)%Re -> reciproc (Lx, 0%Re) (0%Re, Ly) = Ok b ->
  b = (((2 * PI / Lx)%Re, 0%Re), (0%Re, (2 * PI / Ly)%Re)).
Proof.
move=> h1 h2; rewrite /reciproc /=; case: Req_EM_T => // d [<-].
by congr pair; congr pair; rewrite /twopi /=; field; split; lra.
Qed.
Lemma rect_g Lx Ly idx k : (0 < Lx)%Re -> (0 < Ly)%Re -> (k < size idx)%N ->
  let G := nth (0%Re, 0%Re) (gvecs (((2 * PI / Lx)%Re, 0%Re), (0%Re, (2 * PI / Ly)%Re)) idx) k in
  let mn := nth (Z0, Z0) idx k in
  (G.1 * Lx = 2 * IZR mn.1 * PI)%Re /\ (G.2 * Ly = 2 * IZR mn.2 * PI)%Re.
Proof. by move=> h1 h2 hk; rewrite nth_gvecs //=; split; field; lra. Qed.
Lemma rect_sigma Lx Ly : (0 < Lx)%Re -> (0 < Ly)%Re -> unitcellarea (Lx, 0%Re) (0%Re, Ly) = (Lx * Ly)%Re.
Proof.
move=> h1 h2; rewrite /unitcellarea /=; have -> : (Lx * Ly - 0 * 0 = Lx * Ly)%Re by ring.
by rewrite Rabs_pos_eq //; apply: Rmult_le_pos; lra.
Qed.
Lemma centre_order pw idx k : generate_expansion_indices pw = Ok idx -> (k < size idx)%N ->
  (k == ((size idx - 1) %/ 2)%N) =
  (Z.eqb (nth (Z0, Z0) idx k).1 Z0 && Z.eqb (nth (Z0, Z0) idx k).2 Z0).
Proof.
move=> hi hk; apply/eqP/andP => [->|[/Z.eqb_spec e1 /Z.eqb_spec e2]]; first by rewrite (indices_centre hi).
have z0 q : Z.le (Z.abs BinNums.Z0) (Z.of_nat q) by lia.
have [j [_ hu]] := indices_once hi (z0 _) (z0 _).
have c1 : ((size idx - 1) %/ 2 < size idx)%N.
  by apply: leq_ltn_trans (leq_div _ _) _; rewrite ltn_subrL /=; apply: leq_ltn_trans hk.
rewrite -(hu k); last by split=> //; rewrite [LHS]surjective_pairing e1 e2.
by rewrite -(hu ((size idx - 1) %/ 2)%N) // (indices_centre hi).
Qed.

Section Rects.
Variables (J1 : R -> R) (Lx Ly : R) (pw : nat * nat) (e : expansion) (rects : seq (R * R * R * R * C)) (host : C).
Hypotheses (Lx0 : (0 < Lx)%Re) (Ly0 : (0 < Ly)%Re) (he : mk_expansion pw (rect_lattice Lx Ly) = Ok e).
Hypotheses (hin : forall p, List.In p rects -> rect_inside Lx Ly p.1) (hd : disjoint (regions rects)).
Lemma rects_combined mul ge data r k : g_vectors_expanded e mul = Ok ge ->
  island_transforms J1 (islands_of rects) ge.1 (e_sigma e) = Ok data ->
  combine_fourier_masks data host false = Ok r -> (k < size ge.1)%N ->
  size r = size ge.1 /\ exists w, fourier_integral Lx Ly (drawn (regions rects) host) (nth (0%Re, 0%Re) ge.1 k) w /\
    (Cmod (nth 0 r k - w)%R <= branch_error Lx Ly rects host)%Re /\
    (rects_clear rects (nth (0%Re, 0%Re) ge.1 k) -> nth 0 r k = w).
Proof.
have [b [idx0 [hb hi0 ee]]] := mk_expansion_ok he.
have eb := rect_reciprocal Lx0 Ly0 hb.
have es : e_sigma e = (Lx * Ly)%Re by rewrite ee /=; exact: rect_sigma.
have s0 : (Lx * Ly <> 0)%Re by apply: Rmult_integral_contrapositive; split; lra.
rewrite /g_vectors_expanded es; set epw := (_, _).
case hi : (generate_expansion_indices epw) => [idx|//] [<-] /=.
have -> : e_reciprocal e = b by rewrite ee.
rewrite size_gvecs => hdata hc hk.
have ed := island_transforms_rect s0 hdata.
have sr : size r = size idx.
  case: rects ed hc => [|p0 rs] ->; first by [].
  by move/combine_size => ->; rewrite !size_map.
split=> //; have [|_ ->] := combine_nth (k := k) hc; first by rewrite sr.
have [g1 g2] := rect_g Lx0 Ly0 hk; rewrite -eb in g1 g2.
have [w [w1 [w2 w3]]] := islands_value host Lx0 Ly0 g1 g2 hin hd.
have ev : (if k == ((size r - 1) %/ 2)%N then host else 0) + \sum_(p <- data) (p.2 - host) * nth 0 p.1 k =
  (if Z.eqb (nth (Z0, Z0) idx k).1 Z0 && Z.eqb (nth (Z0, Z0) idx k).2 Z0 then host else 0) +
    \sum_(p <- rects) (p.2 - host) *
      (let: (l0, l1, u0, u1) := p.1 in transform_rectangle l0 l1 u0 u1 (nth (0%Re, 0%Re) (gvecs b idx) k).1
         (nth (0%Re, 0%Re) (gvecs b idx) k).2 (Lx * Ly)%Re).
  rewrite sr (centre_order hi hk); congr (_ + _); rewrite ed big_map; apply: eq_bigr => -[[[[l0 l1] u0] u1] x] _ /=.
  by rewrite (nth_map (0%Re, 0%Re)) ?size_gvecs.
by exists w; rewrite ev.
Qed.
End Rects.

(** The table lookup of analytical layers. *)
Section Table.
Variables (J1 : R -> R) (n : nat) (e : expansion) (isl : seq (shape * C)) (host : C) (M : 'M[C]_n).
Hypothesis h : analytical_matrix J1 n e isl host = Ok M.
Lemma analytical_parts : exists ge data r, [/\ g_vectors_expanded e 3 = Ok ge,
  island_transforms J1 isl ge.1 (e_sigma e) = Ok data, combine_fourier_masks data host false = Ok r &
  ((e_pw e).1 * (e_pw e).2 = n)%N /\ size r = (ge.2.1 * ge.2.2)%N /\
  forall i j : 'I_n, exists u v, [/\
    py_index ge.2.1 (Z.add (Z.of_nat (ge.2.1 %/ 2)) (Z.sub (Z.of_nat (i %% (e_pw e).1)) (Z.of_nat (j %% (e_pw e).1)))) = Ok u,
    py_index ge.2.2 (Z.add (Z.of_nat (ge.2.2 %/ 2)) (Z.sub (Z.of_nat (i %/ (e_pw e).1)) (Z.of_nat (j %/ (e_pw e).1)))) = Ok v &
    M i j = nth 0 r (u * ge.2.2 + v)]].
Proof.
move: h; rewrite /analytical_matrix.
case hg : (g_vectors_expanded e 3) => [ge|//]; cbn [bind].
case hdt : (mapM _ _) => [data|//]; cbn [bind].
case hc : (combine_fourier_masks data host false) => [r|//]; cbn [bind].
case hr : (reshape r ge.2) => [A|//]; cbn [bind].
case hm : (convolution_matrix_fourier n A (e_pw e)) => [M'|//]; cbn [bind].
case: (combine_fourier_masks data host true) => [x|//]; cbn [bind] => -[eM]; subst M'.
exists ge, data, r; split=> //.
move: hr; rewrite /reshape; case: eqP => //= sz [eA]; subst A.
move: hm; rewrite /convolution_matrix_fourier /=; case: eqP => //= hn.
case: ifP => // /forallP ha [eM]; split=> //; split=> // i j.
have /forallP /(_ j) := ha i; rewrite -eM mxE /conv_entry_at /=.
case: (py_index _ _) => [u|//]; cbn [bind]; case: (py_index _ _) => [v|//] _.
by exists u, v.
Qed.
End Table.

(** Sizes of the table. *)
Definition expanded (x : nat) : nat := (if 1 < x then x * 3 else 1)%N.
Lemma expanded_index p a b : odd p -> (a < p)%N -> (b < p)%N ->
  exists u, [/\ py_index (expanded p) (Z.add (Z.of_nat (expanded p %/ 2)) (Z.sub (Z.of_nat a) (Z.of_nat b))) = Ok u,
    (u < expanded p)%N & Z.of_nat u = Z.add (Z.of_nat ((expanded p - 1) %/ 2)) (Z.sub (Z.of_nat a) (Z.of_nat b))].
Proof.
move=> op ha hb.
have oe : odd (expanded p) by rewrite /expanded; case: ifP => // _; rewrite oddM op.
have eh : (expanded p %/ 2 = (expanded p - 1) %/ 2)%N.
  by have eN := odd_halves oe; rewrite {1}eN divn2 /= uphalf_double.
have hp : (p <= (expanded p - 1) %/ 2 + 1)%N /\ expanded p = ((expanded p - 1) %/ 2 + (expanded p - 1) %/ 2 + 1)%N.
  split; last by rewrite addnn addn1 -odd_halves.
  rewrite /expanded; case: ifP => [p1|]; last by case: (p) op => [|[|]].
  have := odd_halves op; rewrite -addnn => ep.
  move: ((p - 1) %/ 2)%N ep => m ep; rewrite ep.
  have -> : ((m + m).+1 * 3 - 1 = (3 * m + 1).*2)%N.
    by rewrite -addnn -!minusE -!multE -!plusE; lia.
  rewrite divn2 doubleK; apply/leP; rewrite -!multE -!plusE; lia.
case: hp => /leP hp eE; rewrite eh; move: ((expanded p - 1) %/ 2)%N hp eE => m hp eE.
move/ltP: ha => ha; move/ltP: hb => hb; rewrite eE; rewrite -!plusE in hp eE *.
eexists; split; first by (apply: py_index_in; lia).
  by apply/ltP; lia.
lia.
Qed.

Section Entry.
Variables (J1 : R -> R) (n : nat) (e : expansion) (isl : seq (shape * C)) (host : C) (M : 'M[C]_n).
Hypotheses (h : analytical_matrix J1 n e isl host = Ok M) (odd1 : odd (e_pw e).1) (odd2 : odd (e_pw e).2).
Lemma analytical_entry : exists ge data r idx, [/\ g_vectors_expanded e 3 = Ok ge,
  island_transforms J1 isl ge.1 (e_sigma e) = Ok data, combine_fourier_masks data host false = Ok r &
  [/\ ge.1 = gvecs (e_reciprocal e) idx, size r = size idx &
  forall i j : 'I_n, 
    let d1 := Z.sub (Z.of_nat (i %% (e_pw e).1)) (Z.of_nat (j %% (e_pw e).1)) in
    let d2 := Z.sub (Z.of_nat (i %/ (e_pw e).1)) (Z.of_nat (j %/ (e_pw e).1)) in
    exists k, [/\ (k < size idx)%N, M i j = nth 0 r k,
      (e_pw e).1 = 1%N \/ (e_pw e).2 = 1%N -> nth (Z0, Z0) idx k = (d1, d2) &
      (e_pw e).1 = (e_pw e).2 -> nth (Z0, Z0) idx k = (d2, d1)]]].
Proof.
have [ge' [data' [r' [h1 h2 h3 [hn [sz h4]]]]]] := analytical_parts h.
exists ge', data', r'; move: h1 (h1); rewrite {1}/g_vectors_expanded.
set epw := (_, _); case hi : (generate_expansion_indices epw) => [ix|//] [ege] h1.
exists ix; split=> //.
have eg2 : ge'.2 = (expanded (e_pw e).1, expanded (e_pw e).2) by rewrite -ege.
have si := indices_size hi.
split; [by rewrite -ege|by rewrite sz si -ege|].
move=> i j d1 d2; have [u [v [hu hv eM]]] := h4 i j.
have [p0 q0] : (0 < (e_pw e).1)%N /\ (0 < (e_pw e).2)%N by split; exact: odd_gt0.
have lt (k : 'I_n) : (k %/ (e_pw e).1 < (e_pw e).2)%N by rewrite ltn_divLR // mulnC hn.
have lx (k : 'I_n) : (k %% (e_pw e).1 < (e_pw e).1)%N by rewrite ltn_pmod.
have [u' [hu' ltu eu]] := expanded_index odd1 (lx i) (lx j).
have [v' [hv' ltv ev]] := expanded_index odd2 (lt i) (lt j).
move: hu hv; rewrite eg2 /= hu' hv' => -[e1] [e2]; subst u' v'.
have hk : (u * expanded (e_pw e).2 + v < expanded (e_pw e).1 * expanded (e_pw e).2)%N.
  apply: (@leq_trans (u.+1 * expanded (e_pw e).2)); first by rewrite mulSn addnC ltn_add2r.
  by rewrite leq_mul2r ltu orbT.
exists (u * expanded (e_pw e).2 + v)%N; split=> //; rewrite ?si // ?eM ?eg2 //.
- move=> o; rewrite (indices_nth hi) // /epw /= -/(expanded _) -/(expanded _).
  case: o => o.
    have x1 : expanded (e_pw e).1 = 1%N by rewrite o.
    have u0 : u = 0%N by move: ltu; rewrite x1; case: (u).
    rewrite x1 u0 mul0n add0n modn1 divn1 /=; congr pair; last by rewrite /d2; lia.
    rewrite /d1; have := eu; rewrite u0 x1 /=; lia.
  have x1 : expanded (e_pw e).2 = 1%N by rewrite o.
  have v0 : v = 0%N by move: ltv; rewrite x1; case: (v).
  rewrite x1 v0 muln1 addn0 (modn_small ltu) (divn_small ltu) /=; congr pair; first by rewrite /d1; lia.
  rewrite /d2; have := ev; rewrite v0 x1 /=; lia.
move=> o; rewrite (indices_nth hi) // /epw /= -/(expanded _) -/(expanded _).
rewrite o in ltu eu ev hk *.
rewrite modnMDl (modn_small ltv) divnMDl; last by apply: leq_ltn_trans ltv.
rewrite (divn_small ltv) addn0.
by congr pair; rewrite /d1 /d2 ?o; lia.
Qed.
End Entry.

Section Analytical.
Variables (J1 : R -> R) (n : nat) (Lx Ly : R) (pw : nat * nat) (e : expansion).
Variables (rects : seq (R * R * R * R * C)) (host : C) (M : 'M[C]_n).
Hypotheses (Lx0 : (0 < Lx)%Re) (Ly0 : (0 < Ly)%Re) (he : mk_expansion pw (rect_lattice Lx Ly) = Ok e).
Hypotheses (hin : forall p, List.In p rects -> rect_inside Lx Ly p.1) (hd : disjoint (regions rects)).
Hypothesis hM : analytical_matrix J1 n e (islands_of rects) host = Ok M.
Let good (z : C) (G : vec2) := exists w, fourier_integral Lx Ly (drawn (regions rects) host) G w /\
    (Cmod (z - w)%R <= branch_error Lx Ly rects host)%Re /\ (rects_clear rects G -> z = w).
Lemma analytical_good i j : 
  (pw.1 = 1%N \/ pw.2 = 1%N -> good (M i j) (sub2 (gth e i) (gth e j))) /\
  (pw.1 = pw.2 -> Lx = Ly -> good (M i j) (swap2 (sub2 (gth e i) (gth e j)))).
Proof.
have [b [idx0 [hb hi0 ee]]] := mk_expansion_ok he.
have eb := rect_reciprocal Lx0 Ly0 hb.
have epw : e_pw e = pw by rewrite ee.
have [o1 o2] := indices_odd hi0.
have := @analytical_entry J1 n e _ host M hM; rewrite epw => /(_ o1 o2).
case=> ge [data [r [idx [h1 h2 h3 [h4 h5 h6]]]]].
have [_ [_ [_ [_ _ _ [hn _]]]]] := analytical_parts hM; rewrite epw in hn.
have [k [hk eM k1 k2]] := h6 i j.
have gz : forall z, nth (0%Re, 0%Re) ge.1 k = z -> good (M i j) z.
  move=> z <-; have [|_] := rects_combined Lx0 Ly0 he hin hd h1 h2 h3 (k := k).
    by rewrite h4 size_gvecs.
  by rewrite -eM.
have si := indices_size hi0.
have li (q : 'I_n) : (q < pw.1 * pw.2)%N by rewrite hn.
have eg (q : 'I_n) : gth e q = ((2 * PI / Lx * IZR (Z.sub (Z.of_nat (q %% pw.1)) (Z.of_nat ((pw.1 - 1) %/ 2))))%Re,
                     (2 * PI / Ly * IZR (Z.sub (Z.of_nat (q %/ pw.1)) (Z.of_nat ((pw.2 - 1) %/ 2))))%Re).
  rewrite /gth ee /= nth_gvecs ?si // (indices_nth hi0) // eb /=.
  by congr pair; ring.
have er : e_reciprocal e = b by rewrite ee.
split=> [o|o o'].
  apply: gz; rewrite h4 nth_gvecs // k1 // er eb /sub2 !eg /= !minus_IZR.
  by congr pair; ring.
apply: gz; rewrite h4 nth_gvecs // k2 // er eb /sub2 /swap2 !eg /= !minus_IZR o' -o.
by congr pair; ring.
Qed.
End Analytical.

(** Definedness. *)
Lemma add_masks_def inverse host islands acc : host != 0 ->
  (forall p, List.In p islands -> p.2 != 0 /\ size p.1 = size acc) -> is_ok (add_masks inverse host islands acc).
Proof.
move=> h0; elim: islands acc => [|[bf eps] islands IH] acc hp; first by eexists.
have [/= e0 sz] := hp (bf, eps) (or_introl erefl).
have th : mask_trsf inverse host = Ok (if inverse then host^-1 else host).
  by rewrite /mask_trsf; case: inverse {IH} => //; rewrite (negbTE h0).
have ti : mask_trsf inverse eps = Ok (if inverse then eps^-1 else eps).
  by rewrite /mask_trsf; case: inverse {IH th} => //; rewrite (negbTE e0).
rewrite /= ti th /= sz eqxx /=; apply: IH => p hin; have [|p2 sp] := hp p; first by right.
by split=> //; rewrite size_map size_zip sz minnn.
Qed.
Lemma analytical_def J1 Lx Ly pw e rects host : (0 < Lx)%Re -> (0 < Ly)%Re ->
  mk_expansion pw (rect_lattice Lx Ly) = Ok e -> rects <> [::] -> host != 0 ->
  (forall p, List.In p rects -> p.2 != 0) ->
  is_ok (analytical_matrix J1 (pw.1 * pw.2) e (islands_of rects) host).
Proof.
move=> Lx0 Ly0 he r0 h0 hp.
have [b [idx0 [hb hi0 ee]]] := mk_expansion_ok he.
have s0 : (Lx * Ly <> 0)%Re by apply: Rmult_integral_contrapositive; split; lra.
have es : e_sigma e = (Lx * Ly)%Re by rewrite ee /=; exact: rect_sigma.
have [o1 o2] := indices_odd hi0; have epw : e_pw e = pw by rewrite ee.
have oe p : odd p -> odd (expanded p) by move=> op; rewrite /expanded; case: ifP => // _; rewrite oddM op.
rewrite /analytical_matrix /g_vectors_expanded epw -/(expanded pw.1) -/(expanded pw.2).
have [idx hi] := @indices_def (expanded pw.1, expanded pw.2) (oe _ o1) (oe _ o2).
have si := indices_size hi; rewrite hi; cbn [bind fst snd]; rewrite es.
set G := gvecs _ _.
have -> : mapM (fun isl => do t <- transform J1 isl.1 G (Lx * Ly)%Re; Ok (t, isl.2)) (islands_of rects) =
  Ok [seq ([seq (let: (l0, l1, u0, u1) := p.1 in transform_rectangle l0 l1 u0 u1 g.1 g.2 (Lx * Ly)%Re) | g <- G], p.2) | p <- rects].
  elim: (rects) => [//|[[[[l0 l1] u0] u1] x] rs IH] /=.
  have -> : transform J1 (Rectangle l0 l1 u0 u1) G (Lx * Ly)%Re = Ok [seq transform_rectangle l0 l1 u0 u1 g.1 g.2 (Lx * Ly)%Re | g <- G].
    by rewrite /transform; destruct (Req_EM_T (Lx * Ly) 0) as [z|z].
  by cbn [bind]; rewrite IH.
cbn [bind]; set data := map _ _.
have sG : size G = (expanded pw.1 * expanded pw.2)%N by rewrite size_gvecs si.
have G0 : (0 < size G)%N by rewrite sG muln_gt0 !odd_gt0 // oe.
have hdat p : List.In p data -> p.2 != 0 /\ size p.1 = size G.
  by move/List.in_map_iff => [q [<- hq]]; rewrite size_map; split=> //; exact: hp.
have d0 : data <> [::] by rewrite /data; case: (rects) r0.
move: data hdat d0 => data hdat d0.
have cm inverse : exists r, combine_fourier_masks data host inverse = Ok r /\ (inverse = false -> size r = size G).
  have [r hr] : is_ok (combine_fourier_masks data host inverse).
    case: (data) d0 hdat => [//|[bf eps] rest] _ hdat.
    have [_ /= sz] := hdat (bf, eps) (or_introl erefl).
    have th : mask_trsf inverse host = Ok (if inverse then host^-1 else host).
      by rewrite /mask_trsf; case: inverse => //; rewrite (negbTE h0).
    have : is_ok (add_masks inverse host ((bf, eps) :: rest)
        (mkseq (fun i => if i == ((size bf - 1) %/ 2)%N then if inverse then host^-1 else host else 0) (size bf))).
      by apply: add_masks_def => // p; rewrite size_mkseq sz; exact: hdat.
    rewrite -[is_ok (if _ then _ else _)]/(is_ok (combine_fourier_masks ((bf, eps) :: rest) host inverse)).
    suff -> : combine_fourier_masks ((bf, eps) :: rest) host inverse = add_masks inverse host ((bf, eps) :: rest)
        (mkseq (fun i => if i == ((size bf - 1) %/ 2)%N then if inverse then host^-1 else host else 0) (size bf)) by [].
    by rewrite {1}/combine_fourier_masks {1}sz (gtn_eqF G0) {1}th.
  exists r; split=> // ei; rewrite ei in hr; move: hr.
  case: data d0 hdat => [//|[bf eps] rest] _ hdat /combine_size ->.
  by have [] := hdat (bf, eps) (or_introl erefl).
have [r [-> sr]] := cm false; cbn [bind]; rewrite /reshape sr // sG eqxx; cbn [bind].
rewrite /convolution_matrix_fourier eqxx /=.
have -> : [forall row : 'I_(pw.1 * pw.2), forall col : 'I_(pw.1 * pw.2), if conv_entry_at (Array2 (expanded pw.1) (expanded pw.2)
   (fun i j => nth 0 r (i * expanded pw.2 + j))) pw.1 row col is Ok _ then true else false].
  apply/forallP => i; apply/forallP => j.
  have [p0 q0] : (0 < pw.1)%N /\ (0 < pw.2)%N by split; exact: odd_gt0.
  have lt (k : 'I_(pw.1 * pw.2)) : (k %/ pw.1 < pw.2)%N by rewrite ltn_divLR // [(pw.2 * _)%N]mulnC; exact: ltn_ord.
  have lx (k : 'I_(pw.1 * pw.2)) : (k %% pw.1 < pw.1)%N by rewrite ltn_pmod.
  have [u' [hu' _ _]] := expanded_index o1 (lx i) (lx j).
  have [v' [hv' _ _]] := expanded_index o2 (lt i) (lt j).
  by rewrite /conv_entry_at /= hu' hv'.
by cbn [bind]; have [r' [-> _]] := cm true; cbn [bind]; eexists.
Qed.
