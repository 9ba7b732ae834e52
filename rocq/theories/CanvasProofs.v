(** Proofs of C92: resampling of a drawing. *)
From Coq Require Import Reals ZArith Lra Lia String.
From mathcomp Require Import all_ssreflect all_algebra.
From Coquelicot Require Import Complex.
From Verif Require Import Base CField CFun ModelExpansion ModelFourier ModelDraw ModelRest SpecRest WoodpileProofs LatticeProofs.
Set Implicit Arguments. Unset Strict Implicit. Unset Printing Implicit Defensive.

(** * Points of a linspace *)
Lemma RltbE x y : reflect (x < y)%Re (Rltb x y).
Proof. by rewrite /Rltb; destruct (Rlt_dec x y) as [h|h]; constructor. Qed.
Lemma INR_pos n : (1 < n)%N -> (0 < INR (n - 1))%Re.
Proof. by move=> h; apply: lt_0_INR; apply/ltP; rewrite subn_gt0. Qed.

Section Linspace.
Variables (a b : R) (n : nat).
Hypotheses (hab : (a < b)%Re) (hn : (1 < n)%N).
Notation g := (linspace_from a b n).
Lemma linE k : g k = (a + INR k * ((b - a) / INR (n - 1)))%Re.
Proof. by rewrite /linspace_from gtn_eqF. Qed.
Lemma step_pos : (0 < (b - a) / INR (n - 1))%Re.
Proof. by apply: Rdiv_lt_0_compat; [lra | apply: INR_pos]. Qed.
Lemma lin_lt k l : (k < l)%N -> (g k < g l)%Re.
Proof.
move=> h; rewrite !linE; have := step_pos; have := lt_INR _ _ (ltP h).
by move=> h1 h2; have := Rmult_lt_compat_r _ _ _ h2 h1; lra.
Qed.
Lemma lin_le k l : (k <= l)%N -> (g k <= g l)%Re.
Proof. by rewrite leq_eqVlt => /orP [/eqP -> | /lin_lt]; lra. Qed.
Lemma lin_last : g (n - 1) = b.
Proof. by rewrite linE; have := INR_pos hn; move=> h; field; lra. Qed.
Lemma lin_first : g 0 = a.
Proof. by rewrite linE /=; lra. Qed.
Lemma lin_ascending : ascending g n.
Proof. by apply/allP => k _; apply/RltbE; apply: lin_lt. Qed.

Lemma count_lt m x : count (fun k => Rltb (g k) x) (iota 0 m) =
  \sum_(0 <= k < m) (if Rltb (g k) x then 1 else 0).
Proof. by rewrite -sum1_count big_mkcond /index_iota subn0. Qed.

Lemma count_below m x j : (j <= m)%N -> (forall k, (k < j)%N -> (g k < x)%Re) -> (forall k, (j <= k < m)%N -> (x <= g k)%Re) ->
  count (fun k => Rltb (g k) x) (iota 0 m) = j.
Proof.
move=> hj h1 h2; rewrite -{1}(subnKC hj) iotaD count_cat.
have -> : count (fun k => Rltb (g k) x) (iota 0 j) = j.
  rewrite -[RHS](size_iota 0); apply/eqP; rewrite -all_count; apply/allP => k; rewrite mem_iota add0n => /andP [_ hk].
  by apply/RltbE; apply: h1.
suff -> : count (fun k => Rltb (g k) x) (iota (0 + j) (m - j)) = 0%N by rewrite addn0.
apply/eqP; rewrite -leqn0 leqNgt -has_count; apply/negP => /hasP [k]; rewrite mem_iota add0n subnKC // => hk /RltbE.
by have := h2 _ hk; lra.
Qed.

(** The cell of a point. *)
Lemma cell_spec x : (a <= x <= b)%Re -> (cell g n x <= n - 2)%N /\ (g (cell g n x) <= x <= g (cell g n x).+1)%Re.
Proof.
move=> hx; rewrite /cell; set q := count _ _.
split; first exact: geq_minr.
have hq : (q <= n)%N by rewrite -[X in (_ <= X)%N](size_iota 0); apply: count_size.
(* the first index at or above x *)
have [j [hj h1 h2]] : exists j, [/\ (j <= n)%N, forall k, (k < j)%N -> (g k < x)%Re & forall k, (j <= k < n)%N -> (x <= g k)%Re].
  have hex : exists j, (j == n) || ~~ Rltb (g j) x by exists n; rewrite eqxx.
  exists (ex_minn hex); case: ex_minnP => j /orP hj hmin; split.
  - by apply: hmin; rewrite eqxx.
  - move=> k hk; apply/RltbE; apply: contraLR hk => hk; rewrite -leqNgt; apply: hmin; rewrite hk orbT //.
  - move=> k /andP [jk kn]; case: hj => [/eqP e|/RltbE hj]; first by move: jk; rewrite e leqNgt kn.
    by have := lin_le jk; lra.
have eq : q = j by apply: count_below.
rewrite eq; case: (posnP j) => hj0.
  rewrite hj0 sub0n min0n.
  have hx0 : x = a.
    have : (x <= g 0)%Re by apply: h2; rewrite hj0 leqnn (ltn_trans _ hn).
    by rewrite lin_first; lra.
  have := lin_lt (ltn0Sn 0); rewrite lin_first; lra.
have hjn : (j - 1 <= n - 2)%N.
  case: (ltnP j n) => hjn.
    by have /leP h5 := hn; nlia.
  have ej : j = n by apply/eqP; rewrite eqn_leq hj.
  have := h1 (n - 1)%N; rewrite ej lin_last => /(_ _) h3.
  have h4 : (n - 1 < n)%N by rewrite subn1 prednK // (ltn_trans _ hn).
  by have := h3 h4; lra.
rewrite (minn_idPl hjn); split.
  by apply: Rlt_le; apply: h1; rewrite subn1 prednK.
rewrite subn1 prednK //; apply: h2; rewrite leqnn /=.
by have /leP h5 := hn; nlia.
Qed.
Lemma fraction_spec x : (a <= x <= b)%Re -> (0 <= fraction g n x <= 1)%Re.
Proof.
move=> hx; rewrite /fraction; have [_ h] := cell_spec hx; set i := cell _ _ _ in h *.
have h1 := lin_lt (ltnSn i); split; first by apply: Rmult_le_pos; [lra | apply: Rlt_le; apply: Rinv_0_lt_compat; lra].
apply: (Rmult_le_reg_r (g i.+1 - g i)); first by lra.
by rewrite /Rdiv Rmult_assoc Rinv_l; lra.
Qed.
End Linspace.

Lemma minl (T : Type) (f : T -> R) l m : let r := foldl (fun m p => Rmin m (f p)) m l in
  [/\ (r <= m)%Re, forall p, List.In p l -> (r <= f p)%Re & r = m \/ exists2 p, List.In p l & r = f p].
Proof.
elim: l m => [|x l IH] m /=; first by split=> //; [lra | left].
have [h1 h2 h3] := IH (Rmin m (f x)); have ml := Rmin_l m (f x); have mr := Rmin_r m (f x); split; first by lra.
  by move=> p [<-|/h2 //]; lra.
case: h3 => [->|[p hp ->]]; last by right; exists p => //; right.
by rewrite /Rmin; destruct (Rle_dec m (f x)); [left | right; exists x => //; left].
Qed.
Lemma maxl (T : Type) (f : T -> R) l m : let r := foldl (fun m p => Rmax m (f p)) m l in
  [/\ (m <= r)%Re, forall p, List.In p l -> (f p <= r)%Re & r = m \/ exists2 p, List.In p l & r = f p].
Proof.
elim: l m => [|x l IH] m /=; first by split=> //; [lra | left].
have [h1 h2 h3] := IH (Rmax m (f x)); have ml := Rmax_l m (f x); have mr := Rmax_r m (f x); split; first by lra.
  by move=> p [<-|/h2 //]; lra.
case: h3 => [->|[p hp ->]]; last by right; exists p => //; right.
by rewrite /Rmax; destruct (Rle_dec m (f x)); [right; exists x => //; left | left].
Qed.
Lemma In_mem (T : eqType) (x : T) l : List.In x l <-> x \in l.
Proof.
elim: l => [|y l IH] //=; rewrite inE; split; first by case=> [->|/IH ->]; rewrite ?eqxx ?orbT.
by case/orP => [/eqP ->|/IH]; [left | right].
Qed.

Section Resample.
Variable d : drawing R_eqType.
Notation m1 := (d_shape d).1.
Notation m2 := (d_shape d).2.
Lemma In_pixels i j : List.In (i, j) (pixels d) <-> (i < m1)%N /\ (j < m2)%N.
Proof.
rewrite In_mem /pixels; split.
  by case/allpairsP => -[a b] /= [ha hb [-> ->]]; move: ha hb; rewrite !mem_iota !add0n.
by case=> h1 h2; apply/allpairsP; exists (i, j); rewrite !mem_iota !add0n.
Qed.
Lemma lowest_le f i j : (i < m1)%N -> (j < m2)%N -> (lowest d f <= f i j)%Re.
Proof. by move=> h1 h2; have [_ H _] := minl (fun p => f p.1 p.2) (pixels d) (f 0 0)%N; apply: (H (i, j)); apply/In_pixels. Qed.
Lemma highest_ge f i j : (i < m1)%N -> (j < m2)%N -> (f i j <= highest d f)%Re.
Proof. by move=> h1 h2; have [_ H _] := maxl (fun p => f p.1 p.2) (pixels d) (f 0 0)%N; apply: (H (i, j)); apply/In_pixels. Qed.
Lemma lowest_at f : (0 < m1)%N -> (0 < m2)%N -> exists i j, [/\ (i < m1)%N, (j < m2)%N & lowest d f = f i j].
Proof.
move=> h1 h2; rewrite /lowest; have [_ _ [->|[[i j] /In_pixels [hi hj] ->]]] := minl (fun p => f p.1 p.2) (pixels d) (f 0 0)%N; first by exists 0%N, 0%N.
by exists i, j.
Qed.
Lemma highest_at f : (0 < m1)%N -> (0 < m2)%N -> exists i j, [/\ (i < m1)%N, (j < m2)%N & highest d f = f i j].
Proof.
move=> h1 h2; rewrite /highest; have [_ _ [->|[[i j] /In_pixels [hi hj] ->]]] := maxl (fun p => f p.1 p.2) (pixels d) (f 0 0)%N; first by exists 0%N, 0%N.
by exists i, j.
Qed.

(** The box is not degenerate. *)
Definition wide : Prop := (l00 (d_lattice d) <> 0 \/ l10 (d_lattice d) <> 0)%Re.
Definition high : Prop := (l01 (d_lattice d) <> 0 \/ l11 (d_lattice d) <> 0)%Re.
Hypotheses (h1 : (1 < m1)%N) (h2 : (1 < m2)%N).
Lemma spread f : (exists i j i' j', [/\ (i < m1)%N, (j < m2)%N, (i' < m1)%N, (j' < m2)%N & f i j <> f i' j']) ->
  (lowest d f < highest d f)%Re.
Proof.
case=> i [j [i' [j' [a b a' b' ne]]]]; have := lowest_le f a b; have := lowest_le f a' b'; have := highest_ge f a b; have := highest_ge f a' b'.
by destruct (Rdichotomy _ _ ne); lra.
Qed.
Lemma lin01 n : (1 < n)%N -> (linspace n 1 - linspace n 0 <> 0)%Re.
Proof.
move=> hn; rewrite /linspace gtn_eqF //= (_ : (- (1 / 2) + 1 / INR (n - 1) - (- (1 / 2) + 0 / INR (n - 1)) = / INR (n - 1))%Re); last by field; have := INR_pos hn; lra.
by apply: Rinv_neq_0_compat; have := INR_pos hn; lra.
Qed.
Lemma affine_spread u v : (u <> 0 \/ v <> 0)%Re ->
  let f i j := (u * linspace m1 i + v * linspace m2 j)%Re in
  exists i j i' j', [/\ (i < m1)%N, (j < m2)%N, (i' < m1)%N, (j' < m2)%N & f i j <> f i' j'].
Proof.
have [p1 p2] := (ltnW h1, ltnW h2); have q1 := lin01 h1; have q2 := lin01 h2.
case=> h /=; [exists 1%N, 0%N, 0%N, 0%N | exists 0%N, 1%N, 0%N, 0%N]; split=> // e.
- by have [] := Rmult_integral u (linspace m1 1 - linspace m1 0); lra.
- by have [] := Rmult_integral v (linspace m2 1 - linspace m2 0); lra.
Qed.
Lemma box_x : wide -> (box_x0 d < box_x1 d)%Re.
Proof. by move=> h; apply: spread; apply: affine_spread. Qed.
Lemma box_y : high -> (box_y0 d < box_y1 d)%Re.
Proof. by move=> h; apply: spread; apply: affine_spread. Qed.

Hypotheses (hx : wide) (hy : high).
Lemma canvas_defined shape : is_ok (canvas_shape d shape).
Proof.
rewrite /canvas_shape; case e : (d_shape d) => [a b]; move: (h1) (h2); rewrite e /= => g1 g2.
by rewrite (ltnNge a) g1 (ltnNge b) g2 /= !lin_ascending //=; [eexists | apply: box_y | apply: box_x].
Qed.

Variables (shape : nat * nat) (V X Y : nat -> nat -> R).
Hypothesis hV : canvas_shape d shape = Ok (V, X, Y).
Notation gx := (linspace_from (box_x0 d) (box_x1 d) m1).
Notation gy := (linspace_from (box_y0 d) (box_y1 d) m2).
Definition at_point x y : R :=
    let i := cell gx m1 x in let j := cell gy m2 y in
    let u := fraction gx m1 x in let v := fraction gy m2 y in
    (d_canvas d i j * (1 - u) * (1 - v) + d_canvas d i.+1 j * u * (1 - v) +
     d_canvas d i j.+1 * (1 - u) * v + d_canvas d i.+1 j.+1 * u * v)%Re.
Lemma canvasE : [/\ V = fun i j => at_point (X i j) (Y i j), X = fun i j => linspace_from (box_x0 d) (box_x1 d) shape.1 i &
  Y = fun i j => linspace_from (box_y0 d) (box_y1 d) shape.2 j].
Proof.
move: hV; rewrite /canvas_shape /at_point; case: (d_shape d) => [a b] /=; case: ifP => //= _ [<- <- <-].
by split.
Qed.

Lemma convex4 lo hi a b c e u v : (0 <= u <= 1)%Re -> (0 <= v <= 1)%Re -> (lo <= a <= hi)%Re -> (lo <= b <= hi)%Re ->
  (lo <= c <= hi)%Re -> (lo <= e <= hi)%Re ->
  (lo <= a * (1 - u) * (1 - v) + b * u * (1 - v) + c * (1 - u) * v + e * u * v <= hi)%Re.
Proof.
move=> hu hv ha hb hc he.
have k1 : (lo <= a * (1 - u) + b * u <= hi)%Re by split; nra.
have k2 : (lo <= c * (1 - u) + e * u <= hi)%Re by split; nra.
set p := (a * (1 - u) + b * u)%Re in k1; set q := (c * (1 - u) + e * u)%Re in k2.
have -> : (a * (1 - u) * (1 - v) + b * u * (1 - v) + c * (1 - u) * v + e * u * v = p * (1 - v) + q * v)%Re by rewrite /p /q; ring.
by clearbody p q; split; nra.
Qed.
Lemma at_point_bounds lo hi x y : (box_x0 d <= x <= box_x1 d)%Re -> (box_y0 d <= y <= box_y1 d)%Re ->
  (forall i j, (i < m1)%N -> (j < m2)%N -> (lo <= d_canvas d i j <= hi)%Re) -> (lo <= at_point x y <= hi)%Re.
Proof.
move=> bx by_ hc; rewrite /at_point.
have [ci _] := cell_spec (box_x hx) h1 bx; have [cj _] := cell_spec (box_y hy) h2 by_.
have fi := fraction_spec (box_x hx) h1 bx; have fj := fraction_spec (box_y hy) h2 by_.
have a1 : ((cell gx m1 x).+1 < m1)%N by have /leP h5 := h1; nlia.
have a2 : ((cell gy m2 y).+1 < m2)%N by have /leP h5 := h2; nlia.
by apply: convex4 => //; apply: hc => //; apply: ltnW.
Qed.
Lemma lin_range a b n k : (a <= b)%Re -> (k < n)%N -> (a <= linspace_from a b n k <= b)%Re.
Proof.
move=> hab hk; rewrite /linspace_from; case: eqP => hn; first by lra.
have h1' : (1 < n)%N by case: n hk hn => [|[|]].
have q := INR_pos h1'; have hk' : (INR k <= INR (n - 1))%Re by apply: le_INR; apply/leP; nlia.
have k0 := pos_INR k.
have -> : (INR k * ((b - a) / INR (n - 1)) = (b - a) * (INR k / INR (n - 1)))%Re by field; lra.
have r0 : (0 <= INR k / INR (n - 1))%Re by apply: Rmult_le_pos => //; apply: Rlt_le; apply: Rinv_0_lt_compat.
have r1 : (INR k / INR (n - 1) <= 1)%Re.
  by apply: (Rmult_le_reg_r (INR (n - 1))) => //; rewrite /Rdiv Rmult_assoc Rinv_l; lra.
by split; nra.
Qed.
Lemma canvas_bounds lo hi i j : (i < shape.1)%N -> (j < shape.2)%N ->
  (forall i j, (i < m1)%N -> (j < m2)%N -> (lo <= d_canvas d i j <= hi)%Re) -> (lo <= V i j <= hi)%Re.
Proof.
have [-> -> ->] := canvasE => hi' hj hc; apply: at_point_bounds => //; apply: lin_range => //; apply: Rlt_le.
  exact: box_x.
exact: box_y.
Qed.

(** At a point of the grid. *)
Lemma knot a b n i : (a < b)%Re -> (1 < n)%N -> (i < n)%N -> let g := linspace_from a b n in
  (i = 0%N /\ cell g n (g i) = 0%N /\ fraction g n (g i) = 0%Re) \/
  ((cell g n (g i)).+1 = i /\ fraction g n (g i) = 1%Re).
Proof.
move=> hab hn hi g.
have hc : cell g n (g i) = (i - 1)%N.
  rewrite /cell (@count_below a b n n (g i) i) => //; first by apply/minn_idPl; nlia.
  - exact: ltnW.
  - by move=> k hk; apply: lin_lt.
  - by move=> k /andP [hk _]; apply: lin_le.
case: i hi hc => [|i] hi hc.
  by left; rewrite /fraction hc sub0n /Rdiv; split=> //; split=> //; lra.
right; rewrite /fraction hc subn1 /=; split=> //.
by have := lin_lt hab hn (ltnSn i); rewrite -/g => h; field; lra.
Qed.
Lemma at_knot i j : (i < m1)%N -> (j < m2)%N -> at_point (gx i) (gy j) = d_canvas d i j.
Proof.
move=> hi hj; rewrite /at_point.
by have [[-> [-> ->]]|[e1 ->]] := knot (box_x hx) h1 hi; have [[-> [-> ->]]|[e2 ->]] := knot (box_y hy) h2 hj;
  rewrite ?e1 ?e2; ring.
Qed.
Lemma refine a b n k i : (0 < k)%N -> (1 < n)%N -> linspace_from a b (k * (n - 1) + 1) (k * i) = linspace_from a b n i.
Proof.
move=> hk hn; rewrite /linspace_from addnK !gtn_eqF //; last by rewrite addn1 ltnS muln_gt0 hk subn_gt0.
rewrite -!multE !mult_INR; congr (_ + _)%Re; field; split.
  by have := INR_pos hn; lra.
by apply: not_0_INR => e; rewrite e in hk.
Qed.
Lemma canvas_refine k1 k2 i j : shape = (k1 * (m1 - 1) + 1, k2 * (m2 - 1) + 1)%N -> (0 < k1)%N -> (0 < k2)%N ->
  (i < m1)%N -> (j < m2)%N -> V (k1 * i)%N (k2 * j)%N = d_canvas d i j.
Proof.
have [-> -> ->] := canvasE => -> q1 q2 hi hj; rewrite !refine //; exact: at_knot.
Qed.

(** Upright lattices. *)
Lemma linspaceE n k : (1 < n)%N -> linspace n k = linspace_from (- (1 / 2)) (1 / 2) n k.
Proof. by move=> hn; rewrite /linspace /linspace_from gtn_eqF //; field; have := INR_pos hn; lra. Qed.
Lemma lin_scale u n k : (1 < n)%N -> linspace_from (- (u / 2)) (u / 2) n k = (u * linspace n k)%Re.
Proof. by move=> hn; rewrite linspaceE // /linspace_from gtn_eqF //; field; have := INR_pos hn; lra. Qed.
Lemma lin_box u n k : (0 < u)%Re -> (k < n)%N -> (1 < n)%N -> (- (u / 2) <= u * linspace n k <= u / 2)%Re.
Proof. by move=> hu hk hn; rewrite -lin_scale //; apply: lin_range => //; lra. Qed.
Lemma lin_end u n : (1 < n)%N -> (u * linspace n 0 = - (u / 2))%Re /\ (u * linspace n (n - 1) = u / 2)%Re.
Proof.
move=> hn; rewrite -!lin_scale // /linspace_from gtn_eqF //; split; [rewrite INR_IZR_INZ /= | ]; field; have := INR_pos hn; lra.
Qed.
Lemma lowest_is f v : (exists i j, [/\ (i < m1)%N, (j < m2)%N & f i j = v]) ->
  (forall i j, (i < m1)%N -> (j < m2)%N -> (v <= f i j)%Re) -> lowest d f = v.
Proof.
case=> i [j [hi hj e]] H; apply: Rle_antisym; first by rewrite -e; apply: lowest_le.
by have [a [b [ha hb ->]]] := lowest_at f (ltnW h1) (ltnW h2); apply: H.
Qed.
Lemma highest_is f v : (exists i j, [/\ (i < m1)%N, (j < m2)%N & f i j = v]) ->
  (forall i j, (i < m1)%N -> (j < m2)%N -> (f i j <= v)%Re) -> highest d f = v.
Proof.
case=> i [j [hi hj e]] H; apply: Rle_antisym; last by rewrite -e; apply: highest_ge.
by have [a [b [ha hb ->]]] := highest_at f (ltnW h1) (ltnW h2); apply: H.
Qed.
Lemma upright_coordinates i j : (0 < l00 (d_lattice d))%Re -> (0 < l11 (d_lattice d))%Re ->
  l01 (d_lattice d) = 0%Re -> l10 (d_lattice d) = 0%Re -> shape = d_shape d -> (i < m1)%N -> (j < m2)%N ->
  X i j = dX d i j /\ Y i j = dY d i j.
Proof.
have [_ -> ->] := canvasE => p1 p2 z1 z2 -> hi hj.
have eX a b : dX d a b = (l00 (d_lattice d) * linspace m1 a)%Re by rewrite /dX z2; ring.
have eY a b : dY d a b = (l11 (d_lattice d) * linspace m2 b)%Re by rewrite /dY z1; ring.
have [x0 x1] := lin_end (l00 (d_lattice d)) h1; have [y0 y1] := lin_end (l11 (d_lattice d)) h2.
have l1' : (m1 - 1 < m1)%N by have /leP h3 := h1; nlia.
have l2' : (m2 - 1 < m2)%N by have /leP h3 := h2; nlia.
have [q1 q2] := (ltnW h1, ltnW h2).
have -> : box_x0 d = (- (l00 (d_lattice d) / 2))%Re.
  by apply: lowest_is => [|a b ha hb]; [exists 0%N, 0%N; rewrite eX; split | rewrite eX; have := lin_box p1 ha h1; lra].
have -> : box_x1 d = (l00 (d_lattice d) / 2)%Re.
  by apply: highest_is => [|a b ha hb]; [exists (m1 - 1)%N, 0%N; rewrite eX; split | rewrite eX; have := lin_box p1 ha h1; lra].
have -> : box_y0 d = (- (l11 (d_lattice d) / 2))%Re.
  by apply: lowest_is => [|a b ha hb]; [exists 0%N, 0%N; rewrite eY; split | rewrite eY; have := lin_box p2 hb h2; lra].
have -> : box_y1 d = (l11 (d_lattice d) / 2)%Re.
  by apply: highest_is => [|a b ha hb]; [exists 0%N, (m2 - 1)%N; rewrite eY; split | rewrite eY; have := lin_box p2 hb h2; lra].
by rewrite !lin_scale // eX eY.
Qed.
End Resample.

(** * A slanted lattice *)

Definition slanted : lattice22 := Lat 1 0 1 1.
Definition blank : drawing R_eqType := @Drawing R_eqType (2, 2)%N slanted 1%Re (fun _ _ => 1%Re) [::].
Definition spot : drawing R_eqType := draw_rectangle blank 0 (- (1 / 2))%Re 1 (1 / 2)%Re 3%Re.
Lemma spot_made : @mk_drawing R_eqType (2, 2)%N 1%Re (Some slanted) = Ok blank.
Proof. by []. Qed.
Lemma spotX i j : dX spot i j = (- 1 + INR i + INR j)%Re.
Proof. by rewrite /dX /linspace /=; field. Qed.
Lemma spotY i j : dY spot i j = (- (1 / 2) + INR j)%Re.
Proof. by rewrite /dY /linspace /=; field. Qed.
Lemma spot_at : d_canvas spot 0 0 = 1%Re /\ d_canvas spot 1 0 = 3%Re.
Proof.
have eX i j : dX blank i j = (- 1 + INR i + INR j)%Re := spotX i j.
have eY i j : dY blank i j = (- (1 / 2) + INR j)%Re := spotY i j.
rewrite /spot /draw_rectangle /paint /d_canvas /=; split.
  have -> // : Rleb (0 - 1 / 2) (dX blank 0 0) = false.
  by rewrite eX /Rleb; destruct Rle_dec as [h|h] => //; move: h => /= h; lra.
have -> : Rleb (0 - 1 / 2) (dX blank 1 0) by rewrite eX /Rleb; destruct Rle_dec as [h|h] => //; case: h => /=; lra.
have -> : Rleb (dX blank 1 0) (0 - 1 / 2 + 1) by rewrite eX /Rleb; destruct Rle_dec as [h|h] => //; case: h => /=; lra.
have -> : Rleb (- (1 / 2) - 1 / 2 / 2) (dY blank 1 0) by rewrite eY /Rleb; destruct Rle_dec as [h|h] => //; case: h => /=; lra.
have -> // : Rleb (dY blank 1 0) (- (1 / 2) - 1 / 2 / 2 + 1 / 2) by rewrite eY /Rleb; destruct Rle_dec as [h|h] => //; case: h => /=; lra.
Qed.
Lemma spot_box : [/\ box_x0 spot = (- 1)%Re, box_x1 spot = 1%Re, box_y0 spot = (- (1 / 2))%Re & box_y1 spot = (1 / 2)%Re].
Proof.
have b i : (i < 2)%N -> (0 <= INR i <= 1)%Re by case: i => [|[|]] //= _; lra.
split; [apply: lowest_is | apply: highest_is | apply: lowest_is | apply: highest_is] => //.
- by exists 0%N, 0%N; rewrite spotX /=; split=> //; ring.
- by move=> i j /b hi /b hj; rewrite spotX; lra.
- by exists 1%N, 1%N; rewrite spotX /=; split=> //; ring.
- by move=> i j /b hi /b hj; rewrite spotX; lra.
- by exists 0%N, 0%N; rewrite spotY /=; split=> //; ring.
- by move=> i j /b hi /b hj; rewrite spotY; lra.
- by exists 0%N, 1%N; rewrite spotY /=; split=> //; field.
- by move=> i j /b hi /b hj; rewrite spotY; lra.
Qed.
Lemma spot_wide : wide spot. Proof. by left; rewrite /=; lra. Qed.
Lemma spot_high : high spot. Proof. by right; rewrite /=; lra. Qed.
Lemma spot_moves V X Y : canvas_shape spot (3, 2)%N = Ok (V, X, Y) ->
  [/\ X 1%N 0%N = dX spot 1 0, Y 1%N 0%N = dY spot 1 0 & V 1%N 0%N <> d_canvas spot 1 0].
Proof.
move=> h; have [eV eX eY] := canvasE h; have [b0 b1 b2 b3] := spot_box; have [s0 s1] := spot_at.
have x0 : X 1%N 0%N = 0%Re by rewrite eX b0 b1 /linspace_from /=; field.
have y0 : Y 1%N 0%N = (- (1 / 2))%Re by rewrite eY b2 b3 /linspace_from /=; field.
have -> : V 1%N 0%N = 2%Re.
  rewrite eV x0 y0 /at_point b0 b1 b2 b3 -[(d_shape spot).1]/2%N -[(d_shape spot).2]/2%N.
  set gx := linspace_from _ _ _; set gy := linspace_from _ _ _.
  have c1 : cell gx 2 0 = 0%N by rewrite /cell subnn minn0.
  have c2 : cell gy 2 (- (1 / 2)) = 0%N by rewrite /cell subnn minn0.
  have f1 : fraction gx 2 0 = (1 / 2)%Re by rewrite /fraction c1 /gx /linspace_from /=; field.
  have f2 : fraction gy 2 (- (1 / 2)) = 0%Re by rewrite /fraction c2 /gy /linspace_from /=; field.
  by rewrite c1 c2 f1 f2 s0 s1; field.
by rewrite x0 y0 s1 spotX spotY /=; split; lra.
Qed.

(** The same, for the specification. *)
Lemma pointE (d : drawing R_eqType) i j : (1 < (d_shape d).1)%N -> (1 < (d_shape d).2)%N ->
  pixel_point d i j = (dX d i j, dY d i j).
Proof. by move=> h1 h2; rewrite /pixel_point /dX /dY /position /linspace !gtn_eqF. Qed.
Lemma upright_points (d : drawing R_eqType) shape V X Y i j : (1 < (d_shape d).1)%N -> (1 < (d_shape d).2)%N ->
  canvas_shape d shape = Ok (V, X, Y) ->
  (0 < l00 (d_lattice d))%Re -> (0 < l11 (d_lattice d))%Re ->
  l01 (d_lattice d) = 0%Re -> l10 (d_lattice d) = 0%Re -> shape = d_shape d -> (i < (d_shape d).1)%N -> (j < (d_shape d).2)%N ->
  (X i j, Y i j) = pixel_point d i j.
Proof. by move=> a b h p1 p2 z1 z2 es hi hj; have [h1 h2] := upright_coordinates a b h p1 p2 z1 z2 es hi hj; rewrite pointE // h1 h2. Qed.
Lemma slanted_refuted : exists d0 d V X Y i j, [/\ mk_drawing (2, 2)%N 1%Re (Some slanted) = Ok d0,
  d = draw_rectangle d0 0 (- (1 / 2))%Re 1 (1 / 2)%Re 3%Re, canvas_shape d (3, 2)%N = Ok (V, X, Y),
  (i < 3)%N && (j < 2)%N & (X i j, Y i j) = pixel_point d 1 0 /\ V i j <> d_canvas d 1 0].
Proof.
have [[[V X] Y] h] := @canvas_defined spot isT isT spot_wide spot_high (3, 2)%N.
have [x0 y0 v0] := spot_moves h; exists blank, spot, V, X, Y, 1%N, 0%N; split=> //.
by rewrite pointE // x0 y0.
Qed.
