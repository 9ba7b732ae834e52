(** Lemmas about the helper functions. *)
From Coq Require Import Reals ZArith String Lra Lia.
From mathcomp Require Import all_ssreflect all_algebra.
From Coquelicot Require Import Complex.
From Verif Require Import Base CField CFun ModelMisc SpecMisc.
Set Implicit Arguments. Unset Strict Implicit. Unset Printing Implicit Defensive.
Import GRing.Theory.

(** * Blocks *)
Lemma flat4E T (A : arr4 T) a b c d i j k l : d4 A = (a, b, c, d) -> j < b -> k < c -> l < d ->
  flat4 A (((i * b + j) * c + k) * d + l) = at4 A i j k l.
Proof.
move=> e hj hk hl; rewrite /flat4 e.
have d0 : 0 < d by case: d hl {e}. have c0 : 0 < c by case: c hk {e}. have b0 : 0 < b by case: b hj {e}.
have e1 : (((i * b + j) * c + k) * d + l) %/ d = (i * b + j) * c + k by rewrite divnMDl // (divn_small hl) addn0.
have e2 : (((i * b + j) * c + k) * d + l) %/ (c * d) = i * b + j.
  by rewrite [c * d]mulnC divnMA e1 divnMDl // (divn_small hk) addn0.
congr (at4 A _ _ _ _).
- by rewrite -mulnA [b * (c * d)]mulnC divnMA e2 divnMDl // (divn_small hj) addn0.
- by rewrite e2 modnMDl (modn_small hj).
- by rewrite e1 modnMDl (modn_small hk).
- by rewrite modnMDl (modn_small hl).
Qed.
Lemma flat2E T (A : arr2 T) i j : j < c2 A -> flat2 A (i * c2 A + j) = at2 A i j.
Proof.
move=> hj; have c0 : 0 < c2 A by case: (c2 A) hj.
by rewrite /flat2 divnMDl // (divn_small hj) addn0 modnMDl (modn_small hj).
Qed.

Lemma denseE T (B : arr4 T) b0 b1 s0 s1 a b i j : d4 B = (b0, b1, s0, s1) -> b < b1 -> i < s0 -> j < s1 ->
  at2 (block2dense B) (a * s0 + i) (b * s1 + j) = at4 B a b i j.
Proof.
move=> e hb hi hj; rewrite /block2dense e /=.
have -> : (a * s0 + i) * (b1 * s1) + (b * s1 + j) = ((a * s0 + i) * b1 + b) * s1 + j.
  by rewrite mulnA addnA -mulnDl.
by rewrite (@flat4E _ _ b0 s0 b1 s1) //; rewrite /swap12 e.
Qed.
Lemma dense_shape T (B : arr4 T) b0 b1 s0 s1 : d4 B = (b0, b1, s0, s1) ->
  r2 (block2dense B) = b0 * s0 /\ c2 (block2dense B) = b1 * s1.
Proof. by move=> e; rewrite /block2dense e. Qed.

Lemma split_square_halves T (S : arr2 T) m : r2 S = 2 * m -> c2 S = 2 * m ->
  block_split S = Ok (Arr4 (2, 2, m, m) (fun a b i j => at2 S (a * m + i) (b * m + j))).
Proof.
move=> hr hc; rewrite /block_split hr hc mulKn // minnn.
have -> : minn m (2 * m) = m by apply/minn_idPl; rewrite leq_pmull.
by rewrite mul2n -addnn addnK eqxx.
Qed.
Lemma decompose n s i : 0 < s -> i < n * s -> i %/ s < n /\ i %% s < s /\ i = i %/ s * s + i %% s.
Proof. by move=> s0 hi; rewrite ltn_divLR // hi ltn_mod s0 -divn_eq. Qed.

Lemma blocks_dense T (S : arr2 T) m : r2 S = 2 * m -> c2 S = 2 * m ->
  exists2 B, block_split S = Ok B & same2 (block2dense B) S.
Proof.
move=> hr hc; rewrite (split_square_halves hr hc); eexists; first by [].
set B := Arr4 _ _; have [e1 e2] := @dense_shape _ B 2 2 m m erefl.
split; rewrite ?e1 ?e2 // => i j hi hj.
have m0 : 0 < m by case: m hi {hr hc B e1 e2 hj}; rewrite ?muln0.
have [h1 [h2 h3]] := decompose m0 hi; have [h4 [h5 h6]] := decompose m0 hj.
by rewrite h3 h6 (@denseE _ B 2 2 m m) //= -h3 -h6.
Qed.
Lemma dense_blocks T (B : arr4 T) m : d4 B = (2, 2, m, m) ->
  exists2 B', block_split (block2dense B) = Ok B' & same4 B' B.
Proof.
move=> e; have [e1 e2] := dense_shape e; rewrite (split_square_halves e1 e2); eexists; first by [].
by split=> [|a b i j /= ha hb hi hj] /=; rewrite ?e // (denseE _ e).
Qed.

Lemma split_blocks T (A : arr2 T) n nrows ncols : r2 A = n -> c2 A = n -> 0 < n -> 0 < nrows -> 0 < ncols ->
  nrows %| n -> ncols %| n -> exists2 B, split A nrows ncols = Ok B & blocks A nrows ncols B.
Proof.
move=> hr hc n0 r0 c0 dr dc; rewrite /split hr hc (gtn_eqF r0) divnK //.
have k0 : 0 < n * ncols by rewrite muln_gt0 n0.
have dk : n * ncols %| n * n by rewrite dvdn_pmul2l.
have eu : n * n %/ (n * ncols) = n %/ ncols by rewrite divnMl.
rewrite (gtn_eqF k0) (eqP dk) eqxx eu /=; eexists; first by [].
set q := n %/ nrows; set u := n %/ ncols; split; rewrite hr hc -/q -/u //= => a b i j ha hb hi hj.
rewrite (@flat4E _ _ q u nrows ncols) //=.
have -> : ((a * nrows + i) * u + b) * ncols + j = (a * nrows + i) * c2 A + (b * ncols + j).
  by rewrite hc mulnDl -mulnA (divnK dc) addnA.
apply: flat2E; rewrite hc -(divnK dc) -/u; apply: (@leq_trans (b.+1 * ncols)); last by rewrite leq_mul2r hb orbT.
by rewrite mulSn addnC ltn_add2r.
Qed.

(** * Convolution *)
Lemma in_flat T (x : T) (f : nat -> seq T) n : List.In x (flatten [seq f i | i <- iota 0 n]) ->
  exists2 i, i < n & List.In x (f i).
Proof.
have gen m : List.In x (flatten [seq f i | i <- iota m n]) -> exists2 i, i < m + n & List.In x (f i).
  elim: n m => [|n ih] m //= /(List.in_app_or _ _ _) [h|/ih [i hi h]]; last by exists i; rewrite -?addSnnS.
  by exists m => //; rewrite addnS ltnS leq_addr.
exact: gen.
Qed.
Lemma in_iota T (x : T) (f : nat -> T) n : List.In x [seq f i | i <- iota 0 n] -> exists2 i, i < n & x = f i.
Proof.
move=> h; have [|i hi [<-|[]]] := @in_flat T x (fun i => [:: f i]) n; last by exists i.
by rewrite (_ : flatten _ = [seq f i | i <- iota 0 n]) //; elim: (iota 0 n) {h} => //= y l ->.
Qed.
Section Convolution.
Variable F : fieldType.
Implicit Types (V : view F) (W : arr2 F).

Lemma window_pixel V k i j a b :
  window_address V (Z.of_nat k) i j a b = address V (Z.of_nat (i * k + a)) (Z.of_nat (j * k + b)).
Proof.
rewrite /window_address /address -!plusE -!multE !Nat2Z.inj_add !Nat2Z.inj_mul; ring.
Qed.
Lemma windows_fit len f k i a : 0 < k -> i < Z.to_nat (windows len f (Z.of_nat k)) -> a < f -> i * k + a < len.
Proof.
move=> k0 /ltP hi /ltP ha; apply/ltP; move/ltP: k0 => k0; rewrite -plusE -multE; move: hi; rewrite /windows => hi.
have hq : (Z.le (Z.mul (Z.of_nat k) (Z.div (Z.sub (Z.of_nat len) (Z.of_nat f)) (Z.of_nat k))) (Z.sub (Z.of_nat len) (Z.of_nat f))).
  apply: Z.mul_div_le; lia.
have : Z.le (Z.of_nat i) (Z.div (Z.sub (Z.of_nat len) (Z.of_nat f)) (Z.of_nat k)) by lia.
move: hq; set q := Z.div _ _; nia.
Qed.
Lemma windows_count len f k : 0 < k -> f <= len -> windows len f (Z.of_nat k) = Z.of_nat (1 + (len - f) %/ k).
Proof.
move=> /ltP k0 h; rewrite /windows -Nat2Z.inj_sub; last by apply/leP.
have -> : (len - f)%coq_nat = len - f by [].
rewrite -plusE Nat2Z.inj_add; congr Z.add.
apply: esym; apply: (Z.div_unique _ _ _ (Z.of_nat ((len - f) %% k))).
  left; have := ltn_pmod (len - f) (introT ltP k0) => /ltP; lia.
rewrite -Nat2Z.inj_mul -Nat2Z.inj_add; congr Z.of_nat; rewrite plusE multE mulnC; exact: divn_eq.
Qed.

Lemma convolution_inside V W k r ads : 0 < k -> strided_convolution V W (Z.of_nat k) = Ok (r, ads) ->
  (forall x, List.In x ads -> exists i j, [/\ i < v_rows V, j < v_cols V & x = address V (Z.of_nat i) (Z.of_nat j)]) /\
  (forall i j, i < r2 r -> j < c2 r ->
     at2 r i j = (\sum_(a < r2 W) \sum_(b < c2 W) pixel V (i * k + a) (j * k + b) * at2 W a b)%R).
Proof.
move=> k0; rewrite /strided_convolution; case: ifP => // _; case: ifP => // _ [<- <-] /=; split=> [x|i j hi hj].
  move=> hx; have [i hi {}hx] := in_flat hx; have [j hj {}hx] := in_flat hx; have [a ha {}hx] := in_flat hx.
  have [b hb ->] := in_iota hx.
  exists (i * k + a), (j * k + b); rewrite window_pixel; split; [exact: (windows_fit k0 hi ha)|exact: (windows_fit k0 hj hb)|by []].
by apply: eq_bigr => a _; apply: eq_bigr => b _; rewrite window_pixel.
Qed.
Lemma convolution_shape V W k : 0 < k -> r2 W <= v_rows V -> c2 W <= v_cols V ->
  exists r ads, [/\ strided_convolution V W (Z.of_nat k) = Ok (r, ads),
    r2 r = 1 + (v_rows V - r2 W) %/ k & c2 r = 1 + (v_cols V - c2 W) %/ k].
Proof.
move=> k0 hr hc; rewrite /strided_convolution !windows_count //.
have -> : Z.eqb (Z.of_nat k) Z0 = false by apply/Z.eqb_neq; move/ltP: k0; lia.
have nn p : Z.ltb (Z.of_nat p) Z0 = false by apply/Z.ltb_ge; lia.
move: (1 + _) (1 + _) => p q; rewrite !nn; do 2 eexists; split; first by []; by rewrite /= Nat2Z.id.
Qed.
End Convolution.

(** * Units *)
Lemma units_there f p : (p <> 0)%Re -> exists2 e, fn2ev f p = Ok e & ev2fn e p = f.
Proof.
move=> hp; rewrite /fn2ev; have h6 : (p * / 10 ^ 6 <> 0)%Re by apply: Rmult_integral_contrapositive_currified => //; lra.
destruct (Req_EM_T (p * / 10 ^ 6) 0) as [h|h] => //; eexists; first by [].
by rewrite /ev2fn /planck /lightspeed /electronvolt; field; lra.
Qed.
Lemma units_back e p : (p <> 0)%Re -> fn2ev (ev2fn e p) p = Ok e.
Proof.
move=> hp; rewrite /fn2ev; have h6 : (p * / 10 ^ 6 <> 0)%Re by apply: Rmult_integral_contrapositive_currified => //; lra.
destruct (Req_EM_T (p * / 10 ^ 6) 0) as [h|h] => //; congr Ok.
by rewrite /ev2fn /planck /lightspeed /electronvolt; field; lra.
Qed.

(** * Paths *)
Lemma size_segment s t r : size (segment s t r) = Z.to_nat r.
Proof. by rewrite size_map size_iota. Qed.
Lemma nth_segment s t r j d : j < Z.to_nat r -> nth d (segment s t r) j =
  ((s.1 + (t.1 - s.1) * INR j / IZR r)%Re, (s.2 + (t.2 - s.2) * INR j / IZR r)%Re).
Proof. by move=> hj; rewrite (nth_map 0%N) ?size_iota // nth_iota. Qed.

Definition lengths (rs : seq Z) : seq nat := [seq Z.to_nat r | r <- rs].

Lemma trajectoryE a ks rs l : size rs = (size ks - 1)%N -> trajectory a ks rs = Ok l ->
  size l = sumn (lengths rs) /\
  forall i, i < size rs -> exists s t, [/\ main_k_points a (nth ""%string ks i) = Ok s, main_k_points a (nth ""%string ks i.+1) = Ok t &
    forall j d, j < Z.to_nat (nth Z0 rs i) -> nth d l (offset (lengths rs) i + j) =
      ((s.1 + (t.1 - s.1) * INR j / IZR (nth Z0 rs i))%Re, (s.2 + (t.2 - s.2) * INR j / IZR (nth Z0 rs i))%Re)].
Proof.
elim: rs ks l => [|r rs ih] ks l; first by case: ks => [|? ?] /= _ [<-].
case: ks => [|k [|k' ks]] //= hs; case hk : (main_k_points a k) => [s|//]; cbn [bind]; case hk' : (main_k_points a k') => [t|//]; cbn [bind].
case hr : (trajectory _ _ _) => [rest|//]; cbn [bind] => -[<-].
have [|h1 h2] := ih (k' :: ks) rest _ hr; first by move: hs; rewrite subn1 /= subn1 /= => -[].
split; first by rewrite size_cat size_segment h1.
case=> [|i] hi; first exists s, t; last first.
  have [s' [t' [h3 h4 h5]]] := h2 i hi; exists s', t'; split=> // j d hj.
  by rewrite /offset /= -addnA nth_cat size_segment ltnNge leq_addr /= addKn h5.
by split=> // j d hj; rewrite /offset take0 /= add0n nth_cat size_segment hj nth_segment.
Qed.
Lemma trajectory_ok a ks rs : size rs = (size ks - 1)%N -> (0 < size rs) ->
  is_ok (trajectory a ks rs) <-> forall k, List.In k ks -> is_ok (main_k_points a k).
Proof.
elim: rs ks => [//|r rs ih] [|k [|k' ks]] //= hs _.
have e : size rs = (size (k' :: ks) - 1)%N by move: hs; rewrite subn1 /= subn1 /= => -[].
case: (posnP (size rs)) => [e0|p0].
  have kn : ks = [::] by move: e; rewrite e0 /= subn1 /=; case: (ks).
  move: e; rewrite kn; case: (rs) e0 => // _ _ /=; split.
    move=> [l]; case hk : (main_k_points a k) => [s|//]; cbn [bind]; case hk' : (main_k_points a k') => [t|//] _ x.
    by case=> [<-|[<-|[]]]; [exists s|exists t].
  by move=> h; have [s ->] := h k (or_introl erefl); have [t ->] := h k' (or_intror (or_introl erefl)); eexists.
have {ih} ih := ih (k' :: ks) e p0; split.
  move=> [l]; case hk : (main_k_points a k) => [s|//]; cbn [bind]; case hk' : (main_k_points a k') => [t|//]; cbn [bind].
  case hr : (trajectory _ _ _) => [rest|//] _ x [<-|hx]; first by exists s.
  by apply: (ih.1 (ex_intro _ rest hr)).
move=> h; have [s ->] := h k (or_introl erefl); have [t ->] := h k' (or_intror (or_introl erefl)); cbn [bind].
have [rest ->] : is_ok (trajectory a (k' :: ks) rs) by apply: (proj2 ih) => x hx; apply: h; right.
by eexists.
Qed.

(** * Bands *)
Lemma bandsP w x : List.In x (band_structure w) <->
  (exists2 z, List.In z w & fst z = x) /\ (1 - / 10 ^ 10 <= x < 1)%Re.
Proof.
have filterP (T : Type) (p : T -> bool) l (y : T) : List.In y (filter p l) <-> List.In y l /\ p y.
  by have := List.filter_In p y l.
rewrite /band_structure; split.
  move=> /filterP [/filterP [/filterP [h1 h2] h3] h4].
  move: h1 => /List.in_map_iff [z [e hz]]; split; first by exists z.
  move: h2; destruct (Rlt_dec 0 x) as [k1|k1] => // _; move: h3; destruct (Rlt_dec x 1) as [k2|k2] => // _.
  move: h4; rewrite /on_shell; destruct (Rle_dec (Rabs (Rabs x - 1)) (/ 10 ^ 10)) as [k3|k3] => // _.
  by move: k3; rewrite (Rabs_pos_eq x) ?Rabs_left1; lra.
move=> [[z hz e] [h1 h2]]; have x0 : (0 < x)%Re by lra.
apply/filterP; split; last first.
  rewrite /on_shell; destruct (Rle_dec (Rabs (Rabs x - 1)) (/ 10 ^ 10)) as [k3|k3] => //.
  by case: k3; rewrite (Rabs_pos_eq x) ?Rabs_left1; lra.
apply/filterP; split; last by destruct (Rlt_dec x 1) as [k2|k2].
apply/filterP; split; last by destruct (Rlt_dec 0 x) as [k2|k2].
by apply/List.in_map_iff; exists z.
Qed.
