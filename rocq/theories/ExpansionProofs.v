(** Lemmas about ModelExpansion. *)
From Coq Require Import Reals ZArith Lra Lia.
From mathcomp Require Import all_ssreflect all_algebra.
From Coquelicot Require Import Complex.
From Verif Require Import Base CField CFun NormalProofs ModelExpansion SpecExpansion.
Set Implicit Arguments. Unset Strict Implicit. Unset Printing Implicit Defensive.
Import GRing.Theory.
Local Open Scope ring_scope.

(** * Lattices *)

Lemma twopi_neq0 : twopi <> 0%Re.
Proof. rewrite /twopi; have := PI_RGT_0; lra. Qed.
Lemma reciproc_ok a1 a2 b1 b2 :
  reciproc a1 a2 = Ok (b1, b2) ->
  det2 a1 a2 <> 0%Re /\ [/\ dot2 a1 b1 = twopi, dot2 a1 b2 = 0%Re, dot2 a2 b1 = 0%Re & dot2 a2 b2 = twopi].
Proof.
rewrite /reciproc; case: Req_EM_T => // h [<- <-]; split => //.
by rewrite /dot2 /=; split; field.
Qed.
Lemma reciproc_err a1 a2 : reciproc a1 a2 = Err NonFinite <-> det2 a1 a2 = 0%Re.
Proof. by rewrite /reciproc /det2; case: Req_EM_T => h; split. Qed.
Lemma reciproc_def a1 a2 : det2 a1 a2 <> 0%Re -> is_ok (reciproc a1 a2).
Proof. by rewrite /reciproc /det2; case: Req_EM_T => // h _; eexists. Qed.
(** A vector is determined by its two scalar products with a basis. *)
Lemma dual_unique a1 a2 (b c : vec2) : det2 a1 a2 <> 0%Re ->
  dot2 a1 b = dot2 a1 c -> dot2 a2 b = dot2 a2 c -> b = c.
Proof.
case: a1 a2 b c => [x1 y1] [x2 y2] [b1 b2] [c1 c2]; rewrite /det2 /dot2 /= => h e1 e2.
have ex : ((b1 - c1) * (x1 * y2 - y1 * x2) = 0)%Re.
  transitivity (y2 * ((x1 * b1 + y1 * b2) - (x1 * c1 + y1 * c2))
                - y1 * ((x2 * b1 + y2 * b2) - (x2 * c1 + y2 * c2)))%Re; first ring.
  by rewrite e1 e2; ring.
have ey : ((b2 - c2) * (x1 * y2 - y1 * x2) = 0)%Re.
  transitivity (x1 * ((x2 * b1 + y2 * b2) - (x2 * c1 + y2 * c2))
                - x2 * ((x1 * b1 + y1 * b2) - (x1 * c1 + y1 * c2)))%Re; first ring.
  by rewrite e1 e2; ring.
case: (Rmult_integral _ _ ex) => // {}ex; case: (Rmult_integral _ _ ey) => // {}ey.
congr pair; lra.
Qed.
Lemma reciproc_area a1 a2 b1 b2 : reciproc a1 a2 = Ok (b1, b2) ->
  (unitcellarea b1 b2 * unitcellarea a1 a2 = twopi * twopi)%Re.
Proof.
rewrite /reciproc; case: Req_EM_T => // h [<- <-]; rewrite /unitcellarea /= -Rabs_mult.
rewrite Rabs_right; first by field.
suff -> : ((a2.2 * (twopi / (a1.1 * a2.2 - a1.2 * a2.1)) * (a1.1 * (twopi / (a1.1 * a2.2 - a1.2 * a2.1))) -
   - a2.1 * (twopi / (a1.1 * a2.2 - a1.2 * a2.1)) * (- a1.2 * (twopi / (a1.1 * a2.2 - a1.2 * a2.1)))) *
  (a1.1 * a2.2 - a1.2 * a2.1) = twopi * twopi)%Re by nra.
by field.
Qed.

(** * Index lists *)
Lemma size_arange M : size (arange_sym M) = M.*2.+1.
Proof. by rewrite size_map size_iota. Qed.
Lemma nth_arange d M i : (i < M.*2.+1)%N -> nth d (arange_sym M) i = Z.sub (Z.of_nat i) (Z.of_nat M).
Proof. by move=> h; rewrite (nth_map 0%N) ?size_iota // nth_iota. Qed.
Lemma size_flatten_const (T S : Type) (f : S -> seq T) p s :
  (forall x, size (f x) = p) -> size (flatten [seq f x | x <- s]) = (size s * p)%N.
Proof. by move=> h; elim: s => //= x s IH; rewrite size_cat h IH mulSn. Qed.
Lemma nth_flatten_const (T S : Type) (f : S -> seq T) p s d e i : (0 < p)%N ->
  (forall x, size (f x) = p) -> (i < size s * p)%N ->
  nth d (flatten [seq f x | x <- s]) i = nth d (f (nth e s (i %/ p))) (i %% p).
Proof.
move=> hp h; elim: s i => [|x s IH] i; first by rewrite mul0n.
rewrite /= nth_cat h => hi; case: ltnP => hip.
  by rewrite divn_small // modn_small.
rewrite IH; last by rewrite ltn_subLR // -mulSn.
have ed : (i %/ p = ((i - p) %/ p).+1)%N by rewrite -{1}(subnK hip) divnDr ?dvdnn // divnn hp addn1.
have em : (i %% p = (i - p) %% p)%N by rewrite -{1}(subnK hip) modnDr.
by rewrite ed em.
Qed.

Lemma odd_halves p : odd p -> p = ((p - 1) %/ 2).*2.+1.
Proof.
move=> h; rewrite -{1}(odd_double_half p) h add1n; congr (_.*2.+1).
by rewrite divn2 subn1 -{2}(odd_double_half p) h add1n /= doubleK.
Qed.
Section Indices.
Variables (pw : nat * nat) (l : seq (Z * Z)).
Hypothesis hl : generate_expansion_indices pw = Ok l.
Let M := ((pw.1 - 1) %/ 2)%N.
Let N := ((pw.2 - 1) %/ 2)%N.
Lemma indices_odd : odd pw.1 /\ odd pw.2.
Proof. by move: hl; rewrite /generate_expansion_indices; do 2 case: ifP => // /negbFE ->. Qed.
Lemma indices_pw : pw.1 = M.*2.+1 /\ pw.2 = N.*2.+1.
Proof. by case: indices_odd => /odd_halves ? /odd_halves ?. Qed.
Lemma indices_eq : l = flatten [seq [seq (m, n) | m <- arange_sym M] | n <- arange_sym N].
Proof.
by move: hl; rewrite /generate_expansion_indices; case: indices_odd => -> -> [].
Qed.
Lemma indices_size : size l = (pw.1 * pw.2)%N.
Proof.
rewrite indices_eq (@size_flatten_const _ _ _ M.*2.+1) => [|n]; last by rewrite size_map size_arange.
by rewrite size_arange; case: indices_pw => h1 h2; rewrite -h1 -h2 mulnC.
Qed.
Lemma indices_nth d i : (i < pw.1 * pw.2)%N ->
  nth d l i = (Z.sub (Z.of_nat (i %% pw.1)) (Z.of_nat M), Z.sub (Z.of_nat (i %/ pw.1)) (Z.of_nat N)).
Proof.
case: indices_pw => h1 h2 hi; rewrite indices_eq.
rewrite (@nth_flatten_const _ _ _ M.*2.+1 _ _ Z0) //.
- rewrite -h1 (nth_map Z0) ?size_arange -?h1 ?ltn_mod; last by rewrite h1.
  rewrite !nth_arange // -?h1 ?ltn_mod; last by rewrite h1.
  by rewrite -h2 ltn_divLR ?[(pw.2 * _)%N]mulnC // h1.
- by move=> n; rewrite size_map size_arange.
- by rewrite size_arange -h1 -h2 mulnC.
Qed.
Lemma indices_bound i : (i < size l)%N -> let mn := nth (Z0, Z0) l i in
  Z.le (Z.abs mn.1) (Z.of_nat M) /\ Z.le (Z.abs mn.2) (Z.of_nat N).
Proof.
rewrite indices_size => hi; rewrite indices_nth //=; case: indices_pw => h1 h2.
have a1 : (i %% pw.1 <= M.*2)%N by rewrite -ltnS -h1 ltn_mod h1.
have a2 : (i %/ pw.1 <= N.*2)%N by rewrite -ltnS -h2 ltn_divLR ?[(pw.2 * _)%N]mulnC // h1.
move: a1 a2; rewrite -!addnn => /leP a1 /leP a2; rewrite -!plusE in a1 a2; lia.
Qed.
Lemma indices_once m n : Z.le (Z.abs m) (Z.of_nat M) -> Z.le (Z.abs n) (Z.of_nat N) ->
  exists! i, (i < size l)%N /\ nth (Z0, Z0) l i = (m, n).
Proof.
case: indices_pw => h1 h2 hm hn; rewrite indices_size.
pose a := Z.to_nat (Z.add m (Z.of_nat M)); pose b := Z.to_nat (Z.add n (Z.of_nat N)).
have ha : (a < pw.1)%N by rewrite h1 ltnS -addnn; apply/leP; rewrite /a -plusE; lia.
have hb : (b < pw.2)%N by rewrite h2 ltnS -addnn; apply/leP; rewrite /b -plusE; lia.
have p0 : (0 < pw.1)%N by rewrite h1.
have hi : (b * pw.1 + a < pw.1 * pw.2)%N.
  apply: (@leq_trans (b.+1 * pw.1)); first by rewrite mulSn addnC ltn_add2r.
  by rewrite mulnC leq_mul2l hb orbT.
exists (b * pw.1 + a)%N; split.
  split=> //; rewrite indices_nth // modnMDl modn_small // divnMDl // divn_small // addn0.
  by congr pair; rewrite /a /b; lia.
move=> i [hi']; rewrite indices_nth // => -[e1 e2].
rewrite (divn_eq i pw.1); congr (_ * _ + _)%N; rewrite /a /b; lia.
Qed.
Lemma indices_centre : nth (Z0, Z0) l ((size l - 1) %/ 2) = (Z0, Z0).
Proof.
case: indices_pw => h1 h2; rewrite indices_size.
have p0 : (0 < pw.1)%N by rewrite h1.
have e : ((pw.1 * pw.2 - 1) %/ 2 = N * pw.1 + M)%N.
  have -> : (pw.1 * pw.2 - 1 = (N * pw.1 + M).*2)%N; last by rewrite divn2 doubleK.
  move: h1 h2; rewrite -!addnn; move: (M) (N) pw.1 pw.2 => a b p p'.
  by rewrite -!minusE -!multE -!plusE; nia.
rewrite e indices_nth.
  rewrite modnMDl modn_small ?divnMDl // ?divn_small ?addn0.
  - by congr pair; rewrite Z.sub_diag.
  - by rewrite h1 ltnS -addnn leq_addr.
  - by rewrite h1 ltnS -addnn leq_addr.
apply: (@leq_trans (N.+1 * pw.1)).
  by rewrite mulSn addnC ltn_add2r h1 ltnS -addnn leq_addr.
by rewrite mulnC leq_mul2l h2 ltnS -addnn leq_addr orbT.
Qed.
Lemma indices_opposite i : (i < size l)%N ->
  nth (Z0, Z0) l (size l - 1 - i) =
  let mn := nth (Z0, Z0) l i in (Z.opp mn.1, Z.opp mn.2).
Proof.
case: indices_pw => h1 h2; rewrite indices_size => hi /=.
have p0 : (0 < pw.1)%N by rewrite h1.
have q0 : (0 < pw.2)%N by rewrite h2.
have hr : (i %% pw.1 < pw.1)%N by rewrite ltn_mod.
have hq : (i %/ pw.1 < pw.2)%N by rewrite ltn_divLR // mulnC.
have e : (pw.1 * pw.2 - 1 - i = (pw.2 - 1 - i %/ pw.1) * pw.1 + (pw.1 - 1 - i %% pw.1))%N.
  rewrite {1}(divn_eq i pw.1); move: (i %/ pw.1)%N (i %% pw.1)%N hr hq => q r.
  move: pw.1 pw.2 => p p' /ltP ? /ltP ?; rewrite -!minusE -!multE -!plusE; nia.
have hr' : (pw.1 - 1 - i %% pw.1 < pw.1)%N by rewrite -subnDA ltn_subrL add1n.
rewrite e !indices_nth //; last by rewrite -e -subnDA ltn_subrL add1n muln_gt0 p0.
rewrite modnMDl modn_small // divnMDl // (divn_small hr') addn0 /=.
move: hr hq h1 h2; rewrite -!addnn => /ltP ? /ltP ?; rewrite -!minusE -!plusE => h1 h2.
by congr pair; lia.
Qed.
End Indices.
Lemma indices_err pw e : generate_expansion_indices pw = Err e ->
  e = AssertionError /\ ~~ (odd pw.1 && odd pw.2).
Proof.
rewrite /generate_expansion_indices; case: (odd pw.1) => /=; last by case=> <-.
by case: (odd pw.2) => //= -[<-].
Qed.
Lemma indices_def pw : odd pw.1 -> odd pw.2 -> is_ok (generate_expansion_indices pw).
Proof. by move=> h1 h2; rewrite /generate_expansion_indices h1 h2; eexists. Qed.

(** * Expansions *)
Notation v0 := (0%Re, 0%Re).

Record wf (e : expansion) : Prop :=
  { wf_odd1 : odd (e_pw e).1; wf_odd2 : odd (e_pw e).2;
    wf_size : size (e_g e) = e_size e;
    wf_centre : gth e ((e_size e - 1) %/ 2) = v0;
    wf_sym : forall i, (i < e_size e)%N -> gth e (e_size e - 1 - i) = opp2 (gth e i) }.

Lemma size_gvecs b idx : size (gvecs b idx) = size idx. Proof. by rewrite size_map. Qed.
Lemma nth_gvecs b idx i : (i < size idx)%N ->
  nth v0 (gvecs b idx) i = let mn := nth (Z0, Z0) idx i in
   ((IZR mn.1 * b.1.1 + IZR mn.2 * b.2.1)%Re, (IZR mn.1 * b.1.2 + IZR mn.2 * b.2.2)%Re).
Proof. by move=> h; rewrite (nth_map (Z0, Z0)). Qed.

Lemma mk_expansion_ok pw lat e : mk_expansion pw lat = Ok e ->
  exists b idx, [/\ reciproc lat.1 lat.2 = Ok b, generate_expansion_indices pw = Ok idx &
    e = Expansion_ pw b (gvecs b idx) (unitcellarea lat.1 lat.2) None].
Proof.
rewrite /mk_expansion; case hb : (reciproc _ _) => [b|//] /=.
by case hi : (generate_expansion_indices _) => [idx|//] /= [<-]; exists b, idx.
Qed.
Lemma mk_wf pw lat e : mk_expansion pw lat = Ok e -> wf e.
Proof.
move=> /mk_expansion_ok [b [idx [hb hi ->]]]; have [o1 o2] := indices_odd hi.
have hs := indices_size hi.
have p0 : (0 < pw.1 * pw.2)%N by rewrite muln_gt0 !odd_gt0.
split=> //=; rewrite /e_size /gth /=.
- by rewrite size_gvecs.
- rewrite nth_gvecs; last first.
    by rewrite hs; apply: leq_ltn_trans (leq_div _ _) _; rewrite ltn_subrL p0.
  by rewrite -hs (indices_centre hi) /=; congr pair; ring.
- move=> i h; have h1 : (i < size idx)%N by rewrite hs.
  have h2 : (pw.1 * pw.2 - 1 - i < size idx)%N by rewrite hs -subnDA ltn_subrL p0.
  rewrite (nth_gvecs _ h1) (nth_gvecs _ h2) -hs (indices_opposite hi) //= !opp_IZR /opp2 /=.
  by congr pair; ring.
Qed.
Lemma rotate2_0 t : rotate2 t v0 = v0.
Proof. by rewrite /rotate2 /=; congr pair; ring. Qed.
Lemma gth_rotate t e i : gth (rotate t e) i = rotate2 t (gth e i).
Proof.
rewrite /gth /=; case: (ltnP i (size (e_g e))) => h; first by rewrite (nth_map v0).
by rewrite !nth_default ?size_map ?rotate2_0.
Qed.
Lemma rotate_wf t e : wf e -> wf (rotate t e).
Proof.
case=> h1 h2 h3 h4 h5; split; rewrite ?[e_size _]/(e_size e) //.
- by rewrite /= size_map.
- by rewrite gth_rotate h4 rotate2_0.
- by move=> i hi; rewrite !gth_rotate h5 // /rotate2 /opp2 /=; congr pair; ring.
Qed.

Section Add.
Variables (e1 e2 e : expansion).
Hypothesis (ha : add_expansion e1 e2 = Ok e).
Lemma add_sizes : size (e_g e1) = size (e_g e2).
Proof. by move: ha; rewrite /add_expansion; case: mk_expansion => //= u; case: eqP. Qed.
Lemma add_e : e_pw e = ((e_pw e1).1 ^ 2, (e_pw e1).2 ^ 2)%N /\
  e_g e = flatten [seq [seq add2 g1 g2 | g1 <- e_g e2] | g2 <- e_g e1] /\
  e_lhs_rhs e = Some (e_g e1, e_g e2).
Proof. by move: ha; rewrite /add_expansion; case: mk_expansion => //= u; case: eqP => // _ [<-]. Qed.
Let n := size (e_g e1).
Lemma add_size : size (e_g e) = (n * n)%N.
Proof.
case: add_e => _ [-> _]; rewrite (@size_flatten_const _ _ _ n) //.
by move=> g; rewrite size_map -add_sizes.
Qed.
Lemma add_gth i j : (i < n)%N -> (j < n)%N ->
  gth e (i * n + j) = add2 (gth e2 j) (gth e1 i).
Proof.
move=> hi hj; have n0 : (0 < n)%N by apply: leq_ltn_trans hi.
rewrite /gth; case: add_e => _ [-> _].
rewrite (@nth_flatten_const _ _ _ n _ _ v0) //.
- by rewrite divnMDl // divn_small // addn0 modnMDl modn_small // (nth_map v0) // -add_sizes.
- by move=> g; rewrite size_map -add_sizes.
- apply: (@leq_trans (i.+1 * n)); first by rewrite mulSn addnC ltn_add2r.
  by rewrite leq_mul2r hi orbT.
Qed.
Lemma add_gth' k : (k < n * n)%N -> gth e k = add2 (gth e2 (k %% n)) (gth e1 (k %/ n)).
Proof.
move=> hk; have n0 : (0 < n)%N by case: (n) hk.
by rewrite {1}(divn_eq k n) add_gth ?ltn_mod // ltn_divLR.
Qed.
Lemma add_wf : wf e1 -> wf e2 -> wf e.
Proof.
case=> o1 o2 s1 c1 y1 [o1' o2' s2 c2 y2]; case: add_e => hpw _.
have es : e_size e = (n * n)%N by rewrite /e_size hpw /= -expnMn -/(e_size e1) -s1 mulnn.
have en : n = e_size e1 := s1.
have en2 : n = e_size e2 by rewrite /n add_sizes.
have on : odd n by rewrite en /e_size oddM o1 o2.
have n0 : (0 < n)%N by case: (n) on.
have en' := odd_halves on; set h := ((n - 1) %/ 2)%N in en'.
have hn : (h < n)%N by rewrite en' ltnS -addnn leq_addr.
split.
- by rewrite hpw /= oddX o1 orbT.
- by rewrite hpw /= oddX o2 orbT.
- by rewrite es add_size.
- have -> : ((e_size e - 1) %/ 2 = h * n + h)%N.
    have -> : (e_size e - 1 = (h * n + h).*2)%N; last by rewrite divn2 doubleK.
    rewrite es; move: en'; rewrite -!addnn; move: (h) (n) => a b.
    by rewrite -!minusE -!multE -!plusE; nia.
  rewrite add_gth // {1}/h {1}en2 c2 /h en c1 /add2 /=; congr pair; ring.
- move=> k; rewrite es => hk.
  have hq : (k %/ n < n)%N by rewrite ltn_divLR.
  have hr : (k %% n < n)%N by rewrite ltn_mod.
  have -> : (n * n - 1 - k = (n - 1 - k %/ n) * n + (n - 1 - k %% n))%N.
    rewrite {1}(divn_eq k n); move: (k %/ n)%N (k %% n)%N hr hq => q r.
    by move: (n) => p /ltP ? /ltP ?; rewrite -!minusE -!multE -!plusE; nia.
  have hr' : (n - 1 - k %% n < n)%N by rewrite -subnDA ltn_subrL add1n n0.
  have hq' : (n - 1 - k %/ n < n)%N by rewrite -subnDA ltn_subrL add1n n0.
  rewrite add_gth // (add_gth' hk).
  move: (y2 (k %% n)%N) (y1 (k %/ n)%N); rewrite -en2 -en => -> // -> //.
  by rewrite /add2 /opp2 /=; congr pair; ring.
Qed.
End Add.
Lemma built_wf e : built e -> wf e.
Proof.
elim=> [pw lat {}e|t {}e _ |e1 e2 {}e _ h1 _ h2 ha]; [exact: mk_wf | exact: rotate_wf | exact: (add_wf ha)].
Qed.
Lemma reciproc_unit : is_ok (reciproc unit_lattice.1 unit_lattice.2).
Proof. by apply: reciproc_def; rewrite /det2 /=; lra. Qed.
Lemma add_outcome e1 e2 : wf e1 ->
  (size (e_g e1) = size (e_g e2) /\ is_ok (add_expansion e1 e2)) \/
  (size (e_g e1) <> size (e_g e2) /\ add_expansion e1 e2 = Err ValueError).
Proof.
case=> o1 o2 _ _ _; rewrite /add_expansion /mk_expansion.
have [b ->] := reciproc_unit.
have [idx ->] : is_ok (generate_expansion_indices ((e_pw e1).1 ^ 2, (e_pw e1).2 ^ 2)%N).
  by apply: indices_def; rewrite /= oddX ?o1 ?o2 orbT.
by rewrite /=; case: eqP => h /=; [left | right]; split=> //; eexists.
Qed.

(** Rotation *)
Lemma rotate2_len t g : len2 (rotate2 t g) = len2 g.
Proof.
rewrite /len2 /rotate2 /=; have := sin2_cos2 t; rewrite /Rsqr => h.
transitivity ((sin t * sin t + cos t * cos t) * (g.1 * g.1 + g.2 * g.2))%Re; first ring.
by rewrite h; ring.
Qed.
Lemma rotate2_add s t g : rotate2 s (rotate2 t g) = rotate2 (s + t)%Re g.
Proof. by rewrite /rotate2 /= cos_plus sin_plus; congr pair; ring. Qed.
Lemma rotate2_id g : rotate2 0%Re g = g.
Proof. by case: g => x y; rewrite /rotate2 /= cos_0 sin_0; congr pair; ring. Qed.
Lemma rotate_add s t e : rotate s (rotate t e) = rotate (s + t)%Re e.
Proof. by rewrite /rotate /= -map_comp; congr Expansion_; apply: eq_map => g /=; exact: rotate2_add. Qed.
Lemma rotate_id e : rotate 0%Re e = e.
Proof.
by case: e => *; rewrite /rotate /=; congr Expansion_; rewrite -[RHS]map_id; apply: eq_map; exact: rotate2_id.
Qed.
Lemma rotate_back t e : rotate (- t)%Re (rotate t e) = e.
Proof. by rewrite rotate_add Rplus_opp_l rotate_id. Qed.

(** * k vectors *)
Lemma csqrt_im_sign (z : C) : ((0 <= snd z)%Re -> (0 <= snd (csqrt z))%Re).
Proof. by move=> h; rewrite /csqrt /=; case: Rlt_dec => h' /=; [lra | exact: sqrt_pos]. Qed.
Lemma csqrt_pos (x : R) : (0 <= x)%Re -> csqrt (RtoC x) = RtoC (sqrt x).
Proof.
move=> h; apply: C_ext; rewrite /csqrt Cmod_R Rabs_right /=; try lra.
  by congr sqrt; field.
case: Rlt_dec => h' /=; first lra.
by rewrite (_ : ((x - x) / 2 = 0)%Re); [exact: sqrt_0 | field].
Qed.
Lemma csqrt_negr (x : R) : (x <= 0)%Re -> csqrt (RtoC x) = (0%Re, sqrt (- x)).
Proof.
move=> h; apply: C_ext; rewrite /csqrt Cmod_R Rabs_left1 //=.
  by rewrite (_ : ((- x + x) / 2 = 0)%Re); [exact: sqrt_0 | field].
case: Rlt_dec => h' /=; first lra.
by congr sqrt; field.
Qed.
Lemma real_sqr (z : C) : snd z = 0%Re -> z ^+ 2 = RtoC (fst z * fst z)%Re.
Proof. by case: z => x y /= ->; rewrite expr2; apply: C_ext => /=; ring. Qed.
Lemma csqr_conj (z : C) : Cconj (csqrt z) ^+ 2 = Cconj z.
Proof. by rewrite expr2 -conjCM csqrt_sqr. Qed.

Section KVec.
Variables (kx ky eps : C) (k0 : R).
Hypotheses (hx : snd kx = 0%Re) (hy : snd ky = 0%Re).
Notation kz := (kz_from_kplanar kx ky k0 eps).
Lemma kz_sqr : kz ^+ 2 = RtoC k0 ^+ 2 * eps - kx ^+ 2 - ky ^+ 2.
Proof.
rewrite /kz_from_kplanar csqr_conj (real_sqr hx) (real_sqr hy) (@real_sqr (RtoC k0)) //=.
by case: eps => a b; apply: C_ext => /=; ring.
Qed.
Lemma kz_dispersion : (k0 <> 0)%Re ->
  (kx / RtoC k0) ^+ 2 + (ky / RtoC k0) ^+ 2 + (kz / RtoC k0) ^+ 2 = eps.
Proof.
move=> h; have k0' : RtoC k0 != 0 by apply/eqP => /(congr1 fst) /=.
have k2 : RtoC k0 ^+ 2 != 0 by rewrite expf_neq0.
rewrite !expr_div_n kz_sqr -!mulrDl.
have -> : kx ^+ 2 + ky ^+ 2 + (RtoC k0 ^+ 2 * eps - kx ^+ 2 - ky ^+ 2) = RtoC k0 ^+ 2 * eps by cring.
by rewrite mulrAC divff // mul1r.
Qed.
Lemma kz_re : (0 <= fst kz)%Re.
Proof. exact: csqrt_re_ge0. Qed.
Lemma kz_im : (snd eps <= 0)%Re -> (snd kz <= 0)%Re.
Proof.
move=> h; rewrite /kz_from_kplanar.
have := @csqrt_im_sign (RtoC k0 ^+ 2 * Cconj eps - kx ^+ 2 - ky ^+ 2).
set s := csqrt _ => hs; suff : (0 <= snd s)%Re by rewrite /=; lra.
apply: hs; rewrite (real_sqr hx) (real_sqr hy) (@real_sqr (RtoC k0)) //=.
have := Rle_0_sqr k0; rewrite /Rsqr; nra.
Qed.
Lemma kz_real (e : R) : eps = RtoC e ->
  ((fst kx * fst kx + fst ky * fst ky < k0 * k0 * e)%Re -> snd kz = 0%Re /\ (0 < fst kz)%Re) /\
  ((k0 * k0 * e < fst kx * fst kx + fst ky * fst ky)%Re -> fst kz = 0%Re /\ (snd kz < 0)%Re).
Proof.
move=> he; rewrite /kz_from_kplanar he.
have -> : RtoC k0 ^+ 2 * Cconj (RtoC e) - kx ^+ 2 - ky ^+ 2
        = RtoC (k0 * k0 * e - fst kx * fst kx - fst ky * fst ky)%Re.
  by rewrite (real_sqr hx) (real_sqr hy) (@real_sqr (RtoC k0)) //; apply: C_ext => /=; ring.
split=> h.
  rewrite csqrt_pos /=; last lra.
  split; first ring; apply: sqrt_lt_R0; lra.
rewrite csqrt_negr /=; last lra.
split=> //; suff : (0 < sqrt (- (k0 * k0 * e - fst kx * fst kx - fst ky * fst ky)))%Re by lra.
apply: sqrt_lt_R0; lra.
Qed.
End KVec.

Lemma divC_real (z : C) (x : R) : (x <> 0)%Re ->
  fst (z / RtoC x) = (fst z / x)%Re /\ snd (z / RtoC x) = (snd z / x)%Re.
Proof. by move=> h; rewrite invCE /=; split; field. Qed.

Lemma k_vectors_ok e kp wl eps kx ky kz :
  k_vectors e kp wl eps = Ok (kx, ky, kz) -> size (e_g e) = e_size e ->
  let k0 := (2 * PI / wl)%Re in
  (wl <> 0)%Re /\ forall j : 'I_(e_size e), let g := gth e j in
  [/\ kx 0 j = (kp.1 + RtoC g.1) / RtoC k0, ky 0 j = (kp.2 + RtoC g.2) / RtoC k0 &
      kz 0 j = kz_from_kplanar (kp.1 + RtoC g.1) (kp.2 + RtoC g.2) k0 eps / RtoC k0].
Proof.
rewrite /k_vectors /krows eqxx; case: Req_EM_T => // h; case: ifP => // _ [<- <- <-] hs /=.
by split=> // j; rewrite !mxE hs eqxx.
Qed.
Lemma k_vectors_def e kp wl eps : (wl <> 0)%Re -> size (e_g e) = e_size e ->
  is_ok (k_vectors e kp wl eps).
Proof.
move=> h hs; rewrite /k_vectors /krows eqxx; destruct (Req_EM_T wl 0) as [e0|e0]; first by case: h.
by rewrite {1}hs eqxx /=; eexists.
Qed.

Lemma k0_neq0 (wl : R) : (wl <> 0)%Re -> (2 * PI / wl <> 0)%Re.
Proof.
move=> h; have p := PI_RGT_0 => e; have : (2 * PI / wl * wl = 0)%Re by rewrite e; ring.
by rewrite /Rdiv Rmult_assoc Rinv_l //; lra.
Qed.
Lemma k0_pos (wl : R) : (0 < wl)%Re -> (0 < 2 * PI / wl)%Re.
Proof. by move=> h; have p := PI_RGT_0; apply: Rdiv_lt_0_compat; lra. Qed.

Section KTheorem.
Variables (e : expansion) (kp : C * C) (wl : R) (eps : C) (kx ky kz : 'rV[C]_(e_size e)).
Hypotheses (hw : wf e) (hk : k_vectors e kp wl eps = Ok (kx, ky, kz)).
Hypotheses (hx : snd kp.1 = 0%Re) (hy : snd kp.2 = 0%Re).
Notation k0 := (2 * PI / wl)%Re.
Lemma kvec_inplane j : RtoC k0 * kx 0 j = kp.1 + RtoC (gth e j).1 /\
                       RtoC k0 * ky 0 j = kp.2 + RtoC (gth e j).2.
Proof.
case: (k_vectors_ok hk (wf_size hw)) => h /(_ j) [-> -> _].
have k0' : RtoC k0 != 0 by apply/eqP => /(congr1 fst) /=; exact: k0_neq0.
by split; rewrite mulrC divfK.
Qed.
Lemma kvec_dispersion j : kx 0 j ^+ 2 + ky 0 j ^+ 2 + kz 0 j ^+ 2 = eps.
Proof.
case: (k_vectors_ok hk (wf_size hw)) => h /(_ j) [-> -> ->].
by apply: kz_dispersion => /=; [rewrite hx Rplus_0_l | rewrite hy Rplus_0_l | exact: k0_neq0].
Qed.
Hypothesis (hl : (0 < wl)%Re).
Lemma kvec_branch j : (0 <= fst (kz 0%R j))%Re /\ ((snd eps <= 0)%Re -> (snd (kz 0%R j) <= 0)%Re).
Proof.
case: (k_vectors_ok hk (wf_size hw)) => h /(_ j) [_ _ ->].
have p := k0_pos hl; have p' := Rinv_0_lt_compat _ p.
have [-> ->] := divC_real (kz_from_kplanar (kp.1 + RtoC (gth e j).1) (kp.2 + RtoC (gth e j).2) k0 eps)
  (k0_neq0 h).
split.
  apply: Rmult_le_pos; [exact: kz_re | lra].
move=> he; have := @kz_im (kp.1 + RtoC (gth e j).1) (kp.2 + RtoC (gth e j).2) eps k0.
rewrite /= hx hy !Rplus_0_l => /(_ erefl erefl he) hh.
rewrite /Rdiv; nra.
Qed.
Lemma kvec_real j (r : R) : eps = RtoC r ->
  ((fst (kx 0%R j) * fst (kx 0%R j) + fst (ky 0%R j) * fst (ky 0%R j) < r)%Re ->
     snd (kz 0 j) = 0%Re /\ (0 < fst (kz 0%R j))%Re) /\
  ((r < fst (kx 0%R j) * fst (kx 0%R j) + fst (ky 0%R j) * fst (ky 0%R j))%Re ->
     fst (kz 0 j) = 0%Re /\ (snd (kz 0%R j) < 0)%Re).
Proof.
case: (k_vectors_ok hk (wf_size hw)) => h /(_ j) [-> -> ->] he.
have p := k0_pos hl; have p' := Rinv_0_lt_compat _ p; have n0 := k0_neq0 h.
set X := kp.1 + _; set Y := kp.2 + _.
have sx : snd X = 0%Re by rewrite /= hx; ring.
have sy : snd Y = 0%Re by rewrite /= hy; ring.
have [a b] := kz_real k0 sx sy he; move: (kz_from_kplanar X Y k0 eps) a b => K a b.
move: p p' n0 a b; move: (k0) => q p p' n0 a b.
have [-> ->] := divC_real K n0; have [-> _] := divC_real X n0; have [-> _] := divC_real Y n0.
have e1 : ((fst X / q) * (fst X / q) + (fst Y / q) * (fst Y / q)
          = (fst X * fst X + fst Y * fst Y) / (q * q))%Re by field.
have pp : (0 < q * q)%Re by nra.
rewrite e1; split=> hh.
  have : (fst X * fst X + fst Y * fst Y < q * q * r)%Re.
    have := Rmult_lt_compat_r _ _ _ pp hh; rewrite /Rdiv Rmult_assoc Rinv_l; last lra.
    lra.
  case/a => -> ?; split; first by field.
  exact: Rdiv_lt_0_compat.
have : (q * q * r < fst X * fst X + fst Y * fst Y)%Re.
  have := Rmult_lt_compat_r _ _ _ pp hh; rewrite /Rdiv Rmult_assoc Rinv_l; last lra.
  lra.
case/b => -> ?; split; first by field.
rewrite /Rdiv; nra.
Qed.
End KTheorem.

(** * In-plane wavevector of the source *)
Section Kplanar.
Variables (eps wl th ph : R) (kp : C * C).
Hypotheses (he : (0 <= eps)%Re) (hl : (0 < wl)%Re).
Hypothesis (hk : compute_kplanar (RtoC eps) wl th ph = Ok kp).
Notation k0 := (2 * PI / wl)%Re.
Lemma kplanar_eq :
  kp = (RtoC (sqrt eps * k0 * sin (deg2rad th) * cos (deg2rad ph))%Re,
        RtoC (sqrt eps * k0 * sin (deg2rad th) * sin (deg2rad ph))%Re).
Proof.
have h : (wl <> 0)%Re by lra.
move: hk; rewrite /compute_kplanar; case: Req_EM_T => // _ [<-].
rewrite csqrt_pos // mulr2n -[1]/(RtoC 1%Re) addCE -RtoC_plus.
have e x : RtoC x * RtoC (sqrt eps) * RtoC (1 + 1)%Re * RtoC PI / RtoC wl * RtoC (sin (deg2rad th))
      = RtoC (x * sqrt eps * (1 + 1) * PI / wl * sin (deg2rad th))%Re.
  by rewrite invCE !mulCE -RtoC_inv // -!RtoC_mult.
by rewrite !e; congr (RtoC _, RtoC _); field.
Qed.
Lemma kplanar_modulus :
  (fst kp.1 * fst kp.1 + fst kp.2 * fst kp.2)%Re
  = (eps * (k0 * sin (deg2rad th)) * (k0 * sin (deg2rad th)))%Re.
Proof.
rewrite kplanar_eq /=; have e := sqrt_sqrt _ he; have := sin2_cos2 (deg2rad ph); rewrite /Rsqr.
move: (sqrt eps) e (sin (deg2rad th)) (cos (deg2rad ph)) (sin (deg2rad ph)) => r e s c d h.
transitivity (r * r * (k0 * s) * (k0 * s) * (d * d + c * c))%Re; first by field; lra.
by rewrite h e; field; lra.
Qed.
Lemma source_kzi_eq :
  source_kzi k0 (RtoC eps) kp = RtoC (sqrt eps * k0 * Rabs (cos (deg2rad th)))%Re.
Proof.
rewrite /source_kzi.
have -> : RtoC k0 ^+ 2 * RtoC eps - kp.1 ^+ 2 - kp.2 ^+ 2
  = RtoC ((sqrt eps * k0 * cos (deg2rad th)) * (sqrt eps * k0 * cos (deg2rad th)))%Re.
  have m := kplanar_modulus.
  have r1 : snd kp.1 = 0%Re by rewrite kplanar_eq.
  have r2 : snd kp.2 = 0%Re by rewrite kplanar_eq.
  rewrite (real_sqr r1) (real_sqr r2) (@real_sqr (RtoC k0)) //.
  apply: C_ext; last by rewrite /=; field; lra.
  transitivity (k0 * k0 * eps - (fst kp.1 * fst kp.1 + fst kp.2 * fst kp.2))%Re.
    by rewrite /=; field; lra.
  rewrite m [RHS]/=.
  have := sqrt_sqrt _ he; have := sin2_cos2 (deg2rad th); rewrite /Rsqr => h1 h2.
  transitivity (eps * k0 * k0 * (1 - sin (deg2rad th) * sin (deg2rad th)))%Re; first by field; lra.
  rewrite -h1; transitivity (sqrt eps * sqrt eps * k0 * k0 * (cos (deg2rad th) * cos (deg2rad th)))%Re.
    by rewrite h2; field; lra.
  by field; lra.
rewrite csqrt_pos; last first.
  exact: Rle_0_sqr.
rewrite -[X in sqrt X]/(Rsqr _) sqrt_Rsqr_abs Rabs_mult.
rewrite (Rabs_right (sqrt eps * k0)%Re).
  by apply: C_ext => //=; ring.
by have := sqrt_pos eps; have := k0_pos hl; nra.
Qed.
End Kplanar.

(** * Summaries *)
Lemma reciproc_unique a1 a2 b1 b2 c1 c2 :
  reciproc a1 a2 = Ok (b1, b2) ->
  [/\ dot2 a1 c1 = twopi, dot2 a1 c2 = 0%Re, dot2 a2 c1 = 0%Re & dot2 a2 c2 = twopi] ->
  c1 = b1 /\ c2 = b2.
Proof.
move=> /reciproc_ok [h [e1 e2 e3 e4]] [f1 f2 f3 f4].
by split; apply: (dual_unique h); rewrite ?e1 ?e2 ?e3 ?e4.
Qed.
Lemma built_centred e : built e ->
  [/\ size (e_g e) = ((e_pw e).1 * (e_pw e).2)%N,
      gth e ((size (e_g e) - 1) %/ 2) = v0 &
      forall i, (i < size (e_g e))%N -> gth e (size (e_g e) - 1 - i) = opp2 (gth e i)].
Proof. by move=> /built_wf [_ _ -> ? ?]. Qed.
Lemma add_minkowski e1 e2 e : built e1 -> built e2 -> add_expansion e1 e2 = Ok e ->
  let n := size (e_g e1) in
  [/\ size (e_g e2) = n, size (e_g e) = (n * n)%N, ((e_pw e).1 * (e_pw e).2)%N = (n * n)%N,
      gth e ((size (e_g e) - 1) %/ 2) = v0 &
      (forall i j, (i < n)%N -> (j < n)%N -> gth e (i * n + j) = add2 (gth e2 j) (gth e1 i)) /\
      (forall k, (k < n * n)%N -> gth e k = add2 (gth e2 (k %% n)) (gth e1 (k %/ n)))].
Proof.
move=> b1 b2 ha n; have [s c _] := built_centred (built_add b1 b2 ha).
split=> //; [by rewrite -(add_sizes ha) | exact: (add_size ha) | by rewrite -s (add_size ha) |].
by split; [exact: (add_gth ha) | exact: (add_gth' ha)].
Qed.
Lemma rotate_facts e s t :
  [/\ forall i, len2 (gth (rotate t e) i) = len2 (gth e i),
      forall i, gth e i = v0 -> gth (rotate t e) i = v0,
      rotate s (rotate t e) = rotate (s + t)%Re e, rotate 0%Re e = e &
      rotate (- t)%Re (rotate t e) = e].
Proof.
split=> [i|i h| | |]; rewrite ?gth_rotate ?rotate2_len ?h ?rotate2_0 ?rotate_add ?rotate_id //.
by rewrite Rplus_opp_l rotate_id.
Qed.
Lemma kvec_summary e kp wl eps kx ky kz :
  built e -> k_vectors e kp wl eps = Ok (kx, ky, kz) ->
  snd kp.1 = 0%Re -> snd kp.2 = 0%Re ->
  forall j : 'I_(e_size e),
  [/\ RtoC (2 * PI / wl)%Re * kx 0 j = kp.1 + RtoC (gth e j).1,
      RtoC (2 * PI / wl)%Re * ky 0 j = kp.2 + RtoC (gth e j).2 &
      kx 0 j ^+ 2 + ky 0 j ^+ 2 + kz 0 j ^+ 2 = eps].
Proof.
move=> /built_wf hw hk hx hy j; have [h1 h2] := kvec_inplane hw hk j.
by split=> //; exact: (kvec_dispersion hw hk).
Qed.
Lemma kplanar_summary eps wl th ph kp :
  (0 <= eps)%Re -> (0 < wl)%Re ->
  compute_kplanar (RtoC eps) wl th ph = Ok kp ->
  let k0 := (2 * PI / wl)%Re in let q := (sqrt eps * k0 * sin (deg2rad th))%Re in
  [/\ kp = (RtoC (q * cos (deg2rad ph))%Re, RtoC (q * sin (deg2rad ph))%Re),
      (fst kp.1 * fst kp.1 + fst kp.2 * fst kp.2 = q * q)%Re,
      source_kzi k0 (RtoC eps) kp = RtoC (sqrt eps * k0 * Rabs (cos (deg2rad th)))%Re &
      kp.1 ^+ 2 + kp.2 ^+ 2 + source_kzi k0 (RtoC eps) kp ^+ 2 = RtoC (eps * (k0 * k0))%Re].
Proof.
move=> he hl hk k0 q; have h1 := kplanar_eq he hl hk; have h2 := kplanar_modulus he hl hk.
have h3 := source_kzi_eq he hl hk; split=> //.
  rewrite h2 /q; transitivity (sqrt eps * sqrt eps * (k0 * sin (deg2rad th)) * (k0 * sin (deg2rad th)))%Re.
    by rewrite sqrt_sqrt.
  by ring.
rewrite /source_kzi csqr_conj.
have r1 : snd kp.1 = 0%Re by rewrite h1.
have r2 : snd kp.2 = 0%Re by rewrite h1.
rewrite (real_sqr r1) (real_sqr r2) (@real_sqr (RtoC k0)) //.
by apply: C_ext => /=; ring.
Qed.
Lemma kvec_complex_refuted : exists (eps : C) (wl th ph : R) (e : expansion) (kp : C * C) kx ky kz,
  [/\ (snd eps < 0)%Re, built e, compute_kplanar eps wl th ph = Ok kp,
      k_vectors e kp wl 1 = Ok (kx, ky, kz) &
      exists j, kx 0 j ^+ 2 + ky 0 j ^+ 2 + kz 0 j ^+ 2 <> 1].
Proof.
have hPI : (PI <> 0)%Re by exact: PI_neq0.
have pw : (2 * PI <> 0)%Re by lra.
have [e he] : is_ok (mk_expansion (1, 1)%N unit_lattice).
  by rewrite /mk_expansion; have [b ->] := reciproc_unit; eexists.
have be := built_init he; have wfe := built_wf be.
have hs : csqrt (0, -2)%Re = (1, -1)%Re.
  rewrite -[RHS](@csqrt_unique (1, -1)%Re) /=; last lra.
  by congr csqrt; apply: C_ext => /=; ring.
pose kp : C * C := ((1, -1)%Re, RtoC 0).
have hkp : compute_kplanar (0, -2)%Re (2 * PI)%Re 90%Re 0%Re = Ok kp.
  rewrite /compute_kplanar; destruct (Req_EM_T (2 * PI) 0) as [e0|e0]; first by []. rewrite hs /kp.
  have d1 : deg2rad 0%Re = 0%Re by rewrite /deg2rad; field.
  have d2 : deg2rad 90%Re = (PI / 2)%Re by rewrite /deg2rad; field.
  rewrite d1 d2 cos_0 sin_0 sin_PI2 mulr2n; congr (Ok (pair _ _)).
    by toC; apply: C_ext => /=; field.
  by toC; apply: C_ext => /=; field.
have [[[kx ky] kz] hk] := k_vectors_def kp 1 pw (wf_size wfe).
exists (0, -2)%Re, (2 * PI)%Re, 90%Re, 0%Re, e, kp, kx, ky, kz; split=> //=; first lra.
have es : (0 < e_size e)%N.
  by have [b [idx [_ _ ->]]] := mk_expansion_ok he.
have eg : gth e 0 = v0.
  have [_ <- _] := built_centred be; congr gth.
  by rewrite (wf_size wfe); have [b [idx [_ _ ->]]] := mk_expansion_ok he.
exists (Ordinal es); have [_ /(_ (Ordinal es)) [-> -> ->]] := k_vectors_ok hk (wf_size wfe).
have k1 : (2 * PI / (2 * PI) = 1)%Re by field.
rewrite k1 !divr1 /= eg /kz_from_kplanar csqr_conj /kp /= => /(congr1 snd).
rewrite !expr2 /=; lra.
Qed.
