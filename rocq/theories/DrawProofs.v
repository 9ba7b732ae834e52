(** Proofs about drawings. *)
From Coq Require Import Reals ZArith String Lra Lia.
From mathcomp Require Import all_ssreflect all_algebra.
From Coquelicot Require Import Complex.
From Verif Require Import Base CField CFun StringEq ModelExpansion ModelFourier ModelDraw SpecDraw.
Set Implicit Arguments. Unset Strict Implicit. Unset Printing Implicit Defensive.

Lemma RltbP x y : reflect (x < y)%Re (Rltb x y).
Proof. by rewrite /Rltb; destruct (Rlt_dec x y) as [h|h]; constructor. Qed.
Lemma RlebP x y : reflect (x <= y)%Re (Rleb x y).
Proof. by rewrite /Rleb; destruct (Rle_dec x y) as [h|h]; constructor. Qed.

Variant rleb_spec (x y : R) : bool -> Prop :=
| RlebT of (x <= y)%Re : rleb_spec x y true | RlebF of (y < x)%Re : rleb_spec x y false.
Lemma RlebQ x y : rleb_spec x y (Rleb x y).
Proof. by case: RlebP => h; constructor => //; apply: Rnot_le_lt. Qed.
Variant rltb_spec (x y : R) : bool -> Prop :=
| RltbT of (x < y)%Re : rltb_spec x y true | RltbF of (y <= x)%Re : rltb_spec x y false.
Lemma RltbQ x y : rltb_spec x y (Rltb x y).
Proof. by case: RltbP => h; constructor => //; apply: Rnot_lt_le. Qed.

(** * arctan2 *)
Lemma atan2P y x : let r := sqrt (x * x + y * y) in (r * cos (atan2 y x) = x)%Re /\ (r * sin (atan2 y x) = y)%Re.
Proof.
have key u v : (0 < u)%Re -> (sqrt (u * u + v * v) * cos (atan (v / u)) = u)%Re /\ (sqrt (u * u + v * v) * sin (atan (v / u)) = v)%Re.
  move=> hu; rewrite cos_atan sin_atan.
  have hp : (0 < 1 + Rsqr (v / u))%Re by have := Rle_0_sqr (v / u)%Re; lra.
  have hs : (0 < sqrt (1 + Rsqr (v / u)))%Re by apply: sqrt_lt_R0.
  have -> : (u * u + v * v = (u * u) * (1 + Rsqr (v / u)))%Re by rewrite /Rsqr; field; lra.
  rewrite sqrt_mult; [|nra|lra]; rewrite sqrt_square; last lra.
  by split; field; lra.
move=> r; rewrite /r /atan2; destruct (Rlt_dec 0 x) as [h|h]; first exact: key.
destruct (Rlt_dec x 0) as [h1|h1].
  have [k1 k2] : (sqrt (- x * - x + - y * - y) * cos (atan (- y / - x)) = - x)%Re /\ (sqrt (- x * - x + - y * - y) * sin (atan (- y / - x)) = - y)%Re.
    apply: key; lra.
  have e1 : (- y / - x = y / x)%Re by field; lra.
  have e2 : (- x * - x + - y * - y = x * x + y * y)%Re by ring.
  rewrite e1 e2 in k1 k2.
  destruct (Rlt_dec y 0) as [h2|h2].
    have -> : (atan (y / x) - PI = - (PI - atan (y / x)))%Re by ring.
    by rewrite cos_neg sin_antisym Rtrigo_facts.cos_pi_minus sin_PI_x; lra.
  by rewrite neg_cos neg_sin; lra.
cbn [is_left]; have -> : x = 0%Re by lra.
have es : (0 * 0 + y * y = y * y)%Re by ring.
destruct (Rlt_dec 0 y) as [h2|h2].
  by rewrite es sqrt_square ?cos_PI2 ?sin_PI2; lra.
destruct (Rlt_dec y 0) as [h3|h3].
  rewrite cos_neg sin_antisym cos_PI2 sin_PI2 (_ : 0 * 0 + y * y = - y * - y)%Re; last ring.
  by rewrite sqrt_square; lra.
cbn [is_left]; have -> : y = 0%Re by lra.
by rewrite (_ : 0 * 0 + 0 * 0 = 0)%Re ?sqrt_0; lra.
Qed.

Section Draw.
Variable V : eqType.
Implicit Types (d : drawing V) (o : op V).


Lemma draw1_frame d o d' : draw1 d o = Ok d' -> same_frame d d'.
Proof.
case: o => [x y r e|x y w h e|x y a b r e|x y b h t e]; cbn [draw1]; try by case=> <-; split.
by rewrite /draw_ellipse; destruct (Req_EM_T a 0) => //; destruct (Req_EM_T b 0) => // -[<-].
Qed.

Lemma draw1_ok d o : (exists d', draw1 d o = Ok d') <-> ~ flat o.
Proof.
case: o => [x y r e|x y w h e|x y a b r e|x y b h t e] /=; try by split=> [_ []|_]; eexists.
rewrite /draw_ellipse; destruct (Req_EM_T a 0) as [ha|ha]; first by (split=> [[] //|[]]; left).
destruct (Req_EM_T b 0) as [hb|hb]; first by (split=> [[] //|[]]; right).
by split=> [_ []|_] //; eexists.
Qed.

Lemma ellipse_mask a b r dx dy : (a <> 0)%Re -> (b <> 0)%Re ->
  let A := (cos r * cos r / (a * a) + sin r * sin r / (b * b))%Re in
  let B := (cos r * cos r / (b * b) + sin r * sin r / (a * a))%Re in
  let C := (2 * cos r * sin r * (1 / (a * a) - 1 / (b * b)))%Re in
  let theta := atan2 dy dx in
  let irsqr := (A * (cos theta * cos theta) + B * (sin theta * sin theta) + C * sin theta * cos theta)%Re in
  let u := (cos r * dx + sin r * dy)%Re in let v := (cos r * dy - sin r * dx)%Re in
  (dx * dx + dy * dy < 1 / irsqr <-> u / a * (u / a) + v / b * (v / b) < 1)%Re.
Proof.
move=> ha hb A B C theta irsqr u v.
have [] := atan2P dy dx; rewrite -/theta; set s := sqrt _ => hc hs.
have s0 : (0 <= s)%Re by apply: sqrt_pos.
have hs2 : (s * s = dx * dx + dy * dy)%Re by rewrite sqrt_sqrt; nra.
have cs2 : (cos theta * cos theta + sin theta * sin theta = 1)%Re by have := sin2_cos2 theta; rewrite /Rsqr; lra.
have crs2 : (cos r * cos r + sin r * sin r = 1)%Re by have := sin2_cos2 r; rewrite /Rsqr; lra.
set p := (cos r * cos theta + sin r * sin theta)%Re.
set q := (cos r * sin theta - sin r * cos theta)%Re.
have pq : (p * p + q * q = 1)%Re.
  have -> : (p * p + q * q = (cos r * cos r + sin r * sin r) * (cos theta * cos theta + sin theta * sin theta))%Re.
    by rewrite /p /q; ring.
  by rewrite crs2 cs2; ring.
have ei : (irsqr = p / a * (p / a) + q / b * (q / b))%Re by rewrite /irsqr /A /B /C /p /q; field; lra.
have eu : (u = s * p)%Re by rewrite /u /p -{1}hc -{1}hs; ring.
have ev : (v = s * q)%Re by rewrite /v /q -{1}hc -{1}hs; ring.
have ipos : (0 < irsqr)%Re.
  rewrite ei; have h1 : (0 <= p / a * (p / a))%Re by nra. have h2 : (0 <= q / b * (q / b))%Re by nra.
  case: (Req_dec p 0) => hp.
    have hq : (q <> 0)%Re by move=> e; rewrite hp e in pq; lra.
    have hqb : (q / b <> 0)%Re by apply: Rmult_integral_contrapositive_currified => //; apply: Rinv_neq_0_compat.
    nra.
  have hpa : (p / a <> 0)%Re by apply: Rmult_integral_contrapositive_currified => //; apply: Rinv_neq_0_compat.
  nra.
have -> : (u / a * (u / a) + v / b * (v / b) = (dx * dx + dy * dy) * irsqr)%Re.
  by rewrite eu ev ei -hs2; field.
split=> h.
  have := Rmult_lt_compat_r _ _ _ ipos h; rewrite (_ : 1 / irsqr * irsqr = 1)%Re //; field; lra.
apply: (Rmult_lt_reg_r irsqr) => //; rewrite (_ : 1 / irsqr * irsqr = 1)%Re //; field; lra.
Qed.

(** Parallelograms: the columns that are painted, when they are horizontal lines. *)
Lemma linspace_lt n i j : i < j -> j < n -> (linspace n i < linspace n j)%Re.
Proof.
move=> ij jn; rewrite /linspace; case: eqP => [e|ne]; first by move: ij jn; rewrite e; case: j.
have p : (0 < INR (n - 1))%Re.
  by apply: lt_0_INR; apply/ltP; rewrite subn_gt0; apply: leq_ltn_trans jn; apply: leq_ltn_trans ij.
have h : (INR i < INR j)%Re by apply: lt_INR; apply/ltP.
by apply: Rplus_lt_compat_l; apply: Rmult_lt_compat_r => //; apply: Rinv_0_lt_compat.
Qed.

Lemma columnsP d y h j : aligned (d_lattice d) -> 0 < (d_shape d).1 -> j < (d_shape d).2 ->
  (j \in painted_columns d y h (iota 0 (d_shape d).2)) <-> (y < dY d 0 j < y + h)%Re.
Proof.
move=> [e01 p11] n0 hj.
have dYE i k : dY d i k = dY d 0 k by rewrite /dY e01; ring.
have below k : all_below d y k = Rleb (dY d 0 k) y.
  rewrite /all_below; apply/allP/idP => [/(_ 0)|hk i _]; first by apply; rewrite mem_iota.
  by rewrite dYE.
have above k : all_above d y h k = Rleb h (dY d 0 k - y)%Re.
  rewrite /all_above; apply/allP/idP => [/(_ 0)|hk i _]; first by apply; rewrite mem_iota.
  by rewrite dYE.
have mono k l : k < l -> l < (d_shape d).2 -> (dY d 0 k < dY d 0 l)%Re.
  move=> kl ln; rewrite /dY e01; have := linspace_lt kl ln; nra.
have gen m n : m + n = (d_shape d).2 -> m <= j ->
    (j \in painted_columns d y h (iota m n)) <-> (y < dY d 0 j < y + h)%Re.
  elim: n m => [|n ih] m hmn mj; first by move: hj; rewrite -hmn addn0 ltnNge mj.
  have hm1 : m.+1 + n = (d_shape d).2 by rewrite addSnnS.
  have mlt : m < (d_shape d).2 by apply: leq_ltn_trans hj.
  cbn [iota painted_columns]; rewrite below above.
  case: RlebP => h1.
    move: mj; rewrite leq_eqVlt => /orP [/eqP e|mj]; last exact: ih.
    split=> [hin|]; last by rewrite -e; lra.
    exfalso; have sub l k : k \in painted_columns d y h l -> k \in l.
      elim: l => [//|x l ihl] /=; case: ifP => _; first by rewrite inE => /ihl ->; rewrite orbT.
      by case: ifP => // _; rewrite !inE => /orP [->//|/ihl ->]; rewrite orbT.
    by move/sub: hin; rewrite mem_iota e ltnn.
  case: RlebP => h2.
    split=> // -[h3 h4]; exfalso; move: mj; rewrite leq_eqVlt => /orP [/eqP e|mj]; first by rewrite -e in h4; lra.
    by have := mono _ _ mj hj; lra.
  rewrite inE; move: (mj); rewrite leq_eqVlt => /orP [/eqP <-|mj']; first by rewrite eqxx; split=> // _; lra.
  have -> : (j == m) = false by apply/negbTE; rewrite eq_sym neq_ltn mj'.
  exact: ih.
exact: gen.
Qed.

Lemma draw1_canvas d o d' i j : draw1 d o = Ok d' ->
  (is_parallelogram o -> aligned (d_lattice d)) -> i < (d_shape d).1 -> j < (d_shape d).2 ->
  (inside o (dX d i j) (dY d i j) -> d_canvas d' i j = color o) /\
  (~ inside o (dX d i j) (dY d i j) -> d_canvas d' i j = d_canvas d i j).
Proof.
move=> hd hal hi hj; case: o hd hal => [x y r e|x y w h e|x y a b r e|x y b h t e] /=.
- case=> <- _ /=.
  set q := ((dX d i j - x) * (dX d i j - x) + (dY d i j - y) * (dY d i j - y))%Re.
  have q0 : (0 <= q)%Re by apply: Rplus_le_le_0_compat; apply: Rle_0_sqr.
  move: q q0 => q q0.
  have eq_ : (sqrt q * sqrt q = q)%Re by apply: sqrt_sqrt.
  have s0 := sqrt_pos q.
  case: RltbP => h; split=> // h'; exfalso; last by apply: h; nra.
  by apply: h'; split; nra.
- case=> <- _ /=; do 4 (case: RlebQ => ? /=; last by split=> // h'; exfalso; lra).
  by split=> // h'; exfalso; apply: h'; lra.
- rewrite /draw_ellipse; destruct (Req_EM_T a 0) as [ha|ha] => //; destruct (Req_EM_T b 0) as [hb|hb] => //.
  case=> <- _; cbn [d_canvas paint color]; have := ellipse_mask r (dX d i j - x)%Re (dY d i j - y)%Re ha hb.
  by cbv zeta => hm; case: RltbP => h; split=> // h'; exfalso; [apply: h'; exact/hm|apply: h; exact/hm].
case=> <- /(_ isT) hal /=.
have n0 : 0 < (d_shape d).1 by apply: leq_ltn_trans hi.
have hc := columnsP (y - h / 2)%Re h hal n0 hj.
have dYE : dY d i j = dY d 0 j by rewrite /dY hal.1; ring.
rewrite dYE; case hin : (j \in _) hc => hc /=.
  have [/(_ isT) h1 _] := hc; case: RltbQ => ? /=; last by split=> // h'; exfalso; lra.
  case: RlebQ => ?; split=> // h'; exfalso; try lra; apply: h'; lra.
by split=> // -[h1 h2]; exfalso; have : false by apply/hc; lra.
Qed.

Lemma seen_rcons os o bg X Y v v' : seen os bg X Y v -> (inside o X Y -> v' = color o) -> (~ inside o X Y -> v' = v) ->
  inside o X Y \/ ~ inside o X Y -> seen (os ++ [:: o]) bg X Y v'.
Proof.
move=> hs h1 h2 [hin|hin].
  by left; exists os, o, [::]; split=> //; exact: h1.
rewrite (h2 hin); case: hs => [[os1 [o1 [os2 [-> hi -> hn]]]]|[-> hn]].
  left; exists os1, o1, (os2 ++ [:: o]); split=> //; first by rewrite -catA.
  by move=> o' /(List.in_app_or _ _ _) [/hn //|[<-|[]]].
by right; split=> // o' /(List.in_app_or _ _ _) [/hn //|[<-|[]]].
Qed.

Lemma draw_all_seen d os d' bg os0 i j : draw_all d os = Ok d' ->
  (has (@is_parallelogram V) os -> aligned (d_lattice d)) -> i < (d_shape d).1 -> j < (d_shape d).2 ->
  seen os0 bg (dX d i j) (dY d i j) (d_canvas d i j) ->
  seen (os0 ++ os) bg (dX d i j) (dY d i j) (d_canvas d' i j) /\ same_frame d d'.
Proof.
elim: os d os0 => [|o os ih] d os0 /=; first by case=> <- *; rewrite cats0; split.
case ho : (draw1 d o) => [d1|//]; cbn [bind] => h hp hi hj hs.
have [f1 f2 f3] := draw1_frame ho.
have h1 : is_parallelogram o -> aligned (d_lattice d) by move=> po; apply: hp; rewrite po.
have [c1 c2] := draw1_canvas ho h1 hi hj.
have s1 : seen (os0 ++ [:: o]) bg (dX d i j) (dY d i j) (d_canvas d1 i j).
  by apply: seen_rcons hs c1 c2 _; apply: Classical_Prop.classic.
have eX : dX d1 i j = dX d i j by rewrite /dX f1 f2.
have eY : dY d1 i j = dY d i j by rewrite /dY f1 f2.
have := ih d1 (os0 ++ [:: o]) h; rewrite f1 f2 eX eY -catA => /(_ _ hi hj s1) [|h2 [g1 g2 g3]].
  by move=> hh; apply: hp; rewrite hh orbT.
by split=> //; split; rewrite ?g1 ?g2 ?g3.
Qed.

Lemma draw_all_ok d os : (exists d', draw_all d os = Ok d') <-> forall o, List.In o os -> ~ flat o.
Proof.
elim: os d => [|o os ih] d /=; first by split=> // _; exists d.
split=> [[d']|h].
  case ho : (draw1 d o) => [d1|//]; cbn [bind] => h o' [<-|hin]; first by apply/(draw1_ok d); exists d1.
  by apply: ((ih d1).1 (ex_intro _ d' h)).
have [d1 ho] : exists d', draw1 d o = Ok d' by apply/draw1_ok; apply: h; left.
by rewrite ho; cbn [bind]; apply/ih => o' ho'; apply: h; right.
Qed.

Lemma draw_all_error d os e : draw_all d os = Err e -> e = ZeroDivisionError.
Proof.
elim: os d => [//|o os ih] d /=; case ho : (draw1 d o) => [d1|e']; cbn [bind]; first exact: ih.
move=> [<-]; case: o ho => //= x y a b r e0; rewrite /draw_ellipse.
by destruct (Req_EM_T a 0); [case|destruct (Req_EM_T b 0); [case|]].
Qed.
End Draw.
