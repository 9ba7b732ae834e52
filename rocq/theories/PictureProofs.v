(** Proofs about pictures converted to islands. *)
From Coq Require Import Reals ZArith String Lra Lia.
From mathcomp Require Import all_ssreflect all_algebra.
From Coquelicot Require Import Complex.
From Verif Require Import Base CField CFun StringEq ModelExpansion ModelFourier ModelDraw SpecDraw DrawProofs.
Set Implicit Arguments. Unset Strict Implicit. Unset Printing Implicit Defensive.

Section Picture.
Variables (V : eqType) (le : rel V).
Implicit Types (d : drawing V).

(** * The scan *)
Section Scan.
Variables (X : seq V) (v0 bg : V) (materials : seq V).
Hypothesis mem : forall i, i < size X -> nth v0 X i \in materials.
Hypothesis membg : bg \in materials.
Notation mat := (material_at X v0 materials).
Notation bgm := (index bg materials).

Lemma mat_eq i v : i < size X -> v \in materials -> (mat i == index v materials) = (nth v0 X i == v).
Proof.
move=> hi hv; apply/eqP/eqP => [h|<- //].
by rewrite -(nth_index v0 (mem hi)) -(nth_index v0 hv) -/(mat i) h.
Qed.
Lemma mat_eq2 i j : i < size X -> j < size X -> (mat i == mat j) = (nth v0 X i == nth v0 X j).
Proof. by move=> hi hj; rewrite mat_eq // mem. Qed.
Lemma nth_mat i : i < size X -> nth v0 materials (mat i) = nth v0 X i.
Proof. by move=> hi; rewrite nth_index // mem. Qed.

(** After the pixels before [n]: the last run starts at [sc_start]. *)
Definition scanned (n : nat) (s : scan V) : Prop :=
  [/\ sc_current s = mat n.-1, sc_previous s = mat n.-1, sc_start s < n,
      forall i, sc_start s <= i < n -> nth v0 X i = nth v0 X n.-1 &
      runs X bg v0 (sc_start s) (sc_found s)].

Lemma runs_add n m e found : runs X bg v0 n found -> n < m -> e <> bg -> (forall i, n <= i < m -> nth v0 X i = e) ->
  runs X bg v0 m (rcons found (n, m, e)).
Proof.
move=> [h1 h2 h3] nm he hX; split.
- move=> a b e'; rewrite mem_rcons inE => /orP [/eqP [-> -> ->] //|/h1 [q1 q2 q3 q4]].
  by split=> //; apply: leq_trans q2 (ltnW nm).
- rewrite -cats1 pairwise_cat /= andbT h2 andbT allrel1r; apply/allP => -[[a b] e'] hin /=.
  by case: (h1 _ _ _ hin).
move=> i him hi; case: (ltnP i n) => hin.
  have [a [b [q1 q2]]] := h3 i hin hi; exists a, b; split=> //.
  by rewrite mem_rcons inE q1 orbT.
by exists n, m; split; [rewrite mem_rcons inE (hX i) ?hin ?him ?eqxx|rewrite hin him].
Qed.
Lemma runs_skip n m found : runs X bg v0 n found -> n <= m -> (forall i, n <= i < m -> nth v0 X i = bg) ->
  runs X bg v0 m found.
Proof.
move=> [h1 h2 h3] nm hX; split=> //.
  by move=> a b e /h1 [q1 q2 q3 q4]; split=> //; apply: leq_trans q2 nm.
by move=> i him hi; case: (ltnP i n) => hin; [exact: h3|case: hi; apply: hX; rewrite hin].
Qed.

Lemma scan_step_ok n s : 0 < n -> n < size X -> scanned n s -> scanned n.+1 (scan_step X v0 materials bgm s n).
Proof.
move=> n0 hn [h1 h2 h3 h4 h5]; rewrite /scan_step h2.
have hn1 : n.-1 < size X by apply: leq_ltn_trans hn; exact: leq_pred.
rewrite mat_eq2 //; case: eqP => /= [e|ne].
  split=> //=; [|by apply: ltnW|].
    by apply/eqP; rewrite mat_eq2 // e.
  move=> i /andP [hs]; rewrite ltnS leq_eqVlt => /orP [/eqP -> //|hi].
  by rewrite e; apply: h4; rewrite hs hi.
rewrite mat_eq //; case: eqP => /= [e|nb]; split=> //=.
- by move=> i /andP [hi]; rewrite ltnS => hi'; have /eqP -> : i == n by rewrite eqn_leq hi' hi.
- by apply: (runs_skip h5 (ltnW h3)) => i hi; rewrite (h4 i hi).
- by move=> i /andP [hi]; rewrite ltnS => hi'; have /eqP -> : i == n by rewrite eqn_leq hi' hi.
by rewrite nth_mat //; apply: runs_add.
Qed.

Lemma scan_ok : 0 < size X -> runs X bg v0 (size X) (scan_all X v0 materials bgm).
Proof.
move=> n0; rewrite /scan_all.
have gen m n s : 0 < m -> m + n = size X -> scanned m s -> scanned (size X) (foldl (scan_step X v0 materials bgm) s (iota m n)).
  elim: n m s => [|n ih] m s m0 hmn hs /=; first by rewrite -hmn addn0.
  apply: ih => //; first by rewrite addSnnS.
  by apply: scan_step_ok => //; rewrite -hmn -addSnnS leq_addr.
have s1 : scanned 1 (Scan (mat 0) (mat 0) 0 [::]).
  by split=> //= i; rewrite ltnS leqn0 => /eqP ->.
have [] := gen 1 (size X - 1) _ isT (subnKC n0) s1; set s := foldl _ _ _ => h1 h2 h3 h4 h5.
have hl : (size X).-1 < size X by rewrite ltn_predL.
rewrite h1 mat_eq //; case: eqP => /= [e|ne].
  by apply: (runs_skip h5 (ltnW h3)) => i hi; rewrite (h4 i hi).
by rewrite nth_mat //; apply: runs_add.
Qed.
End Scan.

(** * The rectangles *)
Lemma interval_inside L a b i : 1 < L -> a < b -> b <= L -> i < L ->
  let lo := ((INR a - INR L / 2) / INR L)%Re in let hi := ((INR b - INR L / 2) / INR L)%Re in
  (lo <= - (1 / 2) + INR i / INR (L - 1) <= hi)%Re <-> a <= i < b.
Proof.
move=> L1 ab bL iL lo hi.
have eL : INR L = (INR (L - 1) + 1)%Re by rewrite -S_INR -subSn ?subn1 //; apply: ltnW.
have hm : (1 <= INR (L - 1))%Re by rewrite (_ : 1%Re = INR 1) //; apply: le_INR; apply/leP; rewrite subn_gt0.
have hbL : (INR b <= INR L)%Re by apply: le_INR; apply/leP.
have hiL : (INR i + 1 <= INR L)%Re by rewrite -S_INR; apply: le_INR; apply/leP.
have ha0 := pos_INR a; have hi0 := pos_INR i.
move: eL hm hbL hiL; set M := INR (L - 1); set Lr := INR L => eL hm hbL hiL.
have e1 : (lo = INR a / Lr - 1 / 2)%Re by rewrite /lo -/Lr; field; lra.
have e2 : (hi = INR b / Lr - 1 / 2)%Re by rewrite /hi -/Lr; field; lra.
have q1 : (INR a / Lr * Lr = INR a)%Re by field; lra.
have q2 : (INR b / Lr * Lr = INR b)%Re by field; lra.
have q3 : (INR i / M * M = INR i)%Re by field; lra.
rewrite e1 e2; move: q1 q2 q3; set A := (INR a / Lr)%Re; set B := (INR b / Lr)%Re; set Q := (INR i / M)%Re => q1 q2 q3.
have hab : (INR a + 1 <= INR b)%Re by rewrite -S_INR; apply: le_INR; apply/leP.
have P : (0 < Lr * M)%Re by apply: Rmult_lt_0_compat; lra.
have u1 : (INR a * M = A * (Lr * M))%Re by rewrite -q1; ring.
have u2 : (INR b * M = B * (Lr * M))%Re by rewrite -q2; ring.
have u3 : (INR i * Lr = Q * (Lr * M))%Re by rewrite -q3; ring.
have t1 : (A <= Q <-> INR a * M <= INR i * Lr)%Re.
  rewrite u1 u3; split=> h; [apply: Rmult_le_compat_r => //; lra|exact: (Rmult_le_reg_r (Lr * M)%Re)].
have t2 : (Q <= B <-> INR i * Lr <= INR b * M)%Re.
  rewrite u2 u3; split=> h; [apply: Rmult_le_compat_r => //; lra|exact: (Rmult_le_reg_r (Lr * M)%Re)].
move: t1 t2 {u1 u2 u3 q1 q2 q3 e1 e2}; move: A B Q => A B Q t1 t2.
split.
  move=> [h1 h2]; have /t1 h3 : (A <= Q)%Re by lra. have /t2 h4 : (Q <= B)%Re by lra.
  apply/andP; split; rewrite leqNgt; apply/negP => /ltP /le_INR; rewrite ?S_INR => h; nra.
move=> /andP [/leP /le_INR h1 /leP /le_INR]; rewrite S_INR => h2.
have h3 : (A <= Q)%Re by apply/t1; nra. have h4 : (Q <= B)%Re by apply/t2; nra.
lra.
Qed.

Lemma linspace_range n j : j < n -> (- (1 / 2) <= linspace n j <= 1 / 2)%Re.
Proof.
move=> hj; rewrite /linspace; case: eqP => [_|ne]; first lra.
have n1 : 1 < n by case: n hj ne => [|[|n]].
have p : (0 < INR (n - 1))%Re by apply: lt_0_INR; apply/ltP; rewrite subn_gt0.
have h : (INR j <= INR (n - 1))%Re by apply: le_INR; apply/leP; rewrite subn1 -ltnS prednK // (leq_ltn_trans _ n1).
have h0 := pos_INR j.
have e : (INR j / INR (n - 1) * INR (n - 1) = INR j)%Re by field; lra.
split; nra.
Qed.

Lemma interval_mask L d a b e i j : 1 < L -> a < b -> b <= L -> (d_shape d).1 = L -> d_lattice d = square ->
  i < L -> j < (d_shape d).2 ->
  d_canvas (draw_interval L d (a, b, e)) i j = (if a <= i < b then e else d_canvas d i j).
Proof.
move=> L1 ab bL hL hsq hi hj; have := interval_inside L1 ab bL hi; cbv zeta => hm.
have eX : dX d i j = (- (1 / 2) + INR i / INR (L - 1))%Re.
  by rewrite /dX hsq hL /= /linspace (gtn_eqF L1); ring.
have eY : dY d i j = linspace (d_shape d).2 j by rewrite /dY hsq /=; ring.
have [y1 y2] := linspace_range hj.
rewrite /draw_interval /draw_rectangle /= eX eY.
move: hm; set lo := ((INR a - _) / _)%Re; set hi' := ((INR b - _) / _)%Re => hm.
rewrite (_ : (hi' + lo) / 2 - (hi' - lo) / 2 = lo)%Re; last by field.
rewrite (_ : lo + (hi' - lo) = hi')%Re; last by ring.
case: RlebQ => h1 /=; last first.
  case: ifP => // /hm; lra.
case: RlebQ => h2 /=; last first.
  case: ifP => // /hm; lra.
case: RlebQ => h3 /=; last lra.
case: RlebQ => h4 /=; last lra.
by have -> : a <= i < b by apply/hm; lra.
Qed.

Lemma interval_items L d a b e : 0 < L -> d_items (draw_interval L d (a, b, e)) =
  d_items d ++ [:: Item "rectangle" [:: (INR a / INR L)%Re; 0%Re; (INR b / INR L)%Re; 1%Re] e].
Proof.
move=> L0; have p : (0 < INR L)%Re by apply: lt_0_INR; apply/ltP.
rewrite /draw_interval /draw_rectangle /=; congr (_ ++ [:: Item _ _ _]).
by congr [:: _; _; _; _]; field; lra.
Qed.

Lemma intervals_fold X (v0 bg : V) d found L : 1 < L -> (d_shape d).1 = L -> d_lattice d = square ->
  (forall a b e, (a, b, e) \in found -> [/\ a < b, b <= L, e <> bg & forall i, a <= i < b -> nth v0 X i = e]) ->
  let d' := foldl (draw_interval L) d found in
  [/\ same_frame d d',
      d_items d' = d_items d ++ [seq Item "rectangle" [:: (INR f.1.1 / INR L)%Re; 0%Re; (INR f.1.2 / INR L)%Re; 1%Re] f.2 | f <- found] &
      forall i j, i < L -> j < (d_shape d).2 ->
        d_canvas d' i j = (if has (fun f : nat * nat * V => f.1.1 <= i < f.1.2) found then nth v0 X i else d_canvas d i j)].
Proof.
move=> L1; elim: found d => [|[[a b] e] found ih] d hL hsq hf /=; first by split=> //; rewrite cats0.
have [q1 q2 q3 q4] := hf a b e (mem_head _ _).
have hf' a' b' e' : (a', b', e') \in found -> [/\ a' < b', b' <= L, e' <> bg & forall i, a' <= i < b' -> nth v0 X i = e'].
  by move=> h; apply: hf; rewrite inE h orbT.
have [[f1 f2 f3] it cv] := ih (draw_interval L d (a, b, e)) hL hsq hf'.
split.
- by split; rewrite ?f1 ?f2 ?f3.
- by rewrite it interval_items ?(ltnW L1) // -catA.
move=> i j hi hj; rewrite cv // interval_mask //.
by case: hasP => hh; [rewrite orbT|rewrite orbF; case: ifP => // h; rewrite (q4 i h)].
Qed.

Theorem picture_drawn d L M (bg v1 : V) shape X : mk_drawing (L, M) bg None = Ok d ->
  ~~ ((1 < size shape) && (1 < nth 0 shape 0) && (1 < nth 0 shape 1)) ->
  size X = L -> bg \in X -> v1 \in X -> v1 != bg ->
  exists d' found, [/\ from_numpy le d shape X = Ok d', runs X bg bg L found,
    islands d' = [seq Item "rectangle" [:: (INR f.1.1 / INR L)%Re; 0%Re; (INR f.1.2 / INR L)%Re; 1%Re] f.2 | f <- found],
    same_frame d d' & forall i j, i < L -> j < M -> d_canvas d' i j = nth bg X i].
Proof.
rewrite /mk_drawing /=; case: ifP => // /negbT; rewrite negb_or => /andP [L0 M0] [<-] hsh hX hbg hv1 hne.
have L1 : 1 < L.
  case: L hX L0 => [|[|L]] // hX _; case: X hX hbg hv1 => [|x [|y X]] // _.
  by rewrite !inE => /eqP eb /eqP ev; rewrite ev eb eqxx in hne.
rewrite /from_numpy (negbTE hsh).
case: X hX hbg hv1 => [//|x X'] hX hbg hv1; set X := x :: X' in hX hbg hv1 *.
set materials := sort le (undup X).
have mem v : (v \in materials) = (v \in X) by rewrite mem_sort mem_undup.
have hm1 : size materials == 1 = false.
  apply/negP => /eqP h1; have : exists z, materials = [:: z] by case: (materials) h1 => [|z [|]] // _; exists z.
  move=> [z hz]; have : bg \in materials by rewrite mem.
  have : v1 \in materials by rewrite mem.
  by rewrite hz !inE => /eqP ev /eqP eb; rewrite ev eb eqxx in hne.
rewrite hm1 [d_background _]/= mem hbg /=.
set found := scan_all X x materials (index bg materials).
have hmem i : i < size X -> nth x X i \in materials by move=> hi; rewrite mem mem_nth.
have hbm : bg \in materials by rewrite mem.
have hr : runs X bg x L found by rewrite -hX; apply: scan_ok.
have hr' : runs X bg bg L found.
  case: hr => h1 h2 h3; split=> //.
    move=> a b e /h1 [q1 q2 q3 q4]; split=> // i hi; rewrite -(q4 i hi); apply: set_nth_default.
    by rewrite hX; case/andP: hi => _ hi; apply: leq_trans hi q2.
  move=> i hi; rewrite (set_nth_default x) ?hX //; exact: h3.
have [f1 f2 f3] := hr'.
have [[g1 g2 g3] it cv] := @intervals_fold X bg bg (Drawing (L, M) square bg (fun _ _ => bg) [::]) found L L1 erefl erefl f1.
have nf : found <> [::].
  move=> e; have hi : index v1 X < L by rewrite -hX index_mem.
  have := f3 _ hi; rewrite nth_index // e => /(_ _) [|a [b [//]]].
  by apply/eqP.
case ef : found nf => [//|f fs] _; rewrite -ef.
exists (foldl (draw_interval L) (Drawing (L, M) square bg (fun _ _ => bg) [::]) found), found.
split; [by rewrite -hX|exact: hr'|by rewrite /islands it|by split|].
move=> i j hi hj; rewrite cv //; case: hasP => [//|nh].
case: (nth bg X i =P bg) => [-> //|ne]; exfalso; apply: nh.
by have [a [b [q1 q2]]] := f3 i hi ne; exists (a, b, nth bg X i).
Qed.

(** The islands tile the unit cell as the picture does. *)
Lemma in_run L a b i t : 0 < L -> a < b -> b <= L -> in_pixel L i t ->
  (INR a / INR L <= t <= INR b / INR L)%Re <-> a <= i < b.
Proof.
move=> L0 ab bL [h1 h2]; have p : (0 < INR L)%Re by apply: lt_0_INR; apply/ltP.
have q1 : (INR a / INR L * INR L = INR a)%Re by field; lra.
have q2 : (INR b / INR L * INR L = INR b)%Re by field; lra.
move: q1 q2; set A := (INR a / INR L)%Re; set B := (INR b / INR L)%Re => q1 q2.
split.
  move=> [h3 h4]; apply/andP; split.
    have : (INR a < INR i.+1)%Re by rewrite S_INR; nra.
    by move/INR_lt/ltP; rewrite ltnS.
  by have : (INR i < INR b)%Re; [nra|move/INR_lt/ltP].
move=> /andP [/leP /le_INR h3 /leP /le_INR]; rewrite S_INR => h4; split; nra.
Qed.

Lemma tiled X (bg : V) L found i t y : size X = L -> runs X bg bg L found -> i < L -> in_pixel L i t -> (0 <= y <= 1)%Re ->
  let its := [seq Item "rectangle" [:: (INR f.1.1 / INR L)%Re; 0%Re; (INR f.1.2 / INR L)%Re; 1%Re] f.2 | f <- found] in
  (nth bg X i = bg -> forall it, List.In it its -> ~ in_bounds it t y) /\
  (nth bg X i <> bg -> (exists2 it, List.In it its & in_bounds it t y) /\
     forall it, List.In it its -> in_bounds it t y -> it_eps it = nth bg X i).
Proof.
move=> hX [h1 h2 h3] hi ht hy its.
have L0 : 0 < L by apply: leq_ltn_trans hi.
have key it : List.In it its -> in_bounds it t y -> it_eps it = nth bg X i /\ it_eps it <> bg.
  move=> /List.in_map_iff [[[a b] e] [<- hin]] [x0 [y0 [x1 [y1 [[<- <- <- <-] [hb _]]]]]] /=.
  have hin' : (a, b, e) \in found.
    by elim: (found) hin => [//|f fs ih] /= [->|/ih h]; rewrite inE ?eqxx // h orbT.
  have [q1 q2 q3 q4] := h1 _ _ _ hin'.
  by split=> //; rewrite q4 //; apply/(in_run L0 q1 q2 ht).
split=> [e it hin hb|ne].
  by have [k1 k2] := key it hin hb; rewrite k1 e in k2.
split=> [|it hin hb]; last by have [] := key it hin hb.
have [a [b [q1 q2]]] := h3 i hi ne; have [r1 r2 r3 r4] := h1 _ _ _ q1.
exists (Item "rectangle" [:: (INR a / INR L)%Re; 0%Re; (INR b / INR L)%Re; 1%Re] (nth bg X i)).
  apply/List.in_map_iff; exists (a, b, nth bg X i); split=> //.
  by elim: (found) q1 => [//|f fs ih]; rewrite inE => /orP [/eqP ->|/ih]; [left|right].
by do 4 eexists; split; first by []; split; [apply/(in_run L0 r1 r2 ht)|].
Qed.
End Picture.
