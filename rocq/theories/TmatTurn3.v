(** Lemmas for C112-C114: the tables of turned lattices (T-matrix API). *)
From Coq Require Import Reals ZArith Lra Lia String.
From mathcomp Require Import all_ssreflect all_fingroup all_algebra.
From Coquelicot Require Import Complex.
From Verif Require Import Base CField CFun ModelRedheffer SpecScatter ModelExpansion SpecExpansion ModelFourier SpecFourier FourierProofs Blk ModelDevice ModelTmat SpecTmat TmatProofs ModelLattice SpecLattice LatticeProofs LookupProofs
  SpecExp ExpProofs ModelEz TableProofs SpecScale SpecSym TurnProofs SpecBloch PolConj SpecTurn TmatTurn TmatTurn2.
Set Implicit Arguments. Unset Strict Implicit. Unset Printing Implicit Defensive.
Import GRing.Theory.
Local Open Scope ring_scope.

(** Places in tables. *)
Definition place (t : naming) (q : nat * nat) (i j : nat) : nat * nat :=
  let x := reversed (rev1 t) q.1 i in let y := reversed (rev2 t) q.2 j in if swapped t then (y, x) else (x, y).
Definition zsigned (r : bool) (m : Z) : Z := if r then Z.opp m else m.
Lemma reversed_lt r p i : (i < p)%N -> (reversed r p i < p)%N.
Proof. by rewrite /reversed; case: r => // h; nlia. Qed.
Lemma reversed_K r p i : (i < p)%N -> reversed r p (reversed r p i) = i.
Proof. by rewrite /reversed; case: r => // h; nlia. Qed.
Lemma reversed_z (r : bool) p i : (r -> odd p) -> (i < p)%N -> Z.sub (Z.of_nat (reversed r p i)) (Z.of_nat (p %/ 2)) = zsigned r (Z.sub (Z.of_nat i) (Z.of_nat (p %/ 2))).
Proof.
rewrite /reversed /zsigned; case: r => // /(_ isT) o hi; have := divn_eq p 2; rewrite modn2 o -[nat_of_bool true]/1%N; move: (p %/ 2)%N => h e; nlia.
Qed.
Lemma reversed_q (r : bool) p i : (r -> odd p) -> (i < qof p)%N ->
  Z.sub (Z.of_nat (reversed r (qof p) i)) (Z.of_nat (2 * (p %/ 2))) = zsigned r (Z.sub (Z.of_nat i) (Z.of_nat (2 * (p %/ 2)))).
Proof.
rewrite /reversed /zsigned /qof; case: r => // /(_ isT) o; rewrite o -[nat_of_bool true]/1%N; move: (p %/ 2)%N => h hi; nlia.
Qed.
Lemma dif_reversed (r : bool) p i j : (r -> odd p) -> (i < p)%N -> (j < p)%N -> dif p (reversed r p i) (reversed r p j) = reversed r (qof p) (dif p i j).
Proof.
rewrite /reversed /qof /dif; case: r => // /(_ isT) o hi hj; rewrite o; have := divn_eq p 2; rewrite modn2 o -[nat_of_bool true]/1%N; move: (p %/ 2)%N => h e; nlia.
Qed.
Section Place.
Variables (t : naming) (p : nat * nat).
Hypothesis ht : nameable t p.
Lemma odd1 : rev1 t -> odd p.1. Proof. by move=> h; have [/(_ _)] := ht; rewrite h => /(_ isT) /andP []. Qed.
Lemma odd2 : rev2 t -> odd p.2. Proof. by move=> h; have [/(_ _)] := ht; rewrite h orbT => /(_ isT) /andP []. Qed.
Lemma place_coords g : (g < p.1 * p.2)%N -> (new_place t p g %% p.1, new_place t p g %/ p.1)%N = place t p (g %% p.1) (g %/ p.1) /\ (new_place t p g < p.1 * p.2)%N.
Proof.
move=> hg; have [h1 h2 h0] := coords_lt hg; have l1 := reversed_lt (rev1 t) h1; have l2 := reversed_lt (rev2 t) h2.
have main x y : (x < p.1)%N -> (y < p.2)%N -> ((x + p.1 * y) %% p.1, (x + p.1 * y) %/ p.1)%N = (x, y) /\ (x + p.1 * y < p.1 * p.2)%N.
  move=> hx hy; rewrite addnC mulnC modnMDl divnMDl // (modn_small hx) (divn_small hx) addn0; split=> //.
  apply: leq_trans (_ : (y.+1 * p.1 <= _)%N); last by rewrite mulnC leq_mul2l hy orbT.
  by rewrite mulSn addnC ltn_add2r.
rewrite /new_place /place; case hs : (swapped t); last exact: main.
have e := ht.2 hs; apply: main; [exact: leq_trans l2 (eq_leq (esym e))|exact: leq_trans l1 (eq_leq e)].
Qed.
Lemma place_inj i j i' j' : (i < p.1)%N -> (j < p.2)%N -> (i' < p.1)%N -> (j' < p.2)%N -> place t p i j = place t p i' j' -> i = i' /\ j = j'.
Proof.
move=> h1 h2 h3 h4; rewrite /place => e.
have [e1 e2] : reversed (rev1 t) p.1 i = reversed (rev1 t) p.1 i' /\ reversed (rev2 t) p.2 j = reversed (rev2 t) p.2 j'.
  by move: e; case: (swapped t) => -[].
by split; [rewrite -(reversed_K (rev1 t) h1) e1 reversed_K|rewrite -(reversed_K (rev2 t) h2) e2 reversed_K].
Qed.
Lemma new_place_inj g h : (g < p.1 * p.2)%N -> (h < p.1 * p.2)%N -> new_place t p g = new_place t p h -> g = h.
Proof.
move=> hg hh e; have [e1 _] := place_coords hg; have [e2 _] := place_coords hh.
have [g1 g2 _] := coords_lt hg; have [h1 h2 _] := coords_lt hh.
rewrite e e2 in e1; have [d1 d2] := place_inj h1 h2 g1 g2 e1.
by rewrite (divn_eq g p.1) (divn_eq h p.1) d1 d2.
Qed.
Lemma place_vector (b : vec2 * vec2) m1 m2 : order_vector (renamed t b) (if swapped t then zsigned (rev2 t) m2 else zsigned (rev1 t) m1)
   (if swapped t then zsigned (rev1 t) m1 else zsigned (rev2 t) m2) = order_vector b m1 m2.
Proof.
rewrite /order_vector /renamed /signed /zsigned; case: t => -[] [] [] /=; rewrite ?opp_IZR; congr (_, _); ring.
Qed.
End Place.
Lemma reciproc_renamed t a1 a2 b : reciproc a1 a2 = Ok b -> reciproc (renamed t (a1, a2)).1 (renamed t (a1, a2)).2 = Ok (renamed t b).
Proof.
rewrite /reciproc; case: Req_EM_T => // h hb; rewrite -(Ok_inj hb) => {hb}; case: Req_EM_T => h'.
  by exfalso; apply: h; move: h'; rewrite /renamed /signed; case: t => -[] [] [] /= h; nra.
congr Ok; rewrite /renamed /signed; case: t h' => -[] [] [] /= h'; congr (_, _); congr (_, _); field; repeat split; move=> h2; apply: h; nra.
Qed.
Lemma area_renamed t a1 a2 : unitcellarea (renamed t (a1, a2)).1 (renamed t (a1, a2)).2 = unitcellarea a1 a2.
Proof.
rewrite /unitcellarea /renamed /signed; case: t => -[] [] [] /=; first [by congr Rabs; ring|rewrite -[RHS]Rabs_Ropp; congr Rabs; ring].
Qed.

(** The transforms of the images of the shapes. *)
Lemma isclose0_N x : isclose0 (- x) = isclose0 x.
Proof. by rewrite /isclose0 Rabs_Ropp. Qed.
Section Shapes.
Variables a b s : R.
Hypothesis iso : isometry a b s.
Notation tn := (turn a b s).
Lemma axial_isclose g : a = 0%Re \/ b = 0%Re -> isclose0 (tn g).1 && isclose0 (tn g).2 = isclose0 g.1 && isclose0 g.2.
Proof.
have [h1 h2] := iso; have sg x y : (x * x = 1 -> (x * y = y \/ x * y = - y))%Re.
  move=> h; have : ((x - 1) * (x + 1) = 0)%Re by ring [h].
  by case/Rmult_integral => e; [left; have -> : x = 1%Re by lra|right; have -> : x = (- 1)%Re by lra]; ring.
have ic x y : (x * x = 1)%Re -> isclose0 (x * y) = isclose0 y by move=> /(sg _ y) [->|->]; rewrite ?isclose0_N.
have hs : (s * s = 1)%Re by case: h2 => ->; ring.
case=> e; rewrite /turn e /=; rewrite e in h1.
  have hb : (b * b = 1)%Re by lra.
  have -> : (0 * g.1 + b * g.2 = b * g.2)%Re by ring.
  have -> : (- (s * b) * g.1 + s * 0 * g.2 = (s * b) * (- g.1))%Re by ring.
  have sb : (s * b * (s * b) = 1)%Re by ring [hb hs].
  by rewrite (ic _ _ hb) (ic _ _ sb) isclose0_N andbC.
have ha : (a * a = 1)%Re by lra.
have -> : (a * g.1 + 0 * g.2 = a * g.1)%Re by ring.
have -> : (- (s * 0) * g.1 + s * a * g.2 = (s * a) * g.2)%Re by ring.
have sa : (s * a * (s * a) = 1)%Re by ring [ha hs].
by rewrite (ic _ _ ha) (ic _ _ sa).
Qed.
Lemma image_value J1 sh sh' sg rb m : image a b s sh sh' -> (if sh is Disc _ _ _ then a = 0%Re \/ b = 0%Re \/ (resolved rb /\ resolved (tn rb.1, tn rb.2)) else True) ->
  shape_value J1 sh' sg (tn (gof rb m)) = shape_value J1 sh sg (gof rb m).
Proof.
move E: (gof rb m) => g.
case: sh sh' => [x0 y0 x1 y1|x y d||] [x0' y0' x1' y1'|x' y' d'||] //; rewrite /image /shape_value.
  move=> [[-> [-> [-> [-> -> -> ->]]]]|[-> [-> [-> [-> -> -> ->]]]]] _; rewrite /turn /=.
    by congr (transform_rectangle _ _ _ _ _ _ _); ring.
  have -> : (0 * g.1 + 1 * g.2 = g.2)%Re by ring.
  have -> : (- (- 1 * 1) * g.1 + - 1 * 0 * g.2 = g.1)%Re by ring.
  rewrite /transform_rectangle; congr (_ * cexp (_ * RtoC _)); last by ring.
  by rewrite mulrAC (Rmult_comm (y1 - y0) (x1 - x0)).
move=> [[-> ->] ->] hr.
have [ax|[h1 h2]] : (a = 0%Re \/ b = 0%Re) \/ (resolved rb /\ resolved (tn rb.1, tn rb.2)).
  by case: hr => [h|[h|h]]; [left; left|left; right|right].
  rewrite /transform_disc (axial_isclose _ ax); case: ifP => // _.
  have := dot_turn2 iso g g; rewrite {1}/dot2 => ->.
  by have := dot_turn2 iso (x, y) g; rewrite {1}/dot2 => ->.
rewrite -E; exact: (@shape_value_turn a b s iso J1 (Disc x y d) sg rb m I h1 h2).
Qed.
Lemma image_good sh sh' : image a b s sh sh' -> good_shape sh -> good_shape sh'.
Proof. by case: sh sh' => [x0 y0 x1 y1|x y d||] [x0' y0' x1' y1'|x' y' d'||] //= [_ ->]. Qed.
End Shapes.
