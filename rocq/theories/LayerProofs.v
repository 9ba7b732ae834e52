(** Proofs about the layer and half-space matrices (any field with 2 <> 0). *)
From mathcomp Require Import all_ssreflect all_algebra.
From Verif Require Import Base ZmodTac ModelRedheffer SpecScatter RedhefferProofs ModelLayer SpecLayer.
Set Implicit Arguments. Unset Strict Implicit. Unset Printing Implicit Defensive.
Import GRing.Theory.
Local Open Scope ring_scope.

Section Generic.
Variables (F : fieldType) (m : nat).
Hypothesis two_n0 : 2%:R != 0 :> F.
Implicit Types (W V A B X : 'M[F]_m) (x y : 'rV[F]_m) (u v w : 'cV[F]_m).

Lemma two_inj p q (u v : 'M[F]_(p, q)) : u *+ 2 = v *+ 2 -> u = v.
Proof. by rewrite -!scaler_nat; apply: scalerI. Qed.

Lemma half_two p q (u : 'M[F]_(p, q)) : 2%:R^-1 *: u + 2%:R^-1 *: u = u.
Proof. by rewrite -scalerDl -mulr2n -mulr_natr mulVf // scale1r. Qed.

(** Tangential continuity in terms of t1 = W^-1 W0, t2 = V^-1 V0. *)
Lemma tangential_left W V W0 V0 (a b cp cm : 'cV[F]_m) :
  W \in unitmx -> V \in unitmx ->
  tangential W0 V0 a b = tangential W V cp cm <->
  ((invmx W *m W0 + invmx V *m V0) *m a + (invmx W *m W0 - invmx V *m V0) *m b = cp *+ 2 /\
   (invmx W *m W0 - invmx V *m V0) *m a + (invmx W *m W0 + invmx V *m V0) *m b = cm *+ 2).
Proof.
move=> uW uV; set t1 := invmx W *m W0; set t2 := invmx V *m V0.
split=> [[hE hH]|[h1 h2]].
  have e1 : t1 *m (a + b) = cp + cm by rewrite -mulmxA hE mulKmx.
  have e2 : t2 *m (b - a) = cm - cp by rewrite -mulmxA hH mulKmx.
  split.
    transitivity (t1 *m (a + b) - t2 *m (b - a)); first by mxz.
    by rewrite e1 e2; zmod.
  transitivity (t1 *m (a + b) + t2 *m (b - a)); first by mxz.
  by rewrite e1 e2; zmod.
have e1 : t1 *m (a + b) = cp + cm.
  apply: two_inj; transitivity (cp *+ 2 + cm *+ 2); last by zmod.
  by rewrite -h1 -h2; mxz.
have e2 : t2 *m (b - a) = cm - cp.
  apply: two_inj; transitivity (cm *+ 2 - cp *+ 2); last by zmod.
  by rewrite -h1 -h2; mxz.
congr pair.
  by rewrite -e1 /t1 -mulmxA mulKVmx.
by rewrite -e2 /t2 -mulmxA mulKVmx.
Qed.

Lemma tangential_inj W V (a b c d : 'cV[F]_m) : W \in unitmx -> V \in unitmx ->
  tangential W V a b = tangential W V c d -> a = c /\ b = d.
Proof.
move=> uW uV /(tangential_left _ _ _ _ _ _ uW uV); rewrite !mulVmx // subrr !mul0mx addr0 add0r.
rewrite mulmxDl mul1mx mulmxDl mul1mx -!mulr2n => -[/two_inj -> /two_inj ->] //.
Qed.

(** The fundamental equations of a slab. *)
Definition slab_eqs A B (x : 'rV[F]_m) (a1 a2 b1 b2 : 'cV[F]_m) :=
  diag_mx x *m (A *m a1 + B *m b1) = A *m b2 + B *m a2 /\
  B *m a1 + A *m b1 = diag_mx x *m (B *m b2 + A *m a2).

Definition inverse_rows (x y : 'rV[F]_m) := forall j, x 0 j * y 0 j = 1.

Lemma diag_inverse x y : inverse_rows x y ->
  diag_mx x *m diag_mx y = 1%:M /\ diag_mx y *m diag_mx x = 1%:M.
Proof.
move=> h; split; apply/matrixP => i j; rewrite mul_diag_mx !mxE.
  by case: eqP => [->|]; rewrite ?mulr1n ?h // ?mulr0n mulr0.
by case: eqP => [->|]; rewrite ?mulr1n 1?mulrC ?h // ?mulr0n mul0r.
Qed.

Lemma slabE W V W0 V0 x y (a1 a2 b1 b2 : 'cV[F]_m) :
  W \in unitmx -> V \in unitmx -> inverse_rows x y ->
  slab_response W V W0 V0 x y a1 a2 b1 b2 <->
  slab_eqs (invmx W *m W0 + invmx V *m V0) (invmx W *m W0 - invmx V *m V0) x a1 a2 b1 b2.
Proof.
move=> uW uV hxy; have [xy yx] := diag_inverse hxy.
set A := _ + _; set B := _ - _; set X := diag_mx x in xy yx *; set Y := diag_mx y in xy yx *.
split=> [[cp [cm [/(tangential_left _ _ _ _ _ _ uW uV) [h1 h2] /esym /(tangential_left _ _ _ _ _ _ uW uV)[h3 h4]]]]|[h1 h2]].
  split; first by rewrite h1 h3 !mulr2n mulmxDr.
  by rewrite h2 [X in _ *m X]addrC [in RHS]addrC h4 !mulr2n mulmxDr !mulmxA xy !mul1mx.
pose cp := 2%:R^-1 *: (A *m a1 + B *m b1); pose cm := 2%:R^-1 *: (B *m a1 + A *m b1).
have h2p (u : 'cV[F]_m) : (2%:R^-1 *: u) *+ 2 = u by rewrite mulr2n half_two.
exists cp, cm; split.
  by apply/(tangential_left _ _ _ _ _ _ uW uV); rewrite -/A -/B !h2p.
apply/esym/(tangential_left _ _ _ _ _ _ uW uV); rewrite -/A -/B /cp /cm -!scalemxAr !h2p h1.
by rewrite h2 mulmxA yx mul1mx; split=> //; rewrite addrC.
Qed.

(** What build_core computes. *)
Definition bA (W V W0 V0 : 'M[F]_m) := invmx W *m W0 + invmx V *m V0.
Definition bB (W V W0 V0 : 'M[F]_m) := invmx W *m W0 - invmx V *m V0.
Definition bT A B (x : 'rV[F]_m) := A - diag_mx x *m B *m (invmx A *m diag_mx x) *m B.

Lemma build_ok W V W0 V0 x S :
  build_core W V W0 V0 x = Ok S <->
  [/\ W \in unitmx, V \in unitmx, bA W V W0 V0 \in unitmx,
      bT (bA W V W0 V0) (bB W V W0 V0) x \in unitmx &
   let A := bA W V W0 V0 in let B := bB W V W0 V0 in let X := diag_mx x in
   let iT := invmx (bT A B x) in
   let S11 := iT *m (X *m B *m (invmx A *m X) *m A - B) in
   let S12 := iT *m (X *m (A - B *m (invmx A *m B))) in
   S = Smat S11 S12 S12 S11].
Proof.
rewrite /build_core /solve.
case: ifP => [uW|nW] /=; last by split=> // -[].
case: ifP => [uV|nV] /=; last by split=> // -[].
rewrite -/(bA W V W0 V0) -/(bB W V W0 V0).
case: ifP => [uA|nA] /=; last by split=> // -[].
rewrite -/(bT _ _ x).
case: ifP => [uT|nT] /=; last by split=> // -[].
by split=> [[<-]|[_ _ _ _ ->]].
Qed.

Lemma slab_forward A B x (a1 a2 b1 b2 : 'cV[F]_m) : A \in unitmx ->
  slab_eqs A B x a1 a2 b1 b2 ->
  bT A B x *m b1 = (diag_mx x *m B *m (invmx A *m diag_mx x) *m A - B) *m a1
                   + diag_mx x *m (A - B *m (invmx A *m B)) *m a2.
Proof.
move=> uA [h1 h2]; set X := diag_mx x in h1 h2 *.
have e2 : b2 = invmx A *m (X *m (A *m a1 + B *m b1) - B *m a2).
  by rewrite h1 addrK mulKmx.
have e1 : A *m b1 = X *m (B *m b2 + A *m a2) - B *m a1 by rewrite -h2; zmod.
by rewrite /bT mulmxBl e1 e2 -/X; mxz.
Qed.

Lemma slab_sym A B x (a1 a2 b1 b2 : 'cV[F]_m) :
  slab_eqs A B x a1 a2 b1 b2 -> slab_eqs A B x a2 a1 b2 b1.
Proof. by case=> h1 h2; split; [rewrite addrC [RHS]addrC | rewrite addrC -h1 addrC]. Qed.

Lemma slab_solution A B x (a1 a2 b1 : 'cV[F]_m) : A \in unitmx ->
  bT A B x *m b1 = (diag_mx x *m B *m (invmx A *m diag_mx x) *m A - B) *m a1
                   + diag_mx x *m (A - B *m (invmx A *m B)) *m a2 ->
  slab_eqs A B x a1 a2 b1 (invmx A *m (diag_mx x *m (A *m a1 + B *m b1) - B *m a2)).
Proof.
move=> uA h; set X := diag_mx x in h *; set b2 := invmx A *m _.
have e : A *m b2 = X *m (A *m a1 + B *m b1) - B *m a2 by rewrite mulKVmx.
split; first by rewrite e subrK.
transitivity (bT A B x *m b1 + X *m (B *m (invmx A *m (X *m (B *m b1)))) + B *m a1).
  by rewrite /bT -/X; mxz.
by rewrite h /b2 -/X; mxz.
Qed.

Lemma build_slab W V W0 V0 x y S (a1 a2 b1 b2 : 'cV[F]_m) :
  inverse_rows x y -> build_core W V W0 V0 x = Ok S ->
  slab_response W V W0 V0 x y a1 a2 b1 b2 <-> scatters S a1 a2 b1 b2.
Proof.
move=> hxy /build_ok [uW uV uA uT /= ->]; rewrite (slabE _ _ _ _ _ _ uW uV hxy).
rewrite -/(bA W V W0 V0) -/(bB W V W0 V0).
set A := bA _ _ _ _ in uA uT *; set B := bB _ _ _ _ in uA uT *; rewrite /scatters /=.
have uniq (c1 c2 d1 d2 : 'cV[F]_m) : slab_eqs A B x c1 c2 d1 d2 ->
   d1 = invmx (bT A B x) *m (diag_mx x *m B *m (invmx A *m diag_mx x) *m A - B) *m c1
      + invmx (bT A B x) *m (diag_mx x *m (A - B *m (invmx A *m B))) *m c2.
  move=> /(slab_forward uA) h; apply: (can_inj (mulKmx uT)); rewrite h [in RHS]mulmxDr.
  by rewrite -!mulmxA !mulKVmx //.
split=> [h|[h1 h2]]; first by split; [exact: uniq h | rewrite addrC; exact: uniq (slab_sym h)].
have := @slab_solution A B x a1 a2 b1 uA.
have -> : bT A B x *m b1 = (diag_mx x *m B *m (invmx A *m diag_mx x) *m A - B) *m a1
                   + diag_mx x *m (A - B *m (invmx A *m B)) *m a2.
  by rewrite h1 [in LHS]mulmxDr -!mulmxA !mulKVmx //.
move=> /(_ erefl) sol; have := uniq _ _ _ _ (slab_sym sol).
by rewrite [X in _ = X -> _]addrC -h2 => <-.
Qed.

(** When the construction fails although the modes and A are invertible, the
    slab has a resonance: outgoing waves without incoming ones. *)
Lemma build_err W V W0 V0 x y e :
  inverse_rows x y -> W \in unitmx -> V \in unitmx -> bA W V W0 V0 \in unitmx ->
  build_core W V W0 V0 x = Err e ->
  e = LinAlgError /\ exists b1 b2 : 'cV[F]_m, b1 <> 0 /\ slab_response W V W0 V0 x y 0 0 b1 b2.
Proof.
move=> hxy uW uV uA; rewrite /build_core /solve uW uV /= -/(bA W V W0 V0) -/(bB W V W0 V0) uA /=.
rewrite -/(bT _ _ x); case: ifP => //= /negbT nT [<-]; split=> //.
have [v vn0 vT] := notunit_ker nT; exists v; eexists; split; first exact/eqP.
apply/(slabE _ _ _ _ _ _ uW uV hxy); apply: slab_solution => //.
by rewrite vT !mulmx0 addr0.
Qed.

(** Zero thickness. *)
Lemma slab_zero W V W0 V0 (a1 a2 : 'cV[F]_m) :
  W \in unitmx -> V \in unitmx ->
  slab_response W V W0 V0 (const_mx 1) (const_mx 1) a1 a2 a2 a1.
Proof.
move=> uW uV.
have h1 : inverse_rows (const_mx 1 : 'rV[F]_m) (const_mx 1) by move=> j; rewrite !mxE mulr1.
apply/(slabE _ _ _ _ _ _ uW uV h1); rewrite /slab_eqs diag_const_mx; split; rewrite mul1mx //.
Qed.

Lemma build_zero W V W0 V0 S :
  build_core W V W0 V0 (const_mx 1) = Ok S -> S = scattering_identity F m.
Proof.
move=> h; have [uW uV _ _ _] := (build_ok _ _ _ _ _ _).1 h.
have h1 : inverse_rows (const_mx 1 : 'rV[F]_m) (const_mx 1) by move=> j; rewrite !mxE mulr1.
apply/esym/scatters_inj => a1 a2 b1 b2 [/=].
rewrite !mul0mx !mul1mx add0r addr0 => -> ->.
by apply/(build_slab _ _ _ _ h1 h); apply: slab_zero.
Qed.

Lemma build_zero_defined W V W0 V0 :
  W \in unitmx -> V \in unitmx -> W0 \in unitmx -> V0 \in unitmx ->
  bA W V W0 V0 \in unitmx ->
  build_core W V W0 V0 (const_mx 1) = Ok (scattering_identity F m).
Proof.
move=> uW uV uW0 uV0 uA.
have h1 : inverse_rows (const_mx 1 : 'rV[F]_m) (const_mx 1) by move=> j; rewrite !mxE mulr1.
case E : (build_core _ _ _ _ _) => [S|e]; first by rewrite (build_zero E).
have [_ [b1 [b2 [bn0]]]] := build_err h1 uW uV uA E.
case=> cp [cm []]; rewrite diag_const_mx !mul1mx => k h; case: bn0.
by have [_ ->] := tangential_inj uW0 uV0 (etrans k h).
Qed.

(** A slab of vacuum. *)
Lemma build_vacuum W0 V0 x : W0 \in unitmx -> V0 \in unitmx ->
  build_core W0 V0 W0 V0 x = Ok (Smat 0 (diag_mx x) (diag_mx x) 0).
Proof.
move=> uW uV; apply/build_ok; rewrite /bA /bB !mulVmx // subrr /bT.
have e2 : 1%:M + 1%:M = 2%:R%:M :> 'M[F]_m by rewrite -raddfD.
rewrite e2 !mulmx0 !mul0mx !subr0.
have u2 : (2%:R%:M : 'M[F]_m) \in unitmx.
  by rewrite unitmxE det_scalar unitfE expf_neq0.
have e : diag_mx x = invmx 2%:R%:M *m (diag_mx x *m 2%:R%:M).
  by apply: (can_inj (mulKmx u2)); rewrite mulKVmx // mul_scalar_mx mul_mx_scalar.
by split=> //=; rewrite -e mulmx0.
Qed.

(** Cutting a slab in two. *)
Lemma slab_cut W V W0 V0 x1 y1 x2 y2 (a1 a2 b1 b2 cp cm : 'cV[F]_m) :
  W \in unitmx -> V \in unitmx ->
  slab_response W V W0 V0 x1 y1 a1 cm b1 cp ->
  slab_response W V W0 V0 x2 y2 cp a2 cm b2 ->
  slab_response W V W0 V0 (\row_j (x1 0 j * x2 0 j)) (\row_j (y1 0 j * y2 0 j)) a1 a2 b1 b2.
Proof.
move=> uW uV [dp [dm [h1 h2]]] [ep [em [h3 h4]]].
have [e1 e2] : diag_mx x1 *m dp = ep /\ diag_mx y1 *m dm = em.
  by apply: tangential_inj uW uV _; rewrite h2 h3.
have md (u v : 'rV[F]_m) : diag_mx (\row_j (u 0 j * v 0 j)) = diag_mx v *m diag_mx u.
  by rewrite mulmx_diag; congr diag_mx; apply/rowP => j; rewrite !mxE mulrC.
by exists dp, dm; split=> //; rewrite !md -!mulmxA e1 e2.
Qed.

Lemma inverse_rows_mul x1 y1 x2 y2 : inverse_rows x1 y1 -> inverse_rows x2 y2 ->
  inverse_rows (\row_j (x1 0 j * x2 0 j)) (\row_j (y1 0 j * y2 0 j)).
Proof. by move=> h1 h2 j; rewrite !mxE mulrACA h1 h2 mulr1. Qed.

Lemma build_additive W V W0 V0 x1 y1 x2 y2 S1 S2 :
  inverse_rows x1 y1 -> inverse_rows x2 y2 ->
  W0 \in unitmx -> V0 \in unitmx ->
  build_core W V W0 V0 x1 = Ok S1 -> build_core W V W0 V0 x2 = Ok S2 ->
  redheffer_product S1 S2 = build_core W V W0 V0 (\row_j (x1 0 j * x2 0 j)).
Proof.
move=> i1 i2 uW0 uV0 h1 h2; have i12 := inverse_rows_mul i1 i2.
have [uW uV uA _ _] := (build_ok _ _ _ _ _ _).1 h1.
have split_slab (a1 a2 b1 b2 : 'cV[F]_m) :
  slab_response W V W0 V0 (\row_j (x1 0 j * x2 0 j)) (\row_j (y1 0 j * y2 0 j)) a1 a2 b1 b2 ->
  exists cp cm, slab_response W V W0 V0 x1 y1 a1 cm b1 cp /\
                slab_response W V W0 V0 x2 y2 cp a2 cm b2.
  case=> dp [dm [e1 e2]].
  set E := (tangential W V (diag_mx x1 *m dp) (diag_mx y1 *m dm)).
  have [cp [cm hE]] : exists cp cm, tangential W0 V0 cp cm = E.
    pose u := invmx W0 *m E.1; pose v := invmx V0 *m E.2.
    exists (2%:R^-1 *: (u - v)), (2%:R^-1 *: (u + v)).
    have -> : E = (W0 *m u, V0 *m v) by rewrite !mulKVmx //; case: E {u v}.
    congr pair; congr (_ *m _).
      by apply: two_inj; rewrite mulrnDl ![_ *+ 2]mulr2n !half_two; zmod.
    by apply: two_inj; rewrite mulrnBl ![_ *+ 2]mulr2n !half_two; zmod.
  exists cp, cm; split; first by exists dp, dm.
  exists (diag_mx x1 *m dp), (diag_mx y1 *m dm); split=> //; rewrite -e2 !mulmxA.
  have md (u v : 'rV[F]_m) : diag_mx (\row_j (u 0 j * v 0 j)) = diag_mx v *m diag_mx u.
    by rewrite mulmx_diag; congr diag_mx; apply/rowP => j; rewrite !mxE mulrC.
  by rewrite !md.
have join (a1 a2 b1 b2 : 'cV[F]_m) : joined S1 S2 a1 a2 b1 b2 <->
  slab_response W V W0 V0 (\row_j (x1 0 j * x2 0 j)) (\row_j (y1 0 j * y2 0 j)) a1 a2 b1 b2.
  split=> [[cp [cm [/(build_slab _ _ _ _ i1 h1) k1 /(build_slab _ _ _ _ i2 h2) k2]]]|].
    exact: slab_cut k1 k2.
  move/split_slab => [cp [cm [/(build_slab _ _ _ _ i1 h1) k1 /(build_slab _ _ _ _ i2 h2) k2]]].
  by exists cp, cm.
case E12 : (build_core W V W0 V0 _) => [S12|e].
  have [S hS] : is_ok (redheffer_product S1 S2).
    apply/rh_defined => cp cm [[b1 k1] [b2 k2]].
    have : joined S1 S2 0 0 b1 b2 by exists cp, cm.
    move/join/(build_slab _ _ _ _ i12 E12); rewrite /scatters !mulmx0 !addr0 => -[z1 z2].
    move: k1; rewrite z1 => /(build_slab _ _ _ _ i1 h1) [dp [dm [e1 e2]]].
    have [d0 d1] : 0 = dp /\ 0 = dm.
      by apply: tangential_inj uW uV _; rewrite -e1 /tangential !addr0 !subr0 !mulmx0.
    have [] : 0 = cp /\ 0 = cm; last by move=> <- <-.
    apply: tangential_inj uW0 uV0 _; rewrite -e2 -d0 -d1.
    by rewrite /tangential !mulmx0 !addr0 !subr0 !mulmx0.
  rewrite hS; congr Ok; apply: scatters_inj => a1 a2 b1 b2.
  by move/(joinedE _ _ _ _ hS)/join/(build_slab _ _ _ _ i12 E12).
have [-> [b1 [b2 [bn0 /join [cp [cm [k1 k2]]]]]]] := build_err i12 uW uV uA E12.
case Er : (redheffer_product S1 S2) => [S|e']; last by rewrite (rh_err Er).1.
case: bn0; have : joined S1 S2 0 0 b1 b2 by exists cp, cm.
by move/(joinedE _ _ _ _ Er) => -[-> _]; rewrite !mulmx0 addr0.
Qed.

(** Half spaces. *)
Lemma reflection_ok W0 V0 W V S :
  reflection_core W0 V0 W V = Ok S ->
  [/\ W0 \in unitmx, V0 \in unitmx, bA W0 V0 W V \in unitmx &
   forall a1 a2 b1 b2 : 'cV[F]_m,
     scatters S a1 a2 b1 b2 <-> interface_response W V W0 V0 a1 a2 b1 b2].
Proof.
rewrite /reflection_core /solve /inv.
case: ifP => [uW|//] /=; case: ifP => [uV|//] /=.
rewrite -/(bA W0 V0 W V) -/(bB W0 V0 W V).
case: ifP => [uA|//] /= [<-]; split=> // a1 a2 b1 b2.
rewrite /interface_response (tangential_left _ _ _ _ _ _ uW uV) -/(bA W0 V0 W V) -/(bB W0 V0 W V).
move: (bA _ _ _ _) (bB _ _ _ _) uA => A B uA; rewrite /scatters /=.
split=> [[-> ->]|[h1 h2]].
  split.
    rewrite mulrnDl -!scalemxAl [(2%:R^-1 *: _) *+ 2]mulr2n half_two scaler_nat !mulr2n.
    by mxz.
  by rewrite scaler_nat mulr2n; mxexp; rewrite !mulmxV // !mul1mx; zmod.
have e1 : b1 = - (invmx A *m B) *m a1 + (2%:R *: invmx A) *m a2.
  apply: (can_inj (mulKmx uA)); rewrite mulmxDr scaler_nat mulr2n mulmxDl mulmxDr.
  have -> : A *m b1 = a2 *+ 2 - B *m a1 by rewrite -h2; zmod.
  by mxexp; rewrite !mulmxV // !mul1mx; zmod.
split=> //; apply: two_inj; rewrite -h1 e1 mulmxDr -!scalemxAl.
rewrite [in RHS]mulrnDl.
have -> : (2%:R^-1 *: ((A - B *m (invmx A *m B)) *m a1)) *+ 2 = (A - B *m (invmx A *m B)) *m a1.
  by rewrite mulr2n half_two.
by rewrite scaler_nat mulr2n; mxz.
Qed.

Lemma transmission_ok W0 V0 W V S :
  transmission_core W0 V0 W V = Ok S ->
  [/\ W0 \in unitmx, V0 \in unitmx, bA W0 V0 W V \in unitmx &
   forall a1 a2 b1 b2 : 'cV[F]_m,
     scatters S a1 a2 b1 b2 <-> interface_response W0 V0 W V a1 a2 b1 b2].
Proof.
rewrite /transmission_core /solve /inv.
case: ifP => [uW|//] /=; case: ifP => [uV|//] /=.
rewrite -/(bA W0 V0 W V) -/(bB W0 V0 W V).
case: ifP => [uA|//] /= [<-]; split=> // a1 a2 b1 b2.
have hr : reflection_core W0 V0 W V = Ok (flip (Smat (bB W0 V0 W V *m invmx (bA W0 V0 W V))
   (2%:R^-1 *: (bA W0 V0 W V - bB W0 V0 W V *m (invmx (bA W0 V0 W V) *m bB W0 V0 W V)))
   (2%:R *: invmx (bA W0 V0 W V)) (- (invmx (bA W0 V0 W V) *m bB W0 V0 W V)))).
  by rewrite /reflection_core /solve /inv uW uV /= -/(bA W0 V0 W V) -/(bB W0 V0 W V) uA.
have [_ _ _ /(_ a2 a1 b2 b1) h] := reflection_ok hr.
have -> : interface_response W0 V0 W V a1 a2 b1 b2 <-> interface_response W V W0 V0 a2 a1 b2 b1.
  rewrite /interface_response /tangential; split=> -[h1 h2].
    congr pair; first by rewrite addrC -h1 addrC.
    by rewrite -[LHS]opprK -mulmxN opprB -h2 -mulmxN opprB.
  congr pair; first by rewrite addrC -h1 addrC.
  by rewrite -[LHS]opprK -mulmxN opprB -h2 -mulmxN opprB.
rewrite -h /scatters /=; split=> -[-> ->]; split; by rewrite addrC.
Qed.

Lemma same_medium W0 V0 W V Sr St : W \in unitmx -> V \in unitmx ->
  reflection_core W0 V0 W V = Ok Sr -> transmission_core W0 V0 W V = Ok St ->
  redheffer_product Sr St = Ok (scattering_identity F m).
Proof.
move=> uW uV /reflection_ok [uW0 uV0 _ hr] /transmission_ok [_ _ _ ht].
have [S hS] : is_ok (redheffer_product Sr St).
  apply/rh_defined => cp cm [[b1 /hr k1] [b2 /ht k2]].
  have [h1 h2] : 0 = b2 /\ b1 = 0.
    by apply: tangential_inj uW uV _; rewrite k1 k2.
  have [] : 0 = cp /\ 0 = cm; last by move=> <- <-.
  apply: tangential_inj uW0 uV0 _; rewrite -k1 h2.
  by rewrite /tangential !addr0 !subr0 !mulmx0.
rewrite hS; congr Ok; apply: scatters_inj => a1 a2 b1 b2.
move/(joinedE _ _ _ _ hS) => [cp [cm [/hr k1 /ht k2]]].
have [-> ->] : a1 = b2 /\ b1 = a2 by apply: tangential_inj uW uV _; rewrite k1 k2.
by rewrite /scatters /= !mul0mx !mul1mx add0r addr0.
Qed.
End Generic.
