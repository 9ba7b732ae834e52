(** Proofs about the Redheffer product. *)
From mathcomp Require Import all_ssreflect all_algebra.
From Verif Require Import Base ZmodTac ModelRedheffer SpecScatter.
Set Implicit Arguments. Unset Strict Implicit. Unset Printing Implicit Defensive.
Import GRing.Theory.
Local Open Scope ring_scope.

Section MatrixFacts.
Variable F : fieldType.

Lemma mx_ext n m (A B : 'M[F]_(m, n)) :
  (forall v : 'cV[F]_n, A *m v = B *m v) -> A = B.
Proof.
move=> h; apply/matrixP=> i j; have := h (delta_mx j 0).
move/matrixP/(_ i 0); rewrite !mxE (bigD1 j) //= !mxE !eqxx mulr1.
rewrite big1 ?addr0; last by move=> k kj; rewrite !mxE (negbTE kj) mulr0.
rewrite (bigD1 j) //= !mxE !eqxx mulr1 big1 ?addr0 // => k kj.
by rewrite !mxE (negbTE kj) mulr0.
Qed.

Lemma unitmx_inj n (A : 'M[F]_n) :
  (A \in unitmx) <-> (forall v : 'cV[F]_n, A *m v = 0 -> v = 0).
Proof.
split=> [uA v Av0 | h]; first by rewrite -(mulKmx uA v) Av0 mulmx0.
rewrite unitmxE unitfE -det_tr; apply/det0P => -[v vn0 vA].
have : A *m v^T = 0 by rewrite -[A]trmxK -trmx_mul vA trmx0.
by move/h => v0; move: vn0; rewrite -(trmxK v) v0 trmx0 eqxx.
Qed.

Lemma notunit_ker n (A : 'M[F]_n) :
  A \notin unitmx -> exists2 v : 'cV[F]_n, v != 0 & A *m v = 0.
Proof.
rewrite unitmxE unitfE -det_tr negbK => /det0P [v vn0 vA].
exists v^T; first by apply: contraNneq vn0 => h; rewrite -(trmxK v) h trmx0.
by rewrite -[A]trmxK -trmx_mul vA trmx0.
Qed.

Lemma unit_1mAB n (A B : 'M[F]_n) :
  (1%:M - A *m B \in unitmx) = (1%:M - B *m A \in unitmx).
Proof.
suff imp (X Y : 'M[F]_n) : 1%:M - X *m Y \in unitmx -> 1%:M - Y *m X \in unitmx.
  by apply/idP/idP; exact: imp.
move=> uXY; apply/unitmx_inj => v.
rewrite mulmxBl mul1mx => /eqP; rewrite subr_eq0 => /eqP hv.
have h0 : X *m v = 0.
  apply: (unitmx_inj _).1 uXY _ _.
  by rewrite mulmxBl mul1mx -mulmxA (mulmxA Y) -hv subrr.
by rewrite hv -mulmxA h0 mulmx0.
Qed.

Lemma solve_ok n p (A : 'M[F]_n) (B X : 'M[F]_(n, p)) :
  solve A B = Ok X <-> A \in unitmx /\ A *m X = B.
Proof.
rewrite /solve; case: ifP => uA; split.
- by case=> <-; rewrite mulKVmx.
- by case=> _ <-; rewrite mulKmx.
- by [].
- by case=> h; rewrite h in uA.
Qed.
End MatrixFacts.

Section Redheffer.
Variables (F : fieldType) (n : nat).
Implicit Types (S SA SB SC : smat F n) (a b cp cm : 'cV[F]_n).

Definition gapD SA SB := (1%:M - s11 SB *m s22 SA : 'M[F]_n).
Definition gapF SA SB := (1%:M - s22 SA *m s11 SB : 'M[F]_n).
Definition rh_val SA SB : smat F n :=
  let D' := invmx (gapD SA SB) in let F' := invmx (gapF SA SB) in
  Smat (s11 SA + s12 SA *m (D' *m s11 SB) *m s21 SA)
       (s12 SA *m (D' *m s12 SB))
       (s21 SB *m (F' *m s21 SA))
       (s22 SB + s21 SB *m (F' *m s22 SA) *m s12 SB).

Lemma gap_unit SA SB : (gapF SA SB \in unitmx) = (gapD SA SB \in unitmx).
Proof. exact: unit_1mAB. Qed.

Lemma rhE SA SB :
  redheffer_product SA SB =
    if gapD SA SB \in unitmx then Ok (rh_val SA SB) else Err LinAlgError.
Proof.
rewrite /redheffer_product /solve /= -/(gapD SA SB) -/(gapF SA SB) gap_unit.
by case: ifP.
Qed.

Lemma rh_ok SA SB S : redheffer_product SA SB = Ok S ->
  gapD SA SB \in unitmx /\ S = rh_val SA SB.
Proof. by rewrite rhE; case: ifP => // u [<-]. Qed.

(** Solving the gap. *)
Lemma gap_solve SA SB a1 a2 cp cm : gapD SA SB \in unitmx ->
  (cp = s21 SA *m a1 + s22 SA *m cm /\ cm = s11 SB *m cp + s12 SB *m a2)
  <-> (cp = invmx (gapF SA SB) *m (s21 SA *m a1 + s22 SA *m (s12 SB *m a2)) /\
       cm = invmx (gapD SA SB) *m (s11 SB *m (s21 SA *m a1) + s12 SB *m a2)).
Proof.
move=> uD; have uF : gapF SA SB \in unitmx by rewrite gap_unit.
split=> [[hp hm] | [hp hm]].
  split.
    by apply: (canRL (mulKmx uF)); rewrite /gapF mulmxBl mul1mx {1}hp {1}hm; mxz.
  by apply: (canRL (mulKmx uD)); rewrite /gapD mulmxBl mul1mx {1}hm {1}hp; mxz.
have Fp : gapF SA SB *m cp = s21 SA *m a1 + s22 SA *m (s12 SB *m a2).
  by rewrite hp mulKVmx.
have Dm : gapD SA SB *m cm = s11 SB *m (s21 SA *m a1) + s12 SB *m a2.
  by rewrite hm mulKVmx.
split.
  apply: (can_inj (mulKmx uF)); rewrite Fp.
  transitivity (s21 SA *m a1 + s22 SA *m (gapD SA SB *m cm - s11 SB *m (s21 SA *m a1))).
    by rewrite Dm; mxz.
  by rewrite /gapF /gapD; mxz.
apply: (can_inj (mulKmx uD)); rewrite Dm.
transitivity (s12 SB *m a2 + s11 SB *m (gapF SA SB *m cp - s22 SA *m (s12 SB *m a2))).
  by rewrite Fp; mxz.
by rewrite /gapF /gapD; mxz.
Qed.

Lemma gap_wavesE SA SB (a1 a2 cp cm : 'cV[F]_n) :
  gap_waves SA SB a1 a2 cp cm <->
  (cp = s21 SA *m a1 + s22 SA *m cm /\ cm = s11 SB *m cp + s12 SB *m a2).
Proof.
split=> [[[b1 [_ h1]] [b2 [h2 _]]]|[h1 h2]] //.
by split; [exists (s11 SA *m a1 + s12 SA *m cm) | exists (s21 SB *m cp + s22 SB *m a2)].
Qed.

Lemma joinedE SA SB S (a1 a2 b1 b2 : 'cV[F]_n) :
  redheffer_product SA SB = Ok S ->
  joined SA SB a1 a2 b1 b2 <-> scatters S a1 a2 b1 b2.
Proof.
move=> /rh_ok [uD ->]; rewrite /joined /scatters.
have key (cp cm : 'cV[F]_n) : cp = invmx (gapF SA SB) *m (s21 SA *m a1 + s22 SA *m (s12 SB *m a2)) ->
   cm = invmx (gapD SA SB) *m (s11 SB *m (s21 SA *m a1) + s12 SB *m a2) ->
   s11 SA *m a1 + s12 SA *m cm = s11 (rh_val SA SB) *m a1 + s12 (rh_val SA SB) *m a2 /\
   s21 SB *m cp + s22 SB *m a2 = s21 (rh_val SA SB) *m a1 + s22 (rh_val SA SB) *m a2.
  by move=> -> ->; rewrite /rh_val /=; split; mxz.
split=> [[cp [cm [[-> hp] [hm ->]]]]|[-> ->]].
  have [Hp Hm] := (gap_solve _ _ _ _ uD).1 (conj hp hm).
  exact: key.
set cp := invmx (gapF SA SB) *m (s21 SA *m a1 + s22 SA *m (s12 SB *m a2)).
set cm := invmx (gapD SA SB) *m (s11 SB *m (s21 SA *m a1) + s12 SB *m a2).
have [hp hm] := (gap_solve a1 a2 cp cm uD).2 (conj erefl erefl).
have [<- <-] := key cp cm erefl erefl.
by exists cp, cm.
Qed.

Lemma gap_unique SA SB S (a1 a2 : 'cV[F]_n) :
  redheffer_product SA SB = Ok S ->
  exists! c : 'cV[F]_n * 'cV[F]_n, gap_waves SA SB a1 a2 c.1 c.2.
Proof.
move=> /rh_ok [uD _].
set cp := invmx (gapF SA SB) *m (s21 SA *m a1 + s22 SA *m (s12 SB *m a2)).
set cm := invmx (gapD SA SB) *m (s11 SB *m (s21 SA *m a1) + s12 SB *m a2).
exists (cp, cm); split=> [|[dp dm] /= /gap_wavesE h].
  by apply/gap_wavesE; exact: (gap_solve a1 a2 cp cm uD).2.
by have [-> ->] := (gap_solve _ _ _ _ uD).1 h.
Qed.

Lemma rh_err SA SB e : redheffer_product SA SB = Err e ->
  e = LinAlgError /\
  exists cp cm : 'cV[F]_n, (cp, cm) <> (0, 0) /\ gap_waves SA SB 0 0 cp cm.
Proof.
rewrite rhE; case: ifP => // /negbT nu [<-]; split=> //.
have [v vn0 vD] := notunit_ker nu; exists (s22 SA *m v), v; split.
  by case=> _ v0; rewrite v0 eqxx in vn0.
apply/gap_wavesE; rewrite !mulmx0 add0r addr0; split=> //.
by apply/eqP; rewrite -subr_eq0 mulmxA -{1}(mul1mx v) -mulmxBl; apply/eqP.
Qed.

(** Definedness as uniqueness of homogeneous gap waves. *)
Lemma rh_defined SA SB :
  is_ok (redheffer_product SA SB) <->
  (forall cp cm : 'cV[F]_n, gap_waves SA SB 0 0 cp cm -> cp = 0 /\ cm = 0).
Proof.
split=> [[S hS] cp cm h|h].
  have [c [_ u]] := gap_unique 0 0 hS.
  have h0 : gap_waves SA SB 0 0 ((0 : 'cV[F]_n), (0 : 'cV[F]_n)).1 ((0 : 'cV[F]_n), (0 : 'cV[F]_n)).2.
    by apply/gap_wavesE; rewrite !mulmx0 !addr0.
  have := u (cp, cm) h; rewrite (u _ h0) => -[-> ->] //.
case E : (redheffer_product SA SB) => [S|e]; first by exists S.
have [_ [cp [cm [nz g]]]] := rh_err E.
by have [c0 d0] := h _ _ g; case: nz; rewrite c0 d0.
Qed.

Lemma scatters_inj S S' :
  (forall a1 a2 b1 b2 : 'cV[F]_n, scatters S a1 a2 b1 b2 -> scatters S' a1 a2 b1 b2) ->
  S = S'.
Proof.
move=> h.
have h' (a1 a2 : 'cV[F]_n) := h a1 a2 _ _ (conj erefl erefl).
case: S S' {h} h' => p q r s [p' q' r' s'] h; rewrite /scatters /= in h.
congr Smat; apply: mx_ext => v.
- by have [] := h v 0; rewrite !mulmx0 !addr0.
- by have [] := h 0 v; rewrite !mulmx0 !add0r.
- by have [] := h v 0; rewrite !mulmx0 !addr0.
- by have [] := h 0 v; rewrite !mulmx0 !add0r.
Qed.

Lemma rh_idL S : redheffer_product (scattering_identity F n) S = Ok S.
Proof.
have uD : gapD (scattering_identity F n) S \in unitmx.
  by rewrite /gapD /= mulmx0 subr0 unitmx1.
rewrite rhE uD; congr Ok; case: S {uD} => p q r s; rewrite /rh_val /gapD /gapF /=.
by rewrite ?(mulmx0, mul0mx, subr0, invmx1, mul1mx, mulmx1, add0r, addr0).
Qed.
Lemma rh_idR S : redheffer_product S (scattering_identity F n) = Ok S.
Proof.
have uD : gapD S (scattering_identity F n) \in unitmx.
  by rewrite /gapD /= mul0mx subr0 unitmx1.
rewrite rhE uD; congr Ok; case: S {uD} => p q r s; rewrite /rh_val /gapD /gapF /=.
by rewrite ?(mulmx0, mul0mx, subr0, invmx1, mul1mx, mulmx1, add0r, addr0).
Qed.

(** Associativity. *)
Definition two_gaps SA SB SC (cp cm dp dm : 'cV[F]_n) :=
  (exists b1, scatters SA 0 cm b1 cp) /\ scatters SB cp dm cm dp /\
  (exists b2, scatters SC dp 0 dm b2).

Lemma two_gaps_left SA SB SC SAB : redheffer_product SA SB = Ok SAB ->
  is_ok (redheffer_product SAB SC) <->
  (forall cp cm dp dm, two_gaps SA SB SC cp cm dp dm ->
     [/\ cp = 0, cm = 0, dp = 0 & dm = 0]).
Proof.
move=> hAB; rewrite rh_defined; split=> h.
  move=> cp cm dp dm [[b1 h1] [h2 [b2 h3]]].
  have [d0 e0] : dp = 0 /\ dm = 0.
    apply: h; split; last by exists b2.
    by exists b1; apply/(joinedE _ _ _ _ hAB); exists cp, cm.
  have [] // := (rh_defined SA SB).1 (ex_intro _ _ hAB) cp cm.
  by split; [exists b1 | exists dp; rewrite -e0].
move=> dp dm [[b1 /(joinedE _ _ _ _ hAB) [cp [cm [h1 h2]]]] [b2 h3]].
have [] // := h cp cm dp dm.
by split; [exists b1|split=> //; exists b2].
Qed.

Lemma two_gaps_right SA SB SC SBC : redheffer_product SB SC = Ok SBC ->
  is_ok (redheffer_product SA SBC) <->
  (forall cp cm dp dm, two_gaps SA SB SC cp cm dp dm ->
     [/\ cp = 0, cm = 0, dp = 0 & dm = 0]).
Proof.
move=> hBC; rewrite rh_defined; split=> h.
  move=> cp cm dp dm [[b1 h1] [h2 [b2 h3]]].
  have [d0 e0] : cp = 0 /\ cm = 0.
    apply: h; split; first by exists b1.
    by exists b2; apply/(joinedE _ _ _ _ hBC); exists dp, dm.
  have [] // := (rh_defined SB SC).1 (ex_intro _ _ hBC) dp dm.
  by split; [exists cm; rewrite -d0 | exists b2].
move=> cp cm [[b1 h1] [b2 /(joinedE _ _ _ _ hBC) [dp [dm [h2 h3]]]]].
have [] // := h cp cm dp dm.
by split; [exists b1|split=> //; exists b2].
Qed.

Lemma rh_assoc SA SB SC SAB SBC :
  redheffer_product SA SB = Ok SAB -> redheffer_product SB SC = Ok SBC ->
  redheffer_product SAB SC = redheffer_product SA SBC.
Proof.
move=> hAB hBC.
have dfn : is_ok (redheffer_product SAB SC) <-> is_ok (redheffer_product SA SBC).
  by rewrite (two_gaps_left SC hAB) (two_gaps_right SA hBC).
case El : (redheffer_product SAB SC) => [SL|e]; last first.
  case Er : (redheffer_product SA SBC) => [SR|e'].
    by have [T] := dfn.2 (ex_intro _ _ Er); rewrite El.
  by rewrite (rh_err El).1 (rh_err Er).1.
have [SR Er] := dfn.1 (ex_intro _ _ El); rewrite Er; congr Ok.
apply: scatters_inj => a1 a2 b1 b2 /(joinedE _ _ _ _ El) [dp [dm [h1 h2]]].
have [cp [cm [h3 h4]]] := (joinedE _ _ _ _ hAB).2 h1.
apply/(joinedE _ _ _ _ Er); exists cp, cm; split=> //.
by apply/(joinedE _ _ _ _ hBC); exists dp, dm.
Qed.

(** Flux bookkeeping. *)
Lemma rh_conserves T SA SB S (fl fg fr : 'cV[F]_n -> 'cV[F]_n -> T) :
  redheffer_product SA SB = Ok S ->
  conserves SA fl fg -> conserves SB fg fr -> conserves S fl fr.
Proof.
move=> hS hA hB a1 a2 b1 b2 /(joinedE _ _ _ _ hS) [cp [cm [h1 h2]]].
by rewrite (hA _ _ _ _ h1) (hB _ _ _ _ h2).
Qed.
Lemma rh_dissipates T (le : T -> T -> Prop) SA SB S (fl fg fr : 'cV[F]_n -> 'cV[F]_n -> T) :
  (forall x y z, le x y -> le y z -> le x z) ->
  redheffer_product SA SB = Ok S ->
  dissipates le SA fl fg -> dissipates le SB fg fr -> dissipates le S fl fr.
Proof.
move=> tr hS hA hB a1 a2 b1 b2 /(joinedE _ _ _ _ hS) [cp [cm [h1 h2]]].
exact: tr (hB _ _ _ _ h2) (hA _ _ _ _ h1).
Qed.

(** Turning around and transposing. *)
Lemma rh_flip SA SB :
  redheffer_product (flip SB) (flip SA) = res_map (@flip F n) (redheffer_product SA SB).
Proof.
have h : gapD (flip SB) (flip SA) = gapF SA SB by [].
rewrite !rhE h gap_unit; case: ifP => //= u; congr Ok.
Qed.

Lemma push_through SA SB : gapD SA SB \in unitmx ->
  s11 SB *m invmx (gapF SA SB) = invmx (gapD SA SB) *m s11 SB.
Proof.
move=> uD; have uF : gapF SA SB \in unitmx by rewrite gap_unit.
apply: (canRL (mulKmx uD)); rewrite mulmxA; apply: (canLR (mulmxK uF)).
by rewrite /gapD /gapF; mxz.
Qed.
Lemma push_through' SA SB : gapD SA SB \in unitmx ->
  s22 SA *m invmx (gapD SA SB) = invmx (gapF SA SB) *m s22 SA.
Proof.
move=> uD; have uF : gapF SA SB \in unitmx by rewrite gap_unit.
apply: (canRL (mulKmx uF)); rewrite mulmxA; apply: (canLR (mulmxK uD)).
by rewrite /gapD /gapF; mxz.
Qed.

Lemma rh_transposed SA SB :
  redheffer_product (transposed SA) (transposed SB)
  = res_map (@transposed F n) (redheffer_product SA SB).
Proof.
have hD : gapD (transposed SA) (transposed SB) = (gapF SA SB)^T.
  by rewrite /gapD /gapF linearB /= trmx1 trmx_mul.
have hF : gapF (transposed SA) (transposed SB) = (gapD SA SB)^T.
  by rewrite /gapD /gapF linearB /= trmx1 trmx_mul.
rewrite !rhE hD unitmx_tr gap_unit; case: ifP => //= u; congr Ok.
rewrite /rh_val hD hF -!trmx_inv /transposed /=; congr Smat.
- by rewrite -push_through // linearD /= !trmx_mul !mulmxA.
- by rewrite !trmx_mul !mulmxA.
- by rewrite !trmx_mul !mulmxA.
- by rewrite -push_through' // linearD /= !trmx_mul !mulmxA.
Qed.
End Redheffer.

Lemma rh_reciprocal (F : fieldType) n (SA SB S : smat F n) :
  redheffer_product SA SB = Ok S ->
  transposed SA = SA -> transposed SB = SB -> transposed S = S.
Proof.
move=> e hA hB; have := rh_transposed SA SB; rewrite hA hB e /= => -[h].
by rewrite -h.
Qed.
