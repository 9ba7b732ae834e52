(** Uniform media. *)
From Coq Require Import Reals Lra.
From mathcomp Require Import all_ssreflect all_algebra.
From Coquelicot Require Import Complex.
From Verif Require Import Base ZmodTac CField CFun Blk ModelRedheffer SpecScatter RedhefferProofs
  ModelLayer SpecLayer SpecMaxwell LayerProofs LayerCProofs.
Set Implicit Arguments. Unset Strict Implicit. Unset Printing Implicit Defensive.
Import GRing.Theory.
Local Open Scope ring_scope.

Lemma neqC0 (x : C) : x != 0 -> x <> RtoC 0%Re. Proof. by move/eqP. Qed.
Lemma ci_neq0 : ci != 0.
Proof. by apply/eqP => -[] h; apply: R1_neq_R0. Qed.
Lemma ci2 : ci * ci = -1.
Proof. apply: C_ext => /=; rring. Qed.

Lemma kz_branch_sqr z : kz_branch z * kz_branch z = z.
Proof.
rewrite /kz_branch; case: Rlt_dec => h; last exact: csqrt_sqr.
by rewrite mulrNN mulrACA ci2 csqrt_sqr mulN1r opprK.
Qed.
Lemma sqr_eq0 (x : C) : (x * x == 0) = (x == 0).
Proof. by rewrite mulf_eq0 orbb. Qed.
Lemma kz_branch_eq0 z : (kz_branch z == 0) = (z == 0).
Proof. by rewrite -sqr_eq0 kz_branch_sqr. Qed.

Lemma divcolsP p q (Q : 'M[C]_(p, q)) (l : 'rV[C]_q) V :
  divcols Q l = Ok V <-> (forall j, l 0 j != 0) /\ V *m diag_mx l = Q.
Proof.
rewrite /divcols; case: forallP => [h|h]; split=> //.
- case=> <-; split=> //; apply/matrixP => i j.
  by rewrite mul_mx_diag !mxE mulfVK.
- case=> _ <-; congr Ok; apply/matrixP => i j; by rewrite mul_mx_diag !mxE mulfK.
- by case=> h'; case: h.
Qed.
Lemma divcols_err p q (Q : 'M[C]_(p, q)) (l : 'rV[C]_q) e :
  divcols Q l = Err e <-> e = NonFinite /\ exists j, l 0 j = 0.
Proof.
rewrite /divcols; case: ifP => h; split=> //.
- by case=> _ [j lj]; move/forallP/(_ j): h; rewrite lj eqxx.
- by case=> <-; split=> //; move/negbT: h; rewrite negb_forall => /existsP [j]; rewrite negbK => /eqP; exists j.
- by case=> ->.
Qed.

Section Uniform.
Variable n : nat.
Implicit Types kx ky : 'rV[C]_n.

(** The block matrix common to all uniform media. *)
Definition qmat kx ky (e : C) : 'M[C]_(n + n) :=
  blk2 (fun j => kx 0 j * ky 0 j) (fun j => e - kx 0 j ^+ 2)
       (fun j => ky 0 j ^+ 2 - e) (fun j => - (ky 0 j * kx 0 j)).

Lemma QrefE kx ky er ur : Qref kx ky er ur = ur^-1 *: qmat kx ky (er * ur).
Proof.
rewrite /Qref /qmat /blk2 dgf_scal !diag_dgf !dgfM !dgfB !dgfN; congr (_ *: block_mx _ _ _ _).
Qed.
Lemma uniform_PE kx ky er mr : uniform_P kx ky er mr = er^-1 *: qmat kx ky (er * mr).
Proof.
by rewrite /uniform_P /qmat /blk2 (mulrC mr) dgf_scal -!/(dgf _) !dgfB !dgfN.
Qed.
Lemma uniform_QE kx ky er mr : er != 0 -> uniform_Q kx ky er mr = mr^-1 *: qmat kx ky (er * mr).
Proof.
by move=> h; rewrite /uniform_Q uniform_PE scalerA mulrAC mulfV // mul1r.
Qed.
Lemma structured_QE kx ky er : structured_Q kx ky er%:M = qmat kx ky er.
Proof.
rewrite /structured_Q /qmat /blk2 dgf_scal !diag_dgf !dgfM !dgfB !dgfN; congr (block_mx _ _ _ _).
Qed.
Lemma structured_PE kx ky er : er != 0 -> structured_P kx ky (er^-1)%:M = er^-1 *: qmat kx ky er.
Proof.
move=> h; rewrite /structured_P /qmat /blk2 !dgf_scal !diag_dgf !dgfM !dgfB !dgfN -/(blk2 _ _ _ _).
rewrite -/(blk2 _ _ _ _) blk2Z; apply: eq_blk2 => j.
- by rewrite mulrCA.
- by rewrite mulrBr mulVf // mulrCA -expr2.
- by rewrite mulrBr mulVf // mulrCA -expr2.
- by rewrite mulrN mulrCA.
Qed.

Lemma qmat_sqr kx ky e (kz2 : 'I_n -> C) :
  (forall j, kz2 j = e - kx 0 j ^+ 2 - ky 0 j ^+ 2) ->
  qmat kx ky e *m qmat kx ky e = blk2 (fun j => - (e * kz2 j)) (fun _ => 0) (fun _ => 0) (fun j => - (e * kz2 j)).
Proof.
by move=> h; rewrite blk2M; apply: eq_blk2 => j; rewrite ?h; cring.
Qed.

Lemma qmat_unit kx ky e : e != 0 -> (forall j, e - kx 0 j ^+ 2 - ky 0 j ^+ 2 != 0) ->
  qmat kx ky e \in unitmx.
Proof.
move=> en0 h; apply: blk2_unit => j.
have -> : kx 0 j * ky 0 j * - (ky 0 j * kx 0 j) - (e - kx 0 j ^+ 2) * (ky 0 j ^+ 2 - e)
  = e * (e - kx 0 j ^+ 2 - ky 0 j ^+ 2) by cring.
by rewrite mulf_neq0.
Qed.

Lemma V_unit (l : 'rV[C]_(n + n)) (Q V : 'M[C]_(n + n)) :
  divcols Q l = Ok V -> Q \in unitmx -> V \in unitmx.
Proof. by move=> /divcolsP [_ <-]; rewrite unitmx_mul => /andP[]. Qed.

Lemma twiceE (f : 'I_n -> C) : twice (\row_j f j) = twof f.
Proof. by []. Qed.
Lemma twice_neq0 (v : 'rV[C]_n) : (forall j, twice v 0 j != 0) -> forall j, v 0 j != 0.
Proof. by move=> h j; have := h (lshift n j); rewrite row_mxEl. Qed.
Lemma twice_neq0E (v : 'rV[C]_n) : (forall j, v 0 j != 0) -> forall j, twice v 0 j != 0.
Proof. by move=> h j; rewrite mxE; case: split => k. Qed.

Lemma unit_scale p (c : C) (A : 'M[C]_p) : c != 0 -> A \in unitmx -> c *: A \in unitmx.
Proof. by move=> cn0; rewrite unitmxZ // unitfE. Qed.

Lemma half_V_unit kx ky er ur V : er != 0 -> ur != 0 ->
  divcols (Qref kx ky er ur) (twice (ci *: half_kz kx ky er ur)) = Ok V -> V \in unitmx.
Proof.
move=> en0 un0 h; apply: (V_unit h); rewrite QrefE; apply: unit_scale; first by rewrite invr_eq0.
apply: qmat_unit; first by rewrite mulf_neq0.
move: h => /divcolsP [/twice_neq0 h _] j; have := h j.
rewrite !mxE mulf_eq0 negb_or => /andP[_]; apply: contraNneq => e0.
rewrite [ur * er]mulrC e0; apply/eqP.
have : csqrt 0 == 0 by rewrite csqrt_eq0.
by move/eqP ->; rewrite conjC0.
Qed.

Lemma free_ok kx ky W0 V0 : free_space_eigenmodes kx ky = Ok (W0, V0) ->
  [/\ W0 = 1%:M, V0 \in unitmx, forall j, 1 - kx 0 j ^+ 2 - ky 0 j ^+ 2 != 0 &
   V0 *m diag_mx (twice (ci *: \row_j kz_branch (1 - kx 0 j ^+ 2 - ky 0 j ^+ 2))) = qmat kx ky 1].
Proof.
rewrite /free_space_eigenmodes; cbv zeta.
have -> : block_mx (diag_mx (\row_j (kx 0 j * ky 0 j))) (1%:M - diag_mx (\row_j (kx 0 j ^+ 2)))
    (diag_mx (\row_j (ky 0 j ^+ 2)) - 1%:M) (- diag_mx (\row_j (ky 0 j * kx 0 j))) = qmat kx ky 1.
  by rewrite dgf_scal -!/(dgf _) !dgfB !dgfN.
case hV : (divcols _ _) => [V|//] [<- <-]; have [h1 h2] := (divcolsP _ _ _).1 hV.
have h3 j : 1 - kx 0 j ^+ 2 - ky 0 j ^+ 2 != 0.
  by have := twice_neq0 h1 j; rewrite !mxE mulf_eq0 negb_or kz_branch_eq0 => /andP[].
split=> //; apply: (V_unit hV); apply: qmat_unit => //; exact: oner_neq0.
Qed.

Lemma uniform_ok kx ky er mr W V l : solve_uniform_layer kx ky er mr = Ok (W, V, l) ->
  [/\ er != 0, mr != 0, W = 1%:M,
      l = twof (fun j => ci * kz_branch (mr * er - kx 0 j ^+ 2 - ky 0 j ^+ 2)) &
      (forall j, mr * er - kx 0 j ^+ 2 - ky 0 j ^+ 2 != 0) /\
      V *m diag_mx l = mr^-1 *: qmat kx ky (er * mr)].
Proof.
rewrite /solve_uniform_layer; case: ifP => // /negbT; rewrite negb_or => /andP[en0 mn0].
cbv zeta; rewrite uniform_QE //; set l0 := twice _; case hV : (divcols _ _) => [V'|//] [<- <- <-].
have [h1 h2] := (divcolsP _ _ _).1 hV.
have e : l0 = twof (fun j => ci * kz_branch (mr * er - kx 0 j ^+ 2 - ky 0 j ^+ 2)).
  by rewrite -twiceE; congr twice; apply/rowP => j; rewrite !mxE.
split=> //; split=> // j.
by have := twice_neq0 h1 j; rewrite !mxE mulf_eq0 negb_or kz_branch_eq0 => /andP[].
Qed.

Lemma uniform_V_unit kx ky er mr W V l : solve_uniform_layer kx ky er mr = Ok (W, V, l) -> V \in unitmx.
Proof.
move=> /uniform_ok [en0 mn0 _ _ [h1 h2]].
have : V *m diag_mx l \in unitmx.
  rewrite h2; apply: unit_scale; first by rewrite invr_eq0.
  by apply: qmat_unit => [|j]; [rewrite mulf_neq0 | rewrite mulrC].
by rewrite unitmx_mul => /andP[].
Qed.

(** The second-order eigenproblem P Q W = W Lambda^2 of a uniform medium. *)
Lemma uniform_eigen kx ky er mr W V l : solve_uniform_layer kx ky er mr = Ok (W, V, l) ->
  uniform_P kx ky er mr *m uniform_Q kx ky er mr *m W = W *m diag_mx (map_mx (fun x => x ^+ 2) l) /\
  uniform_Q kx ky er mr *m W = V *m diag_mx l.
Proof.
move=> /uniform_ok [en0 mn0 -> -> [h1 h2]]; rewrite h2 uniform_QE // uniform_PE !mulmx1 mul1mx; split=> //.
rewrite -scalemxAl -scalemxAr (qmat_sqr (kz2 := fun j => er * mr - kx 0 j ^+ 2 - ky 0 j ^+ 2)) // !blk2Z.
have -> : map_mx (fun x => x ^+ 2) (twof (fun j => ci * kz_branch (mr * er - kx 0 j ^+ 2 - ky 0 j ^+ 2)))
  = twof (fun j => - (mr * er - kx 0 j ^+ 2 - ky 0 j ^+ 2)).
  apply/rowP => j; rewrite !mxE; case: split => k; rewrite !mxE expr2 mulrACA ci2 kz_branch_sqr mulN1r //.
have e0 : er <> RtoC 0%Re by exact/eqP.
have m0 : mr <> RtoC 0%Re by exact/eqP.
rewrite blk2_diag; apply: eq_blk2 => j; rewrite ?mulr0 //; cfield; auto.
Qed.

Lemma uniform_V_blk kx ky er mr W V l : solve_uniform_layer kx ky er mr = Ok (W, V, l) ->
  let k j := mr^-1 / (ci * kz_branch (mr * er - kx 0 j ^+ 2 - ky 0 j ^+ 2)) in
  V = blk2 (fun j => k j * (kx 0 j * ky 0 j)) (fun j => k j * (er * mr - kx 0 j ^+ 2))
           (fun j => k j * (ky 0 j ^+ 2 - er * mr)) (fun j => - (k j * (ky 0 j * kx 0 j))).
Proof.
move=> /uniform_ok [en0 mn0 _ hl [h1 h2]] /=.
have ln0 j : ci * kz_branch (mr * er - kx 0 j ^+ 2 - ky 0 j ^+ 2) != 0.
  by rewrite mulf_neq0 // ?ci_neq0 // kz_branch_eq0 h1.
have uD : diag_mx l \in unitmx.
  rewrite hl blk2_diag; apply: blk2_unit => j; rewrite mulr0 subr0; exact: mulf_neq0.
apply: (can_inj (mulmxK uD)); rewrite h2 hl blk2_diag blk2M blk2Z.
apply: eq_blk2 => j; rewrite ?mulr0 ?addr0 ?add0r.
- by rewrite [RHS]mulrAC divfK.
- by rewrite [RHS]mulrAC divfK.
- by rewrite [RHS]mulrAC divfK.
- by rewrite mulrN [RHS]mulNr; congr (- _); rewrite [RHS]mulrAC divfK.
Qed.

Lemma mode_maxwell (kx ky kz er mr sx sy : C) :
  kz != 0 -> er != 0 -> mr != 0 -> kz * kz = mr * er - kx ^+ 2 - ky ^+ 2 ->
  let k := mr^-1 / (ci * kz) in
  let ux := - (k * (kx * ky) * sx + k * (er * mr - kx ^+ 2) * sy) in
  let uy := - (k * (ky ^+ 2 - er * mr) * sx + - (k * (ky * kx)) * sy) in
  let uz := - ci * (kx * sy - ky * sx) / mr in
  let sz := - ci * er^-1 * (kx * uy - ky * ux) in
  maxwell er mr (kx, ky, kz) (sx, sy, sz) (H_of_u (ux, uy, uz)) /\
  sz = - (kx * sx + ky * sy) / kz.
Proof.
move=> z0 e0 m0 hk /=.
have hci : Cmult ci ci = Copp (RtoC 1%Re) by apply: C_ext => /=; ring.
have ee : mr * er = kz * kz + kx ^+ 2 + ky ^+ 2 by rewrite hk; cring.
have e1 : er = (kz * kz + kx ^+ 2 + ky ^+ 2) / mr by rewrite -ee mulrC mulKf.
have z1 := neqC0 z0; have m1 := neqC0 m0; have c1 := neqC0 ci_neq0.
have s1 : Cplus (Cplus (Cmult kz kz) (Cmult kx kx)) (Cmult ky ky) <> RtoC 0%Re.
  move=> h; have : mr * er = 0 by rewrite ee !expr2.
  by move/eqP; rewrite mulf_eq0 (negbTE m0) (negbTE e0).
have s0 : - ci * er^-1 * (kx * - (mr^-1 / (ci * kz) * (ky ^+ 2 - er * mr) * sx + - (mr^-1 / (ci * kz) * (ky * kx)) * sy)
   - ky * - (mr^-1 / (ci * kz) * (kx * ky) * sx + mr^-1 / (ci * kz) * (er * mr - kx ^+ 2) * sy)) = - (kx * sx + ky * sy) / kz.
  by rewrite e1; cfield; auto.
rewrite s0; split=> //; rewrite /maxwell /cross /scale3 /H_of_u /scale3 /vx /vy /vz /= e1; split.
- congr (_, _, _).
  + by toC; field [hci].
  + by toC; field [hci].
  + by toC; field [hci].
- congr (_, _, _).
  + by toC; field [hci].
  + by toC; field [hci].
  + by toC; field [hci].
Qed.

Lemma uniform_mode_maxwell kx ky er mr W V l (c : 'cV[C]_(n + n)) j :
  solve_uniform_layer kx ky er mr = Ok (W, V, l) ->
  let x := lshift n j in let y := rshift n j in
  let kz := - ci * l 0 x in
  (exists sz uz, maxwell er mr (kx 0 j, ky 0 j, kz)
     ((W *m c) x 0, (W *m c) y 0, sz) (H_of_u ((- V *m c) x 0, (- V *m c) y 0, uz))) /\
  (exists sz uz, maxwell er mr (kx 0 j, ky 0 j, - kz)
     ((W *m c) x 0, (W *m c) y 0, sz) (H_of_u ((V *m c) x 0, (V *m c) y 0, uz))).
Proof.
move=> hu; have hV := uniform_V_blk hu; have [en0 mn0 -> hl [h1 _]] := uniform_ok hu.
have hN i : (- V *m c) i 0 = - (V *m c) i 0 by rewrite mulNmx mxE.
cbv zeta; rewrite !hN mul1mx hV /= !blk2_mulL !blk2_mulR.
set z := kz_branch (mr * er - kx 0 j ^+ 2 - ky 0 j ^+ 2).
have -> : - ci * l 0 (lshift n j) = z.
  by rewrite hl row_mxEl mxE mulNr mulrA ci2 mulN1r opprK.
have zn0 : z != 0 by rewrite kz_branch_eq0 h1.
have zz : z * z = mr * er - kx 0 j ^+ 2 - ky 0 j ^+ 2 := kz_branch_sqr _.
move: (c (lshift n j) 0) (c (rshift n j) 0) z zn0 zz => sx sy z zn0 zz {hN}.
split; first by have [mm _] := mode_maxwell sx sy zn0 en0 mn0 zz; do 2 eexists; exact: mm.
have zN : - z != 0 by rewrite oppr_eq0.
have zzN : - z * - z = mr * er - kx 0 j ^+ 2 - ky 0 j ^+ 2 by rewrite mulrNN.
have [mm _] := mode_maxwell sx sy zN en0 mn0 zzN.
have kN : mr^-1 / (ci * - z) = - (mr^-1 / (ci * z)) by rewrite mulrN invrN mulrN.
rewrite kN in mm; move: mm.
set k := mr^-1 / (ci * z).
set ux := - (- k * (kx 0 j * ky 0 j) * sx + _); set uy := - (- k * (ky 0 j ^+ 2 - _) * sx + _) => mm.
have -> : k * (kx 0 j * ky 0 j) * sx + k * (er * mr - kx 0 j ^+ 2) * sy = ux by rewrite /ux; cring.
have -> : k * (ky 0 j ^+ 2 - er * mr) * sx + - (k * (ky 0 j * kx 0 j)) * sy = uy by rewrite /uy; cring.
by do 2 eexists; exact: mm.
Qed.

Lemma csqrt_im_nonpos z : (snd z < 0)%Re -> (snd (csqrt z) <= 0)%Re.
Proof. by rewrite /csqrt /= => h; case: Rlt_dec => h' /=; have := sqrt_pos ((Cmod z - fst z) / 2); lra. Qed.
Lemma csqrt_im_nonneg z : (0 <= snd z)%Re -> (0 <= snd (csqrt z))%Re.
Proof. by rewrite /csqrt /= => h; case: Rlt_dec => h' /=; have := sqrt_pos ((Cmod z - fst z) / 2); lra. Qed.
Lemma csqrt_pos z : snd z = 0%Re -> (0 <= fst z)%Re -> snd (csqrt z) = 0%Re.
Proof.
move=> h0 h1; have e : z = RtoC (fst z) by apply: C_ext.
rewrite /csqrt /= h0 e Cmod_R Rabs_right /=; last lra.
rewrite Rminus_diag_eq // /Rdiv Rmult_0_l sqrt_0; case: Rlt_dec => *; rewrite /=; lra.
Qed.

Lemma kz_branch_passive z : (snd z <= 0)%Re ->
  (0 <= fst (kz_branch z))%Re /\ (snd (kz_branch z) <= 0)%Re.
Proof.
move=> hz; rewrite /kz_branch; case: Rlt_dec => hr; cbn [is_left].
  have h1 := csqrt_re_ge0 (- z); have h2 : (0 <= snd (csqrt (- z)%R))%Re.
    apply: csqrt_im_nonneg; change (0 <= - snd z)%Re; lra.
  move: (csqrt (- z)%R) h1 h2 => w h1 h2; change ((0 <= - (0 * fst w - 1 * snd w))%Re /\ (- (0 * snd w + 1 * fst w) <= 0)%Re); split; lra.
split; first exact: csqrt_re_ge0.
case: (Rle_lt_or_eq_dec _ _ hz) => h; first exact: csqrt_im_nonpos.
by rewrite csqrt_pos; [exact: Rle_refl | | lra].
Qed.
End Uniform.
