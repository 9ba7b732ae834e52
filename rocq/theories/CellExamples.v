(** The Poynting vector of the map of a plane wave. *)
From Coq Require Import Reals ZArith Lra Lia String.
From mathcomp Require Import all_ssreflect all_algebra.
From Coquelicot Require Import Complex Rbar.
From Verif Require Import Base ZmodTac CField CFun Blk ModelRedheffer SpecScatter ModelLayer SpecLayer LayerProofs
  NormalProofs ModelExpansion SpecExpansion ExpansionProofs ModelFlux SpecFlux ModelFourier SpecFourier FourierProofs
  ModelDevice SpecDevice DeviceProofs FilmDevice DeviceExamples DeviceTheorems ModelFields SpecFields FieldsProofs FieldsTheorems
  SpecPlane ModelVolume SpecCell ObliqueProofs CellProofs EmergenceProofs LayerCProofs RetainProofs LongProofs.
Set Implicit Arguments. Unset Strict Implicit. Unset Printing Implicit Defensive.
Import GRing.Theory.
Local Open Scope ring_scope.

Lemma obl_V (V : 'M[C]_(1 + 1)) : divcols (Qref okx oky 1 1) (twice (ci *: half_kz okx oky 1 1)) = Ok V ->
  [/\ V (lshift 1 0) (lshift 1 0) = 0, V (rshift 1 0) (rshift 1 0) = 0,
      V (lshift 1 0) (rshift 1 0) = - ci * RtoC (4 / 5) & V (rshift 1 0) (lshift 1 0) = ci * RtoC (5 / 4)].
Proof.
rewrite /divcols obl_kz; case: ifP => // _ [<-].
have q : ci * RtoC (4 / 5) != 0 by apply/eqP => /(congr1 snd) /=; lra.
have tl : twice (ci *: (\row_(j < 1) RtoC (4 / 5) : 'rV[C]_1)) 0 (lshift 1 0) = ci * RtoC (4 / 5).
  by rewrite /twice row_mxEl !mxE.
have tr : twice (ci *: (\row_(j < 1) RtoC (4 / 5) : 'rV[C]_1)) 0 (rshift 1 0) = ci * RtoC (4 / 5).
  by rewrite /twice row_mxEr !mxE.
split; rewrite mxE ?tl ?tr /Qref invr1 scale1r.
- by rewrite block_mxEul !mxE big_ord1 !mxE eqxx !mulr1n -[RtoC 0]/(0 : C) mulr0 mul0r.
- by rewrite block_mxEdr mxE !mxE big_ord1 !mxE eqxx !mulr1n -[RtoC 0]/(0 : C) mul0r oppr0 mul0r.
- rewrite block_mxEur !mxE big_ord1 !mxE eqxx !mulr1n; apply: (mulIf q); rewrite divfK //; apply: C_ext => /=; field.
- rewrite block_mxEdl !mxE big_ord1 !mxE eqxx !mulr1n; apply: (mulIf q); rewrite divfK //; apply: C_ext => /=; field.
Qed.

Lemma multilayer_lattice a b e : multilayer 1 a b = Ok (crystal_of 1 e false a b) ->
  mk_expansion (1, 1)%N ((1, 0), (0, 1))%Re = Ok e.
Proof.
rewrite /multilayer /mk_crystal /= !Rmult_1_l ?Rmult_0_r.
case: (mk_expansion _ _) => [e'|//] /=; case: ifP => // _ [->] //.
Qed.

Section Wave.
Variables (eig : forall m, 'M[C]_m -> 'rV[C]_m * 'M[C]_m) (J1 : R -> R).
(** A TM wave in vacuum at kx = 3/5: it carries energy, and the real part of the
    normal component of E x conj(H) of its map is zero everywhere. *)
Lemma oblique_poynting : exists (c0 c c' : crystal 1) ops inc v (E H : R -> R -> C * C * C),
  [/\ created c0 false 1 1, all_calls own_call ops, history eig J1 c0 ops c, step eig J1 c Solve c' & source_fields c' = Ok inc] /\
  [/\ mk_expansion (1, 1)%N ((1, 0), (0, 1))%Re = Ok (c_exp c'), snd (c_kp c').1 = 0%Re & snd (c_kp c').2 = 0%Re] /\
  [/\ fourier_fields c' (-1)%Re inc = Ok v, (forall x y, fields_coords_xy c' x y (-1)%Re None = Ok (E x y, H x y)),
      (0 < plane_flux v.1)%Re & forall x y, fst (poynting_vector (E x y) (H x y)).2 = 0%Re].
Proof.
have [e [he _ hpw hg]] := multilayer_exp 1 1.
have [V hF hV] := obl_modes; have uV := obl_unit hV.
have u1 := @eigenbasis_unit _ 1%:M V (unitmx1 _ _) uV.
have [ef hi he0] := obl_incident.
have hs : source_fields (obl_done e V) = Ok (col_mx ef 0).
  by rewrite /source_fields /= obl_kzi hi.
have ha : solve (layer_eigenbasis_matrix 1%:M V) (col_mx ef 0) = Ok (invmx (layer_eigenbasis_matrix 1%:M V) *m col_mx ef 0).
  by rewrite /solve u1.
have hh := default_half (unitmx1 _ _) uV ha; rewrite invmx1 mul1mx in hh.
set amp := invmx _ *m _ in ha hh.
have z1 : (-1 <= 0)%Re by lra.
have hf := obl_fourier hpw hg hF hV z1 ha; cbv zeta in hf; rewrite hh in hf.
set ph := obl_phase 0 (-1) in hf.
set sv := ph *: (_ *: ef) in hf.
have [v11 v22 v12 v21] := obl_V hV.
pose a := sv (lshift 1 0) 0; pose b := sv (rshift 1 0) 0.
have ux : (- (V *m sv)) (lshift 1 0) 0 = ci * RtoC (4 / 5) * b.
  by rewrite !mxE big_split_ord !big_ord1 /= v11 v12 mul0r add0r; rewrite -/b; cring.
have uy : (- (V *m sv)) (rshift 1 0) 0 = - (ci * RtoC (5 / 4)) * a.
  by rewrite !mxE big_split_ord !big_ord1 /= v21 v22 mul0r addr0; rewrite -/a; cring.
have a0 : a != 0.
  rewrite /a !mxE; apply: mulf_neq0; first by apply: mulf_neq0; exact: cexp_neq0.
  by apply: mulf_neq0; [rewrite invr_eq0 two_neq0|exact/eqP].
have [kz hk] := obl_krows hpw hg.
exists (crystal_of 1 e false 1 1), (obl_crystal e None None None), (obl_done e V), obl_calls, (col_mx ef 0).
eexists; do 2 eexists; split; last split; split.
- exact: multilayer_created he.
- by split=> //; split.
- exact: obl_setup.
- by apply: obl_solve hF hV.
- exact: hs.
- exact: (multilayer_lattice he).
- by [].
- by [].
- exact: hf.
- move=> x y; rewrite /fields_coords_xy hs /= hk /= hf /=; reflexivity.
- rewrite /plane_flux /poynting_z big_ord1 /= col_mxKu col_mxKd ux uy -/a -/b.
  have : (fst a <> 0 \/ snd a <> 0)%Re.
    case: (Req_dec (fst a) 0) => [h1|]; last by left.
    by right=> h2; move/eqP: a0; apply; apply: C_ext.
  by move: a b {a0 ux uy} => [a1 a2] [b1 b2] /=; case=> h; nra.
move=> x y; rewrite /poynting_vector; cbn [fst snd]; rewrite !wl_k0 !scale1r !obl_idft.
have e1 : usubmx (usubmx (col_mx sv (- (V *m sv)))) 0 0 = a by rewrite col_mxKu mxE.
have e2 : dsubmx (usubmx (col_mx sv (- (V *m sv)))) 0 0 = b by rewrite col_mxKu mxE.
have e3 : usubmx (dsubmx (col_mx sv (- (V *m sv)))) 0 0 = ci * RtoC (4 / 5) * b by rewrite col_mxKd mxE ux.
have e4 : dsubmx (dsubmx (col_mx sv (- (V *m sv)))) 0 0 = - (ci * RtoC (5 / 4)) * a by rewrite col_mxKd mxE uy.
rewrite e1 e2 e3 e4; move: (cexp _) a b {a0 ux uy e1 e2 e3 e4} => [w1 w2] [a1 a2] [b1 b2] /=; ring.
Qed.
End Wave.
