(** Examples for C98. *)
From Coq Require Import Reals ZArith Lra Lia String.
From mathcomp Require Import all_ssreflect all_algebra.
From Coquelicot Require Import Complex Rbar.
From Verif Require Import Base CField CFun ModelExpansion ModelFourier ModelDevice ModelFields SpecDevice
  ExpansionProofs ScalarProofs FilmDevice DeviceExamples SpecScale ScaleProofs.
Set Implicit Arguments. Unset Strict Implicit. Unset Printing Implicit Defensive.
Import GRing.Theory.
Local Open Scope ring_scope.

Lemma same_side0 (s : R) : same_side s (0, 0).
Proof.
rewrite /same_side /slower_kp; cbv zeta; cbn [fst snd].
by have -> : RtoC (/ s)%Re * 0 = (0 : C) by apply: C_ext => /=; ring.
Qed.

Lemma scale_film (s : R) eig J1 : (0 < s)%Re -> exists (c0 c : crystal 1) ops sol RT,
  [/\ mk_crystal 1 (1, 1)%N (LatticeName "square") 1 false (RtoC (1 * 1)%Re) (RtoC (2 * 2)%Re) = Ok c0, history eig J1 c0 ops c,
      all_calls (resolved_call s (c_exp c0)) ops, c_solution c = Some sol & same_side s (c_kp c) /\ poynting_flux_end c = Ok RT].
Proof.
move=> hs.
have hp : (1 : C, 0 : C) <> (0, 0) by case=> h; move: h; lra.
have p1 : (0 < 1)%Re by lra.
have p2 : (0 < 2)%Re by lra.
have hw : (0 < fst (RtoC 3))%Re by rewrite /=; lra.
have hw' : (snd (RtoC 3) <= 0)%Re by rewrite /=; lra.
have p0 : (0 <= 1)%Re by lra.
have [e [he _ hpw hg]] := multilayer_exp (RtoC (1 * 1)%Re) (RtoC (2 * 2)%Re).
have [sol [st hS]] := @film_solve eig J1 e hpw hg 1 2 1 1 (RtoC 3) 1 0 p1 p2 hw hw' p0 p1 None None None None.
have hh := @film_setup eig J1 e 1 2 1 1 (RtoC 3) 1 0 p1 p1.
do 2 eexists; exists (film_calls 1 1 (RtoC 3) 1 0 ++ [:: Solve])%SEQ; do 2 eexists; split.
- exact: he.
- by apply: history_cat hh _; apply: history_cons st (history_nil _ _ _).
- by [].
- by [].
- by split; [exact: same_side0|exact: (film_fluxes hpw hg 1 (RtoC 3) p1 p2 p1 hp _ hS erefl erefl)].
Qed.

Lemma resolved_square (b : R) : (1 / 100000000 < b)%Re -> resolved ((b, 0), (0, b))%Re.
Proof.
move=> hb i j hij; cbn [fst snd].
have big (k : Z) : k <> Z0 -> (1 / 100000000 < Rabs (IZR k * b))%Re.
  move=> hk; rewrite Rabs_mult (Rabs_right b); last lra.
  suff : (1 <= Rabs (IZR k))%Re by nra.
  by rewrite -abs_IZR; apply: IZR_le; lia.
rewrite !Rmult_0_r Rplus_0_r Rplus_0_l.
case: (Z.eq_dec i Z0) => [hi|hi]; last by left; apply: big.
by right; apply: big => hj; apply: hij; rewrite hi hj.
Qed.

Lemma scale_disc : exists c0 : crystal 9,
  [/\ mk_crystal 9 (3, 3)%N (LatticeName "square") 1 false 1 1 = Ok c0, has_disc [:: (Disc 0 0 (/ 4), RtoC 12)] &
      resolved_call 1000 (c_exp c0) (AddAnalytical "rods" [:: (Disc 0 0 (/ 4), RtoC 12)] 1 1)].
Proof.
rewrite /mk_crystal /crystal_lattice; cbn [String.eqb Ascii.eqb Bool.eqb bind]; rewrite /mk_expansion /reciproc; cbn [fst snd].
destruct (Req_EM_T (1 * 1 * (1 * 1) - 1 * 0 * (1 * 0)) 0) as [h|h]; first by exfalso; lra.
cbn [bind generate_expansion_indices odd fst snd negb]; eexists; split; [by []|by []|].
cbn [c_exp crystal_of resolved_call]; rewrite /resolved_islands; cbn [e_reciprocal]; rewrite /slower /twopi; cbn [fst snd] => _.
have := PI2_1 => hpi.
have det : (1 * 1 * (1 * 1) - 1 * 0 * (1 * 0) = 1)%Re by ring.
rewrite det; set b := (1 * 1 * (2 * PI / 1))%Re.
have hb : (2 <= b)%Re by rewrite /b /Rdiv Rinv_1; lra.
have z0 : (- (1 * 0) * (2 * PI / 1) = 0)%Re by field.
rewrite z0 Rmult_0_r; split; apply: resolved_square; lra.
Qed.
