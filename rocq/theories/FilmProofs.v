(** Interfaces and films of uniform media in the T-matrix API. *)
From Coq Require Import Reals ZArith Lra Lia.
From mathcomp Require Import all_ssreflect all_algebra.
From Coquelicot Require Import Complex.
From Verif Require Import Base CField CFun ModelRedheffer RedhefferProofs ModelExpansion ModelFourier Blk ModelTmat SpecTmat TmatProofs
  ModelLattice SpecLattice LatticeProofs LookupProofs CurrentProofs TmatExamples TmatTheorems SpecThinFilm SpecFresnel.
Set Implicit Arguments. Unset Strict Implicit. Unset Printing Implicit Defensive.
Import GRing.Theory.
Local Open Scope ring_scope.

(** The algebra of one wave at an interface: [a], [d] come in, [b], [c] go out. *)
Lemma two_neq0 : (2%:R : C) != 0.
Proof. by rewrite -[2%:R]/(1 + 1 : C); apply/eqP => /(congr1 fst) /=; lra. Qed.
Lemma four_2 : (4%:R : C) = (1 + 1) * (1 + 1).
Proof. by rewrite -[4%N]/(2 * 2)%N natrM. Qed.
Ltac ctwo := rewrite ?four_2 -?[2%:R]/(1 + 1 : C) ?expr2.
Section Algebra.
Variables (Z Z' : C).
Hypotheses (z0 : Z <> 0) (zz : Z + Z' <> 0).
Lemma fresnel_out a b c d : a + b = c + d -> Z * (a - b) = Z' * (c - d) ->
  c = fresnel_t Z Z' * a + fresnel_r Z' Z * d /\ b = fresnel_r Z Z' * a + fresnel_t Z' Z * d.
Proof.
move=> h1 h2; have e : c = a + b - d by rewrite h1 addrK.
have zz' : Z' + Z <> 0 by rewrite addrC.
have hb : b * (Z + Z') = (Z - Z') * a + 2%:R * Z' * d.
  have : Z * (a - b) - Z' * (c - d) = 0 by rewrite h2 subrr.
  rewrite e => h; apply: subr0_eq; rewrite -[RHS]oppr0 -h; ctwo; cring.
have hb' : b = fresnel_r Z Z' * a + fresnel_t Z' Z * d.
  apply: (mulIf (x := Z + Z')); first by apply/eqP.
  rewrite hb /fresnel_r /fresnel_t; ctwo; cfield; by [].
split=> //; rewrite e hb' /fresnel_r /fresnel_t; ctwo; cfield; by [].
Qed.
Hypothesis z0' : Z' <> 0.
Lemma film_out a b c d g h g2 h2 phi psi : a + b = g + h -> Z * (a - b) = Z' * (g - h) ->
  psi * phi = 1 -> g = psi * g2 -> h = phi * h2 -> g2 + h2 = c + d -> Z' * (g2 - h2) = Z * (c - d) ->
  let D := (Z + Z') ^+ 2 - (Z - Z') ^+ 2 * phi ^+ 2 in
  D * c = 4%:R * Z * Z' * phi * a + (Z ^+ 2 - Z' ^+ 2) * (1 - phi ^+ 2) * d /\
  D * b = (Z ^+ 2 - Z' ^+ 2) * (1 - phi ^+ 2) * a + 4%:R * Z * Z' * phi * d.
Proof.
move=> h1 k1 pp hg hh h3 k3 D.
have two0 : (1 + 1 : C) <> 0 by apply/eqP; exact: two_neq0.
have ea : (1 + 1) * Z * a = (Z + Z') * g + (Z - Z') * h.
  have -> : (1 + 1) * Z * a = Z * (a + b) + Z * (a - b) by cring.
  by rewrite h1 k1; cring.
have eb : (1 + 1) * Z * b = (Z - Z') * g + (Z + Z') * h.
  have -> : (1 + 1) * Z * b = Z * (a + b) - Z * (a - b) by cring.
  by rewrite h1 k1; cring.
have eg : (1 + 1) * Z' * g2 = (Z' + Z) * c + (Z' - Z) * d.
  have -> : (1 + 1) * Z' * g2 = Z' * (g2 + h2) + Z' * (g2 - h2) by cring.
  by rewrite h3 k3; cring.
have eh : (1 + 1) * Z' * h2 = (Z' - Z) * c + (Z' + Z) * d.
  have -> : (1 + 1) * Z' * h2 = Z' * (g2 + h2) - Z' * (g2 - h2) by cring.
  by rewrite h3 k3; cring.
have pp' : phi * psi = 1 by rewrite mulrC.
have pg : phi * g = g2 by rewrite hg mulrA pp' mul1r.
have dc : D * c = 4%:R * Z * Z' * phi * a + (Z ^+ 2 - Z' ^+ 2) * (1 - phi ^+ 2) * d.
  have -> : 4%:R * Z * Z' * phi * a = (1 + 1) * Z' * phi * ((1 + 1) * Z * a) by ctwo; cring.
  rewrite ea; have -> : (1 + 1) * Z' * phi * ((Z + Z') * g + (Z - Z') * h) =
    (Z + Z') * ((1 + 1) * Z' * (phi * g)) + (Z - Z') * phi * ((1 + 1) * Z' * h) by cring.
  rewrite pg eg hh.
  have -> : (1 + 1) * Z' * (phi * h2) = phi * ((1 + 1) * Z' * h2) by cring.
  by rewrite eh /D; ctwo; cring.
split=> //.
apply: (mulfI (x := (1 + 1) * Z)); first by rewrite mulf_neq0 //; apply/eqP.
have -> : (1 + 1) * Z * (D * b) = D * ((1 + 1) * Z * b) by cring.
rewrite eb; apply: (mulfI (x := (1 + 1) * Z')); first by rewrite mulf_neq0 //; apply/eqP.
have hph : h = phi * h2 by [].
have -> : (1 + 1) * Z' * (D * ((Z - Z') * g + (Z + Z') * h)) = D * ((Z - Z') * (psi * ((1 + 1) * Z' * g2)) + (Z + Z') * (phi * ((1 + 1) * Z' * h2))).
  by rewrite hg hh; cring.
rewrite eg eh.
have -> : (1 + 1) * Z' * ((1 + 1) * Z * ((Z ^+ 2 - Z' ^+ 2) * (1 - phi ^+ 2) * a + 4%:R * Z * Z' * phi * d)) =
  (Z ^+ 2 - Z' ^+ 2) * (1 - phi ^+ 2) * ((Z + Z') * (psi * ((1 + 1) * Z' * g2)) + (Z - Z') * (phi * ((1 + 1) * Z' * h2))) +
  (1 + 1) * Z' * (1 + 1) * Z * (1 + 1) * (1 + 1) * Z * Z' * phi * d.
  transitivity ((Z ^+ 2 - Z' ^+ 2) * (1 - phi ^+ 2) * ((1 + 1) * Z' * ((1 + 1) * Z * a)) + (1 + 1) * Z' * (1 + 1) * Z * (1 + 1) * (1 + 1) * Z * Z' * phi * d); first by ctwo; cring.
  by rewrite ea hg hh; congr (_ + _); ctwo; cring.
rewrite eg eh /D.
have -> : psi = phi^-1 by apply: (mulIf (x := phi)); [apply/eqP => z; move: pp'; rewrite z mul0r => /(congr1 fst) /=; lra|rewrite pp mulVf //; apply/eqP => z; move: pp'; rewrite z mul0r => /(congr1 fst) /=; lra].
have p0 : phi <> 0 by move=> z; move: pp'; rewrite z mul0r => /(congr1 fst) /=; lra.
by ctwo; cfield.
Qed.
Lemma film_airy phi : let D := (Z + Z') ^+ 2 - (Z - Z') ^+ 2 * phi ^+ 2 in D <> 0 ->
  airy_t Z Z' Z phi = 4%:R * Z * Z' * phi / D /\ airy_r Z Z' Z phi = (Z ^+ 2 - Z' ^+ 2) * (1 - phi ^+ 2) / D.
Proof.
move=> D d0; have zz' : Z' + Z <> 0 by rewrite addrC.
have e : 1 + fresnel_r Z Z' * fresnel_r Z' Z * phi ^+ 2 = D / (Z + Z') ^+ 2.
  by rewrite /fresnel_r /D; ctwo; cfield.
have d0' := d0; rewrite /D in d0'; move: d0'; ctwo => d0'.
by split; rewrite /airy_t /airy_r e /D /fresnel_t /fresnel_r; ctwo; cfield; repeat split.
Qed.
End Algebra.

(** One amplitude. *)
Definition single {n} (a : nat) (g0 : 'I_n) : 'cV[C]_((n + n) + (n + n)) :=
  let m b : 'cV[C]_n := \col_g (if (b == a) && (g == g0) then 1 else 0) in
  col_mx (col_mx (m 0%N) (m 1%N)) (col_mx (m 2%N) (m 3%N)).
Lemma singleE n a (g0 : 'I_n) b g : (b < 4)%N -> quarter_of (single a g0) b g 0 = if (b == a) && (g == g0) then 1 else 0.
Proof. by move: b; apply: below4; rewrite /quarter_of /single !(col_mxKu, col_mxKd) mxE. Qed.
Lemma quarter0 n a (g : 'I_n) : (a < 4)%N -> quarter_of (0 : 'cV[C]_((n + n) + (n + n))) a g 0 = 0.
Proof. by move: a; apply: below4; rewrite /quarter_of !mxE. Qed.

(** What comes in and what goes out, as waves on the two sides. *)
Definition left_of {n} (i o : 'cV[C]_((n + n) + (n + n))) := col_mx (usubmx i) (dsubmx o).
Lemma sides n (S : 'M[C]_((n + n) + (n + n))) v : let P := left_of v (S *m v) in let Q := left_of (S *m v) v in
  tscatters S (usubmx P) (dsubmx P) (usubmx Q) (dsubmx Q).
Proof. by rewrite /= /tscatters /left_of !(col_mxKu, col_mxKd) !vsubmxK. Qed.
Lemma left_ofE n (i o : 'cV[C]_((n + n) + (n + n))) g :
  [/\ quarter_of (left_of i o) 0 g 0 = quarter_of i 0 g 0, quarter_of (left_of i o) 1 g 0 = quarter_of i 1 g 0,
      quarter_of (left_of i o) 2 g 0 = quarter_of o 2 g 0 & quarter_of (left_of i o) 3 g 0 = quarter_of o 3 g 0].
Proof. by rewrite /quarter_of /left_of !(col_mxKu, col_mxKd). Qed.
Lemma no_input n (S : 'M[C]_((n + n) + (n + n))) P Q : tscatters S (usubmx P) (dsubmx P) (usubmx Q) (dsubmx Q) ->
  usubmx P = 0 -> dsubmx Q = 0 -> usubmx Q = 0.
Proof.
rewrite /tscatters => h p q; move: h; rewrite p q.
have e0 : (0 : 'cV[C]_((n + n) + (n + n))) = col_mx 0 0 by rewrite col_mx0.
by rewrite -e0 mulmx0 e0 => /eq_col_mx [].
Qed.

Section Interface.
Variables (n : nat) (L : lattice) (wl : R) (kp : vec2) (S : 'M[C]_((n + n) + (n + n))).
Hypothesis hS : scattering_interface n L wl kp = Ok S.
Hypothesis hsq : has_sqrt (l_incid L).
Let ki (g : 'I_n) := compute_kz (l_incid L) wl kp (l_g L g).
Let ke (g : 'I_n) := compute_kz (l_emerg L) wl kp (l_g L g).
Let n1 := cmath_sqrt (l_incid L).
Let n2 := cmath_sqrt (l_emerg L).
Lemma interface_any P Q : tscatters S (usubmx P) (dsubmx P) (usubmx Q) (dsubmx Q) <-> forall g : 'I_n,
  [/\ quarter_of P 0 g 0 + quarter_of P 2 g 0 = quarter_of Q 0 g 0 + quarter_of Q 2 g 0,
      ki g * (quarter_of P 0 g 0 - quarter_of P 2 g 0) = ke g * (quarter_of Q 0 g 0 - quarter_of Q 2 g 0),
      n1 * (quarter_of P 1 g 0 + quarter_of P 3 g 0) = n2 * (quarter_of Q 1 g 0 + quarter_of Q 3 g 0) &
      ki g / n1 * (quarter_of P 1 g 0 - quarter_of P 3 g 0) = ke g / n2 * (quarter_of Q 1 g 0 - quarter_of Q 3 g 0)].
Proof.
move: hS; rewrite /scattering_interface; case hU : (lattice_U _ _ _ _) => [U|//]; cbn [bind].
case hV : (lattice_Ve _ _ _ _) => [V|//]; cbn [bind]; rewrite /interface => hm.
rewrite (matrix_s_meaning _ _ _ _ hm) /transfers !vsubmxK; exact (transfer_fields_any hU hV hsq P Q).
Qed.
Lemma interface_nz : [/\ num_val (l_incid L) != 0, num_val (l_emerg L) != 0 & forall g, ki g != 0].
Proof.
move: hS; rewrite /scattering_interface; case hU : (lattice_U _ _ _ _) => [U|//]; cbn [bind].
case hV : (lattice_Ve _ _ _ _) => [V|//]; cbn [bind] => _.
by have [_ _ e0 k0 _] := lattice_UE hU; have [_ _ e1 _] := lattice_VE hV; split=> // g; exact: k0.
Qed.
Lemma interface_sums (g : 'I_n) : ki g + ke g <> 0 /\ ki g / num_val (l_incid L) + ke g / num_val (l_emerg L) <> 0.
Proof.
have [e1 e2 k0] := interface_nz.
have m1 : n1 != 0 by exact: cmath_sqrt_neq0.
have m2 : n2 != 0 by exact: cmath_sqrt_neq0.
have q1 : n1 * n1 = num_val (l_incid L) by exact: cmath_sqrt2.
have q2 : n2 * n2 = num_val (l_emerg L) by exact: cmath_sqrt2.
have up a : (a < 2)%N -> dsubmx (single a g) = 0.
  by case: a => [|[|//]] _; rewrite /single col_mxKd; apply/colP => i; rewrite mxE; case: splitP => j _; rewrite !mxE.
have dn a : (1 < a)%N -> usubmx (single a g) = 0.
  by case: a => [|[|a]] // _; rewrite /single col_mxKu; apply/colP => i; rewrite mxE; case: splitP => j _; rewrite !mxE.
have one0 : (1 : C) <> 0 by move=> /(congr1 fst) /=; lra.
split=> h.
  have := @no_input n S (single 2 g) (single 0 g) _ (dn 2%N erefl) (up 0%N erefl).
  move=> hc; have {}hc : usubmx (single 0 g) = 0 :> 'cV[C]_(n + n).
    apply: hc; apply/interface_any => g'; rewrite !singleE //=; case: (g' =P g) => [->|_]; rewrite ?(addr0, add0r, subr0, sub0r, mulr0, oppr0, mulr1) //; split=> //.
    by rewrite mulrN mulr1; apply/eqP; rewrite eq_sym -addr_eq0 addrC h.
  have := singleE 0%N g g (erefl : (0 < 4)%N); rewrite /= eqxx /quarter_of hc !mxE => h'; exact: one0 (esym h').
(* p *)
have hp : ki g * n2 / n1 + ke g * n1 / n2 = 0.
  have -> : ki g * n2 / n1 + ke g * n1 / n2 = n1 * n2 * (ki g / num_val (l_incid L) + ke g / num_val (l_emerg L)).
    by rewrite -q1 -q2; move/eqP: m1 => m1; move/eqP: m2 => m2; cfield.
  by rewrite h mulr0.
pose P := n2 *: single 3 g; pose Q := n1 *: single 1 g.
have scE (c : C) (v : 'cV[C]_((n + n) + (n + n))) a (g' : 'I_n) : quarter_of (c *: v) a g' 0 = c * quarter_of v a g' 0.
  by case: a => [|[|[|a]]]; rewrite /quarter_of !linearZ /= mxE.
have hc : usubmx Q = 0.
  apply: (@no_input n S P Q); rewrite /P /Q; [|by rewrite linearZ /= dn ?scaler0|by rewrite linearZ /= up ?scaler0].
  apply/interface_any => g'; rewrite !scE !singleE //=; case: (g' =P g) => [->|_]; rewrite ?(addr0, add0r, subr0, sub0r, mulr0, oppr0, mulr1) //; split=> //.
    by rewrite mulrC.
  apply/eqP; rewrite mulrN eq_sym -addr_eq0 addrC mulrAC [X in _ + X]mulrAC.
  by rewrite hp.
have : quarter_of Q 1 g 0 = n1 by rewrite /Q scE singleE //= eqxx mulr1.
by rewrite /quarter_of hc !mxE => z; rewrite -z eqxx in m1.
Qed.
Lemma interface_fresnel v (g : 'I_n) :
  let a := s_index L (l_incid L) wl kp g in let b := s_index L (l_emerg L) wl kp g in
  let c := p_index L (l_incid L) wl kp g in let d := p_index L (l_emerg L) wl kp g in
  let r := n1 / n2 in
  [/\ a + b <> 0, c + d <> 0 &
  [/\ quarter_of (S *m v) 0 g 0 = fresnel_t a b * quarter_of v 0 g 0 + fresnel_r b a * quarter_of v 2 g 0,
      quarter_of (S *m v) 2 g 0 = fresnel_r a b * quarter_of v 0 g 0 + fresnel_t b a * quarter_of v 2 g 0,
      quarter_of (S *m v) 1 g 0 = r * fresnel_t c d * quarter_of v 1 g 0 + fresnel_r d c * quarter_of v 3 g 0 &
      quarter_of (S *m v) 3 g 0 = fresnel_r c d * quarter_of v 1 g 0 + r^-1 * fresnel_t d c * quarter_of v 3 g 0]].
Proof.
have [e1 e2 k0] := interface_nz; have [h1 h2] := interface_sums g.
have m1 : n1 <> 0 by apply/eqP; exact: cmath_sqrt_neq0.
have m2 : n2 <> 0 by apply/eqP; exact: cmath_sqrt_neq0.
have q1 : n1 * n1 = num_val (l_incid L) by exact: cmath_sqrt2.
have q2 : n2 * n2 = num_val (l_emerg L) by exact: cmath_sqrt2.
move=> a b c d r; split=> //.
have := (interface_any _ _).1 (sides S v) g.
have [-> -> -> ->] := left_ofE v (S *m v) g; have [-> -> -> ->] := left_ofE (S *m v) v g => -[s1 s2 p1 p2].
have [u1 u2] := fresnel_out h1 s1 s2.
have [w1 w2] : n2 / n1 * quarter_of (S *m v) 1 g 0 = fresnel_t c d * quarter_of v 1 g 0 + fresnel_r d c * (n2 / n1 * quarter_of v 3 g 0) /\
  quarter_of (S *m v) 3 g 0 = fresnel_r c d * quarter_of v 1 g 0 + fresnel_t d c * (n2 / n1 * quarter_of v 3 g 0).
  apply: fresnel_out => //.
    apply: (mulfI (x := n1)); first by apply/eqP.
    by rewrite p1; cfield.
  have -> : c * (quarter_of v 1 g 0 - quarter_of (S *m v) 3 g 0) = n1^-1 * (ki g / n1 * (quarter_of v 1 g 0 - quarter_of (S *m v) 3 g 0)).
    by rewrite /c /p_index /kz_of -/(ki g) -q1; cfield.
  by rewrite p2 /d /p_index /kz_of -/(ke g) -q2; cfield.
split=> //.
  apply: (mulfI (x := n2 / n1)); first by rewrite mulf_neq0 ?invr_eq0 //; apply/eqP.
  by rewrite w1 /r; move: (fresnel_t c d) (fresnel_r d c) => X Y; cfield.
by rewrite w2 /r; move: (fresnel_t d c) (fresnel_r c d) => X Y; cfield.
Qed.
End Interface.

(** Uniform layers of any medium. *)
Definition media (L : lattice) (a b : num) : lattice := Lattice (l_pw L) (l_q L) (l_b L) (l_G L) (l_area L) a b.
Lemma media_mk p a1 a2 ei ee L a b : mk_lattice p a1 a2 ei ee = Ok L -> mk_lattice p a1 a2 a b = Ok (media L a b).
Proof.
rewrite /mk_lattice; case: (reciproc a1 a2) => [r|//]; cbn [bind]; case: (grid_size p) => [nq|//]; cbn [bind].
by case: (gvectors _ _ _) => [G|//]; cbn [bind] => -[<-].
Qed.
Lemma kz_halfplane eps wl kp g : (0 <= snd (compute_kz eps wl kp g))%Re /\
  (snd (compute_kz eps wl kp g) = 0%Re -> (0 <= fst (compute_kz eps wl kp g))%Re).
Proof.
rewrite /compute_kz; set z := _ - _; have h0 := csqrt_re_ge0 z; move: (csqrt z) h0 => kz h0.
destruct (Rlt_dec (snd kz) 0) as [h1|h1]; cbn [is_left orb].
  by rewrite -[snd (- kz)]/(- snd kz)%Re; split=> [|h]; lra.
by destruct (Rle_dec (Rabs (snd kz)) (1 / 10 ^ 8)) as [h2|h2]; destruct (Rlt_dec (fst kz) 0) as [h3|h3]; cbn [is_left andb orb]; split=> *; lra.
Qed.
Lemma kz_sum0 eps eps' wl kp g : compute_kz eps wl kp g != 0 -> compute_kz eps wl kp g + compute_kz eps' wl kp g <> 0.
Proof.
move=> h0 h; have [i1 i2] := kz_halfplane eps wl kp g; have [j1 j2] := kz_halfplane eps' wl kp g.
move: h h0 i1 i2 j1 j2; move: (compute_kz eps wl kp g) (compute_kz eps' wl kp g) => a b h /eqP h0 i1 i2 j1 j2.
have e1 := congr1 fst h; have e2 := congr1 snd h; rewrite /= in e1 e2.
have z1 : snd a = 0%Re by lra.
have z2 : snd b = 0%Re by lra.
by apply: h0; apply: C_ext => //=; have := i2 z1; have := j2 z2; lra.
Qed.

Section Film.
Variables (n : nat) (L : lattice) (wl : R) (kp : vec2) (eh : num) (U Vi : 'M[C]_((n + n) + (n + n))).
Let Lih := media L (l_incid L) eh.
Let Lhi := media L eh (l_incid L).
Hypotheses (hU : lattice_U n L wl kp = Ok U) (hVi : lattice_Vi n L wl kp = Ok Vi).
Hypothesis tiny : not_tiny L kp.
Hypotheses (sqi : has_sqrt (l_incid L)) (sqh : has_sqrt eh) (eh0 : num_val eh != 0).
Hypothesis ah : no_anomaly L eh wl kp.
Variable expm : 'M[C]_((n + n) + (n + n)) -> 'M[C]_((n + n) + (n + n)).
Hypothesis hexp : exponential expm.
Let K (g : 'I_n) := compute_kz (l_incid L) wl kp (l_g L g).
Let K' (g : 'I_n) := compute_kz eh wl kp (l_g L g).
Let A := uniform_a n Lhi wl kp.
Lemma film_basis : exists Uh Vh, [/\ lattice_U n Lhi wl kp = Ok Uh, lattice_Vi n Lhi wl kp = Ok Vh, Uh *m Vh = 1%:M &
  forall s, expm (s *: - A) = Vh *m diag_mx (map_mx cexp (waves_row (fun g => - (s * (ci * K' g))))) *m Uh].
Proof.
have [hn w0 e0 k0 _] := lattice_UE hU.
have [Uh hUh] : is_ok (lattice_U n Lhi wl kp) by apply: lattice_U_def.
have [Vh hVh] : is_ok (lattice_Vi n Lhi wl kp) by apply: lattice_V_def.
have UV := lattice_UV hUh hVh; have VU := mulmx1C UV.
exists Uh, Vh; split=> // s; case: hexp => [hconj hdiag].
have AV : A *m Vh = Vh *m waves n Lhi wl kp.
  by apply: uniform_modes => // g; apply: (tiny (g := g)); rewrite -hn.
have -> : s *: - A = Vh *m (s *: - waves n Lhi wl kp) *m Uh.
  by rewrite -scalemxAr -scalemxAl mulmxN mulNmx -AV -mulmxA VU mulmx1.
rewrite hconj // -hdiag wavesE; congr (_ *m expm _ *m _); apply/matrixP => i j; rewrite !mxE.
case: eqP => _; rewrite ?mulr0n ?oppr0 ?mulr0 // !mulr1n.
by rewrite /waves_row; case: splitP => a _; rewrite !mxE; case: splitP => b _; rewrite !mxE ?mulrN ?opprK.
Qed.
Lemma film_sliced d pow S : @sliced_layer C_fieldType (n + n) expm U A Vi (RtoC d) pow = Ok S ->
  matrix_s (U *m expm (RtoC d *: - A) *m Vi) = Ok S.
Proof.
have [Uh [Vh [_ _ UV E]]] := film_basis; apply: sliced_value; first exact: lattice_UV hU hVi.
  exact: two_neq0.
move=> s t; rewrite !E -!mulmxA; congr (_ *m _); rewrite ![in RHS]mulmxA; congr (_ *m _).
rewrite -[diag_mx _ *m Uh *m Vh]mulmxA UV mulmx1 mulmx_diag; congr diag_mx; apply/matrixP => i j; rewrite !mxE.
by rewrite /waves_row; case: splitP => a _; rewrite !mxE; case: splitP => b _; rewrite !mxE -cexpD mulrDl ?opprD ?opprK.
Qed.
Let n1 := cmath_sqrt (l_incid L).
Let n2 := cmath_sqrt eh.
Lemma quarter_diag (r : 'I_n -> C) (f : C -> C) (v : 'cV[C]_((n + n) + (n + n))) g :
  let w := diag_mx (map_mx f (waves_row r)) *m v in
  [/\ quarter_of w 0 g 0 = f (r g) * quarter_of v 0 g 0, quarter_of w 1 g 0 = f (r g) * quarter_of v 1 g 0,
      quarter_of w 2 g 0 = f (- r g) * quarter_of v 2 g 0 & quarter_of w 3 g 0 = f (- r g) * quarter_of v 3 g 0].
Proof.
rewrite /= /waves_row !map_row_mx !diag_mx_row -{1 3 5 7}(vsubmxK v) !mul_block_col !mul0mx addr0 add0r /quarter_of !(col_mxKu, col_mxKd).
rewrite -{1 3}(vsubmxK (usubmx v)) -{1 3}(vsubmxK (dsubmx v)) !mul_block_col !mul0mx !addr0 !add0r !(col_mxKu, col_mxKd).
by split; rewrite mul_diag_mx !mxE.
Qed.
Lemma film_waves d P Q : P = U *m expm (RtoC d *: - A) *m Vi *m Q -> exists G H : 'cV[C]_((n + n) + (n + n)),
  forall g : 'I_n, [/\
  [/\ quarter_of P 0 g 0 + quarter_of P 2 g 0 = quarter_of G 0 g 0 + quarter_of G 2 g 0,
      K g * (quarter_of P 0 g 0 - quarter_of P 2 g 0) = K' g * (quarter_of G 0 g 0 - quarter_of G 2 g 0),
      n1 * (quarter_of P 1 g 0 + quarter_of P 3 g 0) = n2 * (quarter_of G 1 g 0 + quarter_of G 3 g 0) &
      K g / n1 * (quarter_of P 1 g 0 - quarter_of P 3 g 0) = K' g / n2 * (quarter_of G 1 g 0 - quarter_of G 3 g 0)],
  [/\ quarter_of G 0 g 0 = cexp (- (RtoC d * (ci * K' g))) * quarter_of H 0 g 0,
      quarter_of G 1 g 0 = cexp (- (RtoC d * (ci * K' g))) * quarter_of H 1 g 0,
      quarter_of G 2 g 0 = cexp (RtoC d * (ci * K' g)) * quarter_of H 2 g 0 &
      quarter_of G 3 g 0 = cexp (RtoC d * (ci * K' g)) * quarter_of H 3 g 0] &
  [/\ quarter_of H 0 g 0 + quarter_of H 2 g 0 = quarter_of Q 0 g 0 + quarter_of Q 2 g 0,
      K' g * (quarter_of H 0 g 0 - quarter_of H 2 g 0) = K g * (quarter_of Q 0 g 0 - quarter_of Q 2 g 0),
      n2 * (quarter_of H 1 g 0 + quarter_of H 3 g 0) = n1 * (quarter_of Q 1 g 0 + quarter_of Q 3 g 0) &
      K' g / n2 * (quarter_of H 1 g 0 - quarter_of H 3 g 0) = K g / n1 * (quarter_of Q 1 g 0 - quarter_of Q 3 g 0)]].
Proof.
have [Uh [Vh [hUh hVh UV E]]] := film_basis; rewrite E !mulmxA => hP.
pose H := Uh *m Vi *m Q; pose G := diag_mx (map_mx cexp (waves_row (fun g : 'I_n => - (RtoC d * (ci * K' g))))) *m H.
exists G, H => g.
have eP : P = U *m Vh *m G by rewrite hP /G /H !mulmxA.
have h1 := (@transfer_fields_any n Lih wl kp U Vh hU hVh sqi P G).1 eP g.
have h2 := (@transfer_fields_any n Lhi wl kp Uh Vi hUh hVi sqh H Q).1 erefl g.
split=> //.
by have := quarter_diag (fun g : 'I_n => - (RtoC d * (ci * K' g))) cexp H g; rewrite /= opprK.
Qed.
Section Order.
Variables (d : R) (g : 'I_n).
Let a := s_index L (l_incid L) wl kp g.
Let b := s_index L eh wl kp g.
Let c := p_index L (l_incid L) wl kp g.
Let d' := p_index L eh wl kp g.
Let phi := cexp (ci * K' g * RtoC d).
Definition film_D (x y : C) : C := (x + y) ^+ 2 - (x - y) ^+ 2 * phi ^+ 2.
Lemma film_nz : [/\ a <> 0, b <> 0, c <> 0, d' <> 0 & phi <> 0].
Proof.
have [hn w0 e0 k0 _] := lattice_UE hU.
have {}k0 : K g <> 0 by apply/eqP; exact: k0.
have k0' : K' g <> 0 by apply/eqP; apply: kz_neq0; apply: ah; rewrite -hn.
split=> //; [| |by apply/eqP; exact: cexp_neq0].
- by apply/eqP; rewrite /c /p_index mulf_neq0 ?invr_eq0 //; apply/eqP.
- by apply/eqP; rewrite /d' /p_index mulf_neq0 ?invr_eq0 //; apply/eqP.
Qed.
Lemma film_eqs P Q : P = U *m expm (RtoC d *: - A) *m Vi *m Q ->
  [/\ film_D a b * quarter_of Q 0 g 0 = 4%:R * a * b * phi * quarter_of P 0 g 0 + (a ^+ 2 - b ^+ 2) * (1 - phi ^+ 2) * quarter_of Q 2 g 0,
      film_D a b * quarter_of P 2 g 0 = (a ^+ 2 - b ^+ 2) * (1 - phi ^+ 2) * quarter_of P 0 g 0 + 4%:R * a * b * phi * quarter_of Q 2 g 0,
      film_D c d' * quarter_of Q 1 g 0 = 4%:R * c * d' * phi * quarter_of P 1 g 0 + (c ^+ 2 - d' ^+ 2) * (1 - phi ^+ 2) * quarter_of Q 3 g 0 &
      film_D c d' * quarter_of P 3 g 0 = (c ^+ 2 - d' ^+ 2) * (1 - phi ^+ 2) * quarter_of P 1 g 0 + 4%:R * c * d' * phi * quarter_of Q 3 g 0].
Proof.
move=> hPQ; have [hn w0 e0 _ _] := lattice_UE hU; have [k0 k0' c0 d0 p0] := film_nz.
have m1 : n1 <> 0 by apply/eqP; exact: cmath_sqrt_neq0.
have m2 : n2 <> 0 by apply/eqP; exact: cmath_sqrt_neq0.
have q1 : n1 * n1 = num_val (l_incid L) by exact: cmath_sqrt2.
have q2 : n2 * n2 = num_val eh by exact: cmath_sqrt2.
have phiE : cexp (RtoC d * (ci * K' g)) = phi by rewrite mulrC.
pose psi := cexp (- (RtoC d * (ci * K' g))).
have pp : psi * phi = 1 by rewrite /psi -phiE -cexpD addNr cexp0.
have [G [H hGH]] := film_waves hPQ; have := hGH g.
rewrite phiE -/psi => -[[s1 s2 t1 t2] [g0 g1 g2 g3] [s3 s4 t3 t4]].
have [u1 u2] := film_out k0 k0' s1 s2 pp g0 g2 s3 s4.
pose q := n1 / n2; have q0 : q != 0 by rewrite mulf_neq0 ?invr_eq0 //; apply/eqP.
have e1 : q * quarter_of P 1 g 0 + q * quarter_of P 3 g 0 = quarter_of G 1 g 0 + quarter_of G 3 g 0.
  by apply: (mulfI (x := n2)); [apply/eqP|rewrite -t1 /q; cfield].
have e3 : quarter_of H 1 g 0 + quarter_of H 3 g 0 = q * quarter_of Q 1 g 0 + q * quarter_of Q 3 g 0.
  by apply: (mulfI (x := n2)); [apply/eqP|rewrite t3 /q; cfield].
have e2 : c * (q * quarter_of P 1 g 0 - q * quarter_of P 3 g 0) = d' * (quarter_of G 1 g 0 - quarter_of G 3 g 0).
  have -> : d' * (quarter_of G 1 g 0 - quarter_of G 3 g 0) = n2^-1 * (K' g / n2 * (quarter_of G 1 g 0 - quarter_of G 3 g 0)).
    by rewrite /d' /p_index /kz_of -/(K' g) -q2; cfield.
  by rewrite -t2 /c /p_index /kz_of -/(K g) -q1 /q; cfield.
have e4 : d' * (quarter_of H 1 g 0 - quarter_of H 3 g 0) = c * (q * quarter_of Q 1 g 0 - q * quarter_of Q 3 g 0).
  have -> : d' * (quarter_of H 1 g 0 - quarter_of H 3 g 0) = n2^-1 * (K' g / n2 * (quarter_of H 1 g 0 - quarter_of H 3 g 0)).
    by rewrite /d' /p_index /kz_of -/(K' g) -q2; cfield.
  by rewrite t4 /c /p_index /kz_of -/(K g) -q1 /q; cfield.
have [w1 w2] := film_out c0 d0 e1 e2 pp g1 g3 e3 e4.
by split=> //; apply: (mulfI q0); rewrite mulrCA ?/film_D ?w1 ?w2; cring.
Qed.
Lemma film_formula S v : matrix_s (U *m expm (RtoC d *: - A) *m Vi) = Ok S ->
  [/\ quarter_of (S *m v) 0 g 0 = airy_t a b a phi * quarter_of v 0 g 0 + airy_r a b a phi * quarter_of v 2 g 0,
      quarter_of (S *m v) 2 g 0 = airy_r a b a phi * quarter_of v 0 g 0 + airy_t a b a phi * quarter_of v 2 g 0 &
      c + d' <> 0 ->
      quarter_of (S *m v) 1 g 0 = airy_t c d' c phi * quarter_of v 1 g 0 + airy_r c d' c phi * quarter_of v 3 g 0 /\
      quarter_of (S *m v) 3 g 0 = airy_r c d' c phi * quarter_of v 1 g 0 + airy_t c d' c phi * quarter_of v 3 g 0].
Proof.
move=> hm; have [k0 k0' c0 d0 p0] := film_nz.
have ab : a + b <> 0 by apply: kz_sum0; apply/eqP.
have key u : [/\ film_D a b * quarter_of (S *m u) 0 g 0 = 4%:R * a * b * phi * quarter_of u 0 g 0 + (a ^+ 2 - b ^+ 2) * (1 - phi ^+ 2) * quarter_of u 2 g 0,
      film_D a b * quarter_of (S *m u) 2 g 0 = (a ^+ 2 - b ^+ 2) * (1 - phi ^+ 2) * quarter_of u 0 g 0 + 4%:R * a * b * phi * quarter_of u 2 g 0,
      film_D c d' * quarter_of (S *m u) 1 g 0 = 4%:R * c * d' * phi * quarter_of u 1 g 0 + (c ^+ 2 - d' ^+ 2) * (1 - phi ^+ 2) * quarter_of u 3 g 0 &
      film_D c d' * quarter_of (S *m u) 3 g 0 = (c ^+ 2 - d' ^+ 2) * (1 - phi ^+ 2) * quarter_of u 1 g 0 + 4%:R * c * d' * phi * quarter_of u 3 g 0].
  have := sides S u; rewrite /= (matrix_s_meaning _ _ _ _ hm) /transfers !vsubmxK => /film_eqs.
  by have [-> -> -> ->] := left_ofE u (S *m u) g; have [-> -> -> ->] := left_ofE (S *m u) u g.
have four0 : (4%:R : C) != 0 by rewrite four_2 mulf_neq0 //; exact: two_neq0.
have Ds0 : film_D a b <> 0.
  move=> z; have [h _ _ _] := key (single 0 g); move: h; rewrite z mul0r !singleE //= eqxx mulr0 addr0 mulr1 => /esym /eqP.
  by apply/negP; apply: mulf_neq0; [apply: mulf_neq0; [apply: mulf_neq0|]|] => //; apply/eqP.
have Dp0 : film_D c d' <> 0.
  move=> z; have [_ _ h _] := key (single 1 g); move: h; rewrite z mul0r !singleE //= eqxx mulr0 addr0 mulr1 => /esym /eqP.
  by apply/negP; apply: mulf_neq0; [apply: mulf_neq0; [apply: mulf_neq0|]|] => //; apply/eqP.
have [x0 x2 x1 x3] := key v; have [as1 as2] := film_airy ab Ds0.
have dv (D x y : C) : D <> 0 -> D * x = y -> x = y / D by move=> /eqP h <-; rewrite mulrC mulKf.
split.
- by rewrite (dv _ _ _ Ds0 x0) as1 as2; rewrite -/(film_D a b); move: (film_D a b) Ds0 => D hD; cfield.
- by rewrite (dv _ _ _ Ds0 x2) as1 as2; rewrite -/(film_D a b); move: (film_D a b) Ds0 => D hD; cfield.
move=> cd; have [ap1 ap2] := film_airy cd Dp0; split.
- by rewrite (dv _ _ _ Dp0 x1) ap1 ap2; rewrite -/(film_D c d'); move: (film_D c d') Dp0 => D hD; cfield.
- by rewrite (dv _ _ _ Dp0 x3) ap1 ap2; rewrite -/(film_D c d'); move: (film_D c d') Dp0 => D hD; cfield.
Qed.
End Order.
(** The film has a scattering matrix unless light can be trapped in it. *)
Lemma film_def d : (forall g : 'I_n, film_D d g (K g) (K' g) <> 0 /\
    film_D d g (K g / num_val (l_incid L)) (K' g / num_val eh) <> 0) ->
  is_ok (matrix_s (U *m expm (RtoC d *: - A) *m Vi)).
Proof.
move=> h; apply/matrix_s_ok; apply/unitmx_inj => v hv; set T := U *m _ *m Vi in hv *.
pose P := col_mx (0 : 'cV[C]_(n + n)) (mp T *m v); pose Q := col_mx v (0 : 'cV[C]_(n + n)).
have e : P = T *m Q.
  by rewrite /P /Q -{2}(submxK T) mul_block_col !mulmx0 !addr0 -/(pp _) hv.
have q0 a g : (a < 2)%N -> quarter_of P a g 0 = 0.
  by case: a => [|[|//]] _; rewrite /quarter_of /P !(col_mxKu, col_mxKd) !mxE.
have q1 a g : (1 < a < 4)%N -> quarter_of Q a g 0 = 0.
  by case: a => [|[|[|[|//]]]] // _; rewrite /quarter_of /Q !(col_mxKu, col_mxKd) !mxE.
have z g : quarter_of Q 0 g 0 = 0 /\ quarter_of Q 1 g 0 = 0.
  have [h1 _ h2 _] := film_eqs g e; move: h1 h2; rewrite !(q0 0%N) // !(q0 1%N) // !(q1 2%N) // !(q1 3%N) // !mulr0 !addr0.
  by have [/eqP d1 /eqP d2] := h g; move=> /eqP + /eqP; rewrite !mulf_eq0 (negbTE d1) (negbTE d2) => /eqP -> /eqP ->.
rewrite -(vsubmxK v) -(vsubmxK (0 : 'cV[C]_(n + n))).
by congr col_mx; apply/colP => g; have [h1 h2] := z g; move: h1 h2; rewrite /quarter_of /Q !(col_mxKu, col_mxKd) => h1 h2; rewrite ?h1 ?h2 !mxE.
Qed.
End Film.

Lemma V_has_sqrt n L eps wl kp V : lattice_V n L eps wl kp = Ok V -> has_sqrt eps.
Proof.
case/lattice_VE => _ _ _; rewrite /matrix_v; case hs : (np_sqrt _) => [s|//] _.
by move: hs; case: eps => //= x; destruct (Rlt_dec x 0) as [h|h] => // _; lra.
Qed.
Lemma host_neq0 q isl host T : epsilon_g q isl host true = Ok T -> host != 0.
Proof. by rewrite /epsilon_g /mask_trsf; case: eqP => // /eqP. Qed.
(** A layer all of one medium is a film of that medium. *)
Lemma film_layer J1 p a1 a2 ei ee L n expm isl host wl kp d pow S :
  mk_lattice p a1 a2 ei ee = Ok L -> window_fits p -> exponential expm -> not_tiny L kp ->
  map snd isl = nseq (size isl) host -> no_anomaly L (Complex host) wl kp ->
  @scattering_matrix_islands J1 n expm p L isl host wl kp d pow = Ok S ->
  forall v (g : 'I_n), 
  let a := s_index L (l_incid L) wl kp g in let b := s_index L (Complex host) wl kp g in
  let c := p_index L (l_incid L) wl kp g in let d' := p_index L (Complex host) wl kp g in
  let phi := cexp (ci * kz_of L (Complex host) wl kp g * RtoC d) in
  [/\ quarter_of (S *m v) 0 g 0 = airy_t a b a phi * quarter_of v 0 g 0 + airy_r a b a phi * quarter_of v 2 g 0,
      quarter_of (S *m v) 2 g 0 = airy_r a b a phi * quarter_of v 0 g 0 + airy_t a b a phi * quarter_of v 2 g 0 &
      c + d' <> 0 ->
      quarter_of (S *m v) 1 g 0 = airy_t c d' c phi * quarter_of v 1 g 0 + airy_r c d' c phi * quarter_of v 3 g 0 /\
      quarter_of (S *m v) 3 g 0 = airy_r c d' c phi * quarter_of v 1 g 0 + airy_t c d' c phi * quarter_of v 3 g 0].
Proof.
move=> hL hf hexp tiny hm ha; rewrite /scattering_matrix_islands.
have hLh := media_mk (Complex host) (l_incid L) hL; set Lh := media _ _ _ in hLh.
have [_ _ hq _ _] := mk_latticeE hL.
case hg : (grid_size _) => [nq|//]; cbn [bind]; have [_ e] := grid_sizeE hg; have {e} -> : nq.2 = l_q L by rewrite hq e.
case hd : (mapM _ _) => [data|//]; cbn [bind]; have md := data_same hd.
have {}md : map snd data = nseq (size data) host by rewrite md hm -(size_map snd data) md size_map.
case hT : (epsilon_g _ _ _ false) => [T|//]; cbn [bind]; case hTi : (epsilon_g _ _ _ true) => [Ti|//]; cbn [bind].
case hU : (lattice_U _ _ _ _) => [U|//]; cbn [bind]; case hV : (lattice_Vi _ _ _ _) => [V|//]; cbn [bind].
rewrite (window_rows hL).1 (window_cols hL hf).
case hl : (mapM _ _) => [l|//]; cbn [bind]; have sl := coords_standard hl.
case hA : (matrix_a _ _ _ _ _ _ _) => [A|//]; cbn [bind].
have {hA} -> := @matrix_a_uniform p a1 a2 (Complex host) (l_incid L) Lh n l data host T Ti wl kp A hLh hf sl md erefl hT hTi hA.
have h0 := host_neq0 hTi; have sq := V_has_sqrt hV.
move=> /(@film_sliced n L wl kp (Complex host) U V hU hV tiny I h0 ha expm hexp) hS v g.
exact: (@film_formula n L wl kp (Complex host) U V hU hV tiny sq I h0 ha expm hexp d g S v hS).
Qed.

(** Films in which every order propagates, on both sides and inside. *)
Lemma lossless_D (x y : R) (k d : R) : (0 < x)%Re -> (0 < y)%Re ->
  (RtoC x + RtoC y) ^+ 2 - (RtoC x - RtoC y) ^+ 2 * cexp (ci * RtoC k * RtoC d) ^+ 2 <> 0.
Proof.
move=> x0 y0 h; set w := cexp _ in h.
have m : (fst w * fst w + snd w * snd w = 1)%Re.
  rewrite /w /cexp; cbn [fst snd]; have -> : fst (ci * RtoC k * RtoC d) = 0%Re by rewrite /=; ring.
  by rewrite exp_0 !Rmult_1_l; have := sin2_cos2 (snd (ci * RtoC k * RtoC d)); rewrite /Rsqr; lra.
move: h; rewrite !expr2 => /eqP; rewrite subr_eq0 => /eqP; move: w m => [a b] m h; rewrite /= in m.
have h1 := congr1 fst h; rewrite /= in h1.
have e1 : ((x - y) * (x - y) * (a * a - b * b) = (x + y) * (x + y))%Re by lra.
have t1 : (a * a - b * b <= 1)%Re by nra.
have q := @Rmult_le_compat_l ((x - y) * (x - y)) _ _ ltac:(nra) t1.
have xy := Rmult_lt_0_compat _ _ x0 y0; lra.
Qed.
Lemma film_ok J1 p a1 a2 ei ee L n expm r r' wl kp d pow :
  mk_lattice p a1 a2 ei ee = Ok L -> window_fits p -> exponential expm -> not_tiny L kp -> (0 < p.1)%N ->
  n = l_ng L -> wl <> 0%Re -> num_val (l_incid L) = RtoC r -> (0 < r)%Re -> (0 < r')%Re ->
  (forall g, (g < l_ng L)%N -> exists x y, [/\ (0 < x)%Re, (0 < y)%Re, kz_of L (l_incid L) wl kp g = RtoC x &
     kz_of L (Complex (RtoC r')) wl kp g = RtoC y]) ->
  is_ok (@scattering_matrix_islands J1 n expm p L [::] (RtoC r') wl kp d pow).
Proof.
move=> hL hf hexp tiny p0 hn w0 hi r0 r0' hk; rewrite /scattering_matrix_islands.
have [ho _ hq _ _] := mk_latticeE hL; set host := RtoC r'.
have hLh := media_mk (Complex host) (l_incid L) hL; set Lh := media _ _ _ in hLh.
have z0 : num_val (l_incid L) != 0 by rewrite hi; apply/eqP => /(congr1 fst) /=; lra.
have h0 : host != 0 by apply/eqP => /(congr1 fst) /=; lra.
have kz0 eps g : (exists x, (0 < x)%Re /\ kz_of L eps wl kp g = RtoC x) ->
   num_val eps * RtoC ((2 * PI / wl) ^ 2)%Re <> RtoC ((kp.1 + (l_g L g).1) ^ 2 + (kp.2 + (l_g L g).2) ^ 2)%Re.
  move=> [x [x0 hx]] h; have := compute_kz2 eps wl kp (l_g L g); rewrite h subrr -/(kz_of L eps wl kp g) hx => /(congr1 fst) /=; nra.
have ha : no_anomaly L (l_incid L) wl kp by move=> g /hk [x [y [x0 y0 hx hy]]]; apply: kz0; exists x.
have ha' : no_anomaly L (Complex host) wl kp by move=> g /hk [x [y [x0 y0 hx hy]]]; apply: kz0; exists y.
have hs : has_sqrt (l_incid L) by move: hi; case: (l_incid L) => //= x /(congr1 fst) /= ->; lra.
rewrite (grid_size_def ho); cbn [bind mapM snd fst].
have q0 : (qof p.1 %/ 2 < qof p.1)%N by apply: ltn_Pdiv => //; rewrite qofE addn_gt0 p0.
have q0' : (qof p.2 %/ 2 < qof p.2)%N by apply: ltn_Pdiv => //; rewrite qofE addn_gt0 (fits_pos hf p0).
have hT : epsilon_g (qof p.1, qof p.2) [::] host false = Ok (centre_table (qof p.1) (qof p.2) host).
  by rewrite /epsilon_g /= q0 q0'.
have hTi : epsilon_g (qof p.1, qof p.2) [::] host true = Ok (centre_table (qof p.1) (qof p.2) host^-1).
  by rewrite /epsilon_g /mask_trsf (negbTE h0) /= q0 q0'.
rewrite -/(qof p.1) -/(qof p.2) hT hTi; cbn [bind].
have [U hU] := lattice_U_def hn w0 z0 ha; have [V hV] := lattice_V_def kp hn w0 z0 hs.
rewrite hU; cbn [bind]; rewrite /lattice_Vi hV; cbn [bind].
have [l hl] := coords_ok p.1 p.2.
rewrite (window_rows hL).1 (window_cols hL hf) hl; cbn [bind].
have sl := coords_standard hl.
set T := centre_table _ _ _; set Ti := centre_table _ _ _.
have [A hA] : is_ok (matrix_a n l (window L) T Ti wl kp).
  rewrite /matrix_a (window_rows hL).1 (window_cols hL hf); destruct (Req_EM_T wl 0) as [h|h] => //; cbn [is_left].
  rewrite -[w_ng _]/(l_ng L) hn eqxx /=; have wng := window_ng hL hf.
  have [s -> _] := @order_lookupsE p l sl T (l_ng L) erefl erefl wng; cbn [bind].
  by have [s' -> _] := @order_lookupsE p l sl Ti (l_ng L) erefl erefl wng; cbn [bind]; eexists.
rewrite hA; cbn [bind].
have -> : A = uniform_a n Lh wl kp.
  by apply: (@matrix_a_uniform p a1 a2 (Complex host) (l_incid L) Lh n l [::] host T Ti wl kp A) => //; rewrite -[l_q Lh]/(l_q L) hq.
have UV := lattice_UV hU hV.
have [Uh [Vh [_ _ UVh E]]] := @film_basis n L wl kp (Complex host) U hU tiny I h0 ha' expm hexp.
apply/(sliced_defined UV two_neq0) => [s t|j _].
  rewrite !E -!mulmxA; congr (_ *m _); rewrite ![in RHS]mulmxA; congr (_ *m _).
  rewrite -[diag_mx _ *m Uh *m Vh]mulmxA UVh mulmx1 mulmx_diag; congr diag_mx; apply/matrixP => i j; rewrite !mxE.
  by rewrite /waves_row; case: splitP => a _; rewrite !mxE; case: splitP => b _; rewrite !mxE -cexpD mulrDl ?opprD ?opprK.
have [dj ->] : exists dj, RtoC d / 2%:R ^+ j = RtoC dj.
  elim: j => [|j [dj IH]]; first by exists d; rewrite expr0 divr1.
  exists (dj / 2)%Re; rewrite exprSr invfM mulrA IH -[2%:R]/(1 + 1 : C); toC; apply: C_ext => /=; field.
apply: (@film_def n L wl kp (Complex host) U V hU hV tiny hs I h0 ha' expm hexp dj) => g.
have [x [y [x0 y0 hx hy]]] := hk g ltac:(rewrite -hn; exact: ltn_ord).
rewrite /film_D -/(kz_of L (l_incid L) wl kp g) -/(kz_of L (Complex host) wl kp g) hx hy hi; split; first exact: lossless_D.
have -> : RtoC x / RtoC r = RtoC (x / r) by toC; apply: C_ext => /=; field; lra.
have -> : RtoC y / num_val (Complex host) = RtoC (y / r').
  by rewrite /= /host; toC; apply: C_ext => /=; field; lra.
by apply: lossless_D; apply: Rdiv_lt_0_compat.
Qed.

(** A glass film and one order. *)
Lemma glass_film J1 d pow : exists L S, let wl := (2 * PI)%Re in let kp := (0%Re, 0%Re) in
  [/\ mk_lattice (1, 1)%N (1%Re, 0%Re) (0%Re, 1%Re) (Float 1) (Float 1) = Ok L, not_tiny L kp,
      no_anomaly L (Complex (RtoC (16 / 9))) wl kp, exponential (@some_expm ((1 + 1) + (1 + 1))) &
      @scattering_matrix_islands J1 1 (@some_expm ((1 + 1) + (1 + 1))) (1, 1)%N L [::] (RtoC (16 / 9)) wl kp d pow = Ok S].
Proof.
have [L hL] := @mk_lattice_ok (1, 1)%N (Float 1) (Float 1) erefl; exists L.
have p0 := PI_RGT_0; set wl := (2 * PI)%Re; set kp := (0%Re, 0%Re).
have k1 : (2 * PI / wl = 1)%Re by rewrite /wl; field; lra.
have [mi me] := one_media hL; have hi : num_val (l_incid L) = RtoC 1 by rewrite mi.
have [S hS] : is_ok (@scattering_matrix_islands J1 1 (@some_expm ((1 + 1) + (1 + 1))) (1, 1)%N L [::] (RtoC (16 / 9)) wl kp d pow).
  apply: (film_ok (r := 1%Re) _ _ _ hL) => //; try (rewrite /wl; lra).
  - by left.
  - exact: some_expm_exponential.
  - exact: (one_not_tiny hL).
  - by rewrite (one_ng hL).
  move=> g; rewrite (one_ng hL); case: g => // _; exists 1%Re, (4 / 3)%Re; split; try lra.
  - by rewrite /kz_of (one_g hL); apply: (kz_value hi); [lra|rewrite k1 /=; ring].
  - by rewrite /kz_of (one_g hL); apply: (@kz_value (Complex (RtoC (16 / 9))) (16 / 9)%Re) => //; [lra|rewrite k1 /=; field].
exists S; split=> //; [exact: (one_not_tiny hL)| |exact: some_expm_exponential].
by apply: (one_no_anomaly hL (r := (16 / 9)%Re)) => //; rewrite k1 /=; lra.
Qed.

Lemma glass_at_an_angle : exists L S, let wl := (2 * PI)%Re in let kp := ((4 / 5)%Re, 0%Re) in
  [/\ mk_lattice (1, 1)%N (1%Re, 0%Re) (0%Re, 1%Re) (Float 1) (Float (16 / 9)) = Ok L,
      scattering_interface 1 L wl kp = Ok S, has_sqrt (l_incid L) &
      quarter_of (S *m unit_wave) 2 0 0 = RtoC (- 7 / 25)].
Proof.
have [L [S /= [hL hS _ _]]] := @glass_interface ((4 / 5)%Re, 0%Re) (3 / 5)%Re (16 / 15)%Re ltac:(simpl; lra) ltac:(lra) ltac:(simpl; lra) ltac:(lra).
exists L, S => /=; have [mi me] := one_media hL; have sq : has_sqrt (l_incid L) by rewrite mi /=; lra.
split=> //; have := interface_fresnel hS sq unit_wave 0 => -[_ _ [_ -> _ _]].
have p0 := PI_RGT_0; have k1 : (2 * PI / (2 * PI) = 1)%Re by field; lra.
have hi : num_val (l_incid L) = RtoC 1 by rewrite mi.
have he : num_val (l_emerg L) = RtoC (16 / 9) by rewrite me.
have -> : s_index L (l_incid L) (2 * PI) ((4 / 5)%Re, 0%Re) (0 : 'I_1) = RtoC (3 / 5).
  by rewrite /s_index /kz_of (one_g hL); apply: (kz_value hi); [lra|rewrite k1 /=; field].
have -> : s_index L (l_emerg L) (2 * PI) ((4 / 5)%Re, 0%Re) (0 : 'I_1) = RtoC (16 / 15).
  by rewrite /s_index /kz_of (one_g hL); apply: (kz_value he); [lra|rewrite k1 /=; field].
have -> : quarter_of unit_wave 0 (0 : 'I_1) 0 = RtoC 1 by rewrite /quarter_of /unit_wave !(col_mxKu, col_mxKd) mxE.
have -> : quarter_of unit_wave 2 (0 : 'I_1) 0 = RtoC 0 by rewrite /quarter_of /unit_wave !(col_mxKu, col_mxKd) mxE.
by rewrite /fresnel_r /fresnel_t; toC; apply: C_ext => /=; field.
Qed.
