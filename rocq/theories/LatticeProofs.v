(** Proofs about the lattice side of the T-matrix API. *)
From Coq Require Import Reals ZArith Lra Lia.
From mathcomp Require Import all_ssreflect all_algebra.
From Coquelicot Require Import Complex.
From Verif Require Import Base CField CFun ModelRedheffer ModelExpansion ModelFourier Blk ModelTmat SpecTmat TmatProofs
  ModelLattice SpecLattice.
Set Implicit Arguments. Unset Strict Implicit. Unset Printing Implicit Defensive.
Import GRing.Theory.
Local Open Scope ring_scope.

Lemma below4 (P : nat -> Prop) : P 0%N -> P 1%N -> P 2%N -> P 3%N -> forall a, (a < 4)%N -> P a.
Proof. by move=> h0 h1 h2 h3 [|[|[|[|a]]]]. Qed.
Lemma eq_quad n (A B : nat -> nat -> 'M[C]_n) :
  (forall a, (a < 4)%N -> forall b, (b < 4)%N -> A a b = B a b) -> quad A = quad B.
Proof. by move=> h; rewrite /quad !h. Qed.
Lemma quadM n (A B : nat -> nat -> 'M[C]_n) : quad A *m quad B =
  quad (fun a b => (A a 0%N *m B 0%N b + A a 1%N *m B 1%N b) + (A a 2%N *m B 2%N b + A a 3%N *m B 3%N b)).
Proof. by rewrite /quad !mulmx_block !add_block_mx. Qed.
Lemma quad_1 n : (1%:M : 'M[C]_((n + n) + (n + n))) = quad (fun a b => if a == b then 1%:M else 0).
Proof.
rewrite /quad /= (scalar_mx_block (n + n) (n + n)) (scalar_mx_block n n).
by rewrite -!block_mx0.
Qed.

Lemma dgf1 n : (1%:M : 'M[C]_n) = dgf (fun _ => 1).
Proof. exact: dgf_scal. Qed.
Lemma dgf0 n : (0 : 'M[C]_n) = dgf (fun _ => 0).
Proof. by rewrite -dgf_scal; apply/matrixP => i j; rewrite !mxE mul0rn. Qed.

Lemma cmath_sqrt2 eps : cmath_sqrt eps * cmath_sqrt eps = num_val eps.
Proof. exact: csqrt_sqr. Qed.
Lemma cmath_sqrt_neq0 eps : num_val eps != 0 -> cmath_sqrt eps != 0.
Proof. by apply: contra_neq => h; rewrite -cmath_sqrt2 h mul0r. Qed.
Lemma np_sqrtE eps s : np_sqrt eps = Ok s -> s = cmath_sqrt eps.
Proof. by case: eps => [r|z] /=; [destruct (Rlt_dec r 0) as [h|h] => //|]; case=> <-. Qed.
Lemma mu0c_neq0 : mu0c <> 0%Re.
Proof. have := PI_RGT_0; rewrite /mu0c /mu0 /light_speed => p; apply: Rgt_not_eq; have : (0 < / 10 ^ 7)%Re by apply: Rinv_0_lt_compat; lra.
by move=> q; apply: Rmult_lt_0_compat; [apply: Rmult_lt_0_compat => //; lra|lra]. Qed.
Lemma udir_unit kp g : ((udir kp g).1 * (udir kp g).1 + (udir kp g).2 * (udir kp g).2 = 1)%Re.
Proof.
rewrite /udir; destruct (Rlt_dec (unorm kp g ^ 2) float_eps) as [h|h] => /=; first by ring.
have e : (unorm kp g * unorm kp g = (uvec kp g).1 ^ 2 + (uvec kp g).2 ^ 2)%Re.
  rewrite /unorm sqrt_sqrt //; nra.
have p : (0 < float_eps)%Re by apply: Rinv_0_lt_compat; apply: pow_lt; lra.
have nz : unorm kp g <> 0%Re by move=> z; rewrite z in h; apply: h; rewrite /=; lra.
rewrite /= in e |- *; field_simplify => //; rewrite /= !Rmult_1_r in e |- *; rewrite e; field.
by rewrite -e => /Rmult_integral; case.
Qed.

Section Basis.
Variables (n : nat) (wavelength : R) (kz : 'I_n -> C) (u : 'I_n -> vec2).
Hypothesis w0 : wavelength <> 0%Re.
Hypothesis u1 : forall g, ((u g).1 * (u g).1 + (u g).2 * (u g).2 = 1)%Re.
Let eta (g : 'I_n) : vec2 := ((u g).2, (- (u g).1)%Re).
Let mu eps (g : 'I_n) : C * C :=
  let f := kz g / (cmath_sqrt eps * RtoC twopi / RtoC wavelength) in (f * RtoC (u g).1, f * RtoC (u g).2).
Lemma UV_id eps U V : matrix_u kz eta (mu eps) eps wavelength = Ok U -> matrix_v eta (mu eps) eps = Ok V ->
  U *m V = 1%:M.
Proof.
rewrite /matrix_u /matrix_v; case: eqP => // /eqP e0; case: ifP => // /negbFE /forallP k0 [<-].
case hs : (np_sqrt eps) => [s|//]; cbn [bind] => -[<-]; rewrite (np_sqrtE hs).
rewrite quadM quad_1; apply: eq_quad.
have s0 := cmath_sqrt_neq0 e0; have m0 := mu0c_neq0; have p0 := PI_RGT_0.
have key g : (RtoC (u g).1 * RtoC (u g).1 = RtoC 1 - RtoC (u g).2 * RtoC (u g).2)%C.
  by apply: C_ext => /=; have := u1 g; lra.
have n1 : RtoC mu0c <> 0 by move=> /(congr1 fst).
have n2 : RtoC wavelength <> 0 by move=> /(congr1 fst).
have n3 : RtoC PI <> 0 by move=> /(congr1 fst) /=; lra.
have n4 : cmath_sqrt eps <> 0 by apply/eqP.
have e5 : RtoC twopi = (1 + 1) * RtoC PI by apply: C_ext; rewrite /= /twopi; ring.
have n6 : (1 + 1 : C) <> 0 by move=> /(congr1 fst) /=; lra.
have k0' g : kz g <> 0 by apply/eqP.
have eta2 g : RtoC (eta g).2 = - RtoC (u g).1 by apply: C_ext => /=; ring.
have eta1 g : RtoC (eta g).1 = RtoC (u g).2 by [].
apply: below4; apply: below4; rewrite /= !dgfM !dgfD ?dgf1 ?dgf0.
all: apply: eq_dgf => g; rewrite /mu /= ?eta1 ?eta2 e5.
all: move: (key g) (k0' g) n1 n2 n3 n4 n6; move: (RtoC (u g).1) (RtoC (u g).2) (kz g) (RtoC mu0c) (RtoC wavelength) (RtoC PI) (cmath_sqrt eps) => X Y k M W P S h h1 h2 h3 h4 h5 h6.
all: by toC; field [h]; repeat split.
Qed.
End Basis.

Lemma unorm2 kp g : (unorm kp g ^ 2 = (uvec kp g).1 ^ 2 + (uvec kp g).2 ^ 2)%Re.
Proof. by rewrite /unorm pow2_sqrt //; nra. Qed.
Lemma compute_kz2 eps wl kp g : compute_kz eps wl kp g * compute_kz eps wl kp g =
  num_val eps * RtoC ((2 * PI / wl) ^ 2)%Re - RtoC ((kp.1 + g.1) ^ 2 + (kp.2 + g.2) ^ 2)%Re.
Proof.
rewrite /compute_kz; set z := num_val eps * _ - _; have -> : z = num_val eps * RtoC ((2 * PI / wl) ^ 2)%Re - RtoC ((kp.1 + g.1) ^ 2 + (kp.2 + g.2) ^ 2)%Re.
  by rewrite /z unorm2.
by case: ifP => _; rewrite ?mulrNN csqrt_sqr.
Qed.
Lemma kz_neq0 eps wl kp g :
  num_val eps * RtoC ((2 * PI / wl) ^ 2)%Re <> RtoC ((kp.1 + g.1) ^ 2 + (kp.2 + g.2) ^ 2)%Re ->
  compute_kz eps wl kp g != 0.
Proof.
move=> h; apply/eqP => z; have := compute_kz2 eps wl kp g; rewrite z mul0r => e.
by apply: h; apply/eqP; rewrite -subr_eq0 -e.
Qed.

Section LatticeBasis.
Variables (n : nat) (L : lattice) (wl : R) (kp : vec2).
Definition muf (eps : num) (g : 'I_n) : C * C :=
  let f := compute_kz eps wl kp (l_g L g) / (cmath_sqrt eps * RtoC twopi / RtoC wl) in
  (f * RtoC (udir kp (l_g L g)).1, f * RtoC (udir kp (l_g L g)).2).
Lemma window_muE eps m : @window_mu n L eps wl kp = Ok m ->
  num_val eps != 0 /\ m = muf eps.
Proof.
by rewrite /window_mu /compute_mu; case: eqP => // /eqP e0 [<-].
Qed.
Definition kzf (eps : num) (g : 'I_n) : C := compute_kz eps wl kp (l_g L g).
Definition etaf (g : 'I_n) : vec2 := compute_eta kp (l_g L g).
Lemma lattice_UE U : lattice_U n L wl kp = Ok U ->
  [/\ n = l_ng L, wl <> 0%Re, num_val (l_incid L) != 0, (forall g, kzf (l_incid L) g != 0) &
      matrix_u (kzf (l_incid L)) etaf (muf (l_incid L)) (l_incid L) wl = Ok U].
Proof.
rewrite /lattice_U; case: eqP => // hn; destruct (Req_EM_T wl 0) as [h|h] => //.
case hm : (window_mu _ _ _ _) => [m|//]; cbn [bind]; have [e0 ->] := window_muE hm => hu.
split=> //; move: (hu); rewrite /matrix_u; case: eqP => // _; case: ifP => // /negbFE /forallP k0 _; exact: k0.
Qed.
Lemma lattice_VE eps V : lattice_V n L eps wl kp = Ok V ->
  [/\ n = l_ng L, wl <> 0%Re, num_val eps != 0 & matrix_v etaf (muf eps) eps = Ok V].
Proof.
rewrite /lattice_V; case: eqP => // hn; destruct (Req_EM_T wl 0) as [h|h] => //.
by case hm : (window_mu _ _ _ _) => [m|//]; cbn [bind]; have [e0 ->] := window_muE hm => hu.
Qed.
Lemma lattice_UV U V : lattice_U n L wl kp = Ok U -> lattice_Vi n L wl kp = Ok V -> U *m V = 1%:M.
Proof.
case/lattice_UE => hn w0 e0 k0 hu /lattice_VE [_ _ _ hv].
exact: (UV_id w0 (fun g => udir_unit kp (l_g L g)) hu hv).
Qed.
Lemma lattice_U_def : n = l_ng L -> wl <> 0%Re -> num_val (l_incid L) != 0 -> no_anomaly L (l_incid L) wl kp ->
  is_ok (lattice_U n L wl kp).
Proof.
move=> hn w0 e0 ha; rewrite /lattice_U hn eqxx; destruct (Req_EM_T wl 0) as [h|h] => //=.
rewrite /window_mu (negbTE e0) /= /matrix_u (negbTE e0).
case: ifP => [/negP h2|_]; last by eexists.
by case: h2; apply/forallP => g; apply: kz_neq0; apply: ha.
Qed.
Lemma lattice_V_def eps : n = l_ng L -> wl <> 0%Re -> num_val eps != 0 -> has_sqrt eps ->
  is_ok (lattice_V n L eps wl kp).
Proof.
move=> hn w0 e0 hs; rewrite /lattice_V hn eqxx; destruct (Req_EM_T wl 0) as [h|h] => //=.
rewrite /window_mu (negbTE e0) /= /matrix_v /np_sqrt.
case: eps e0 hs => [r|z] e0 hs; cbn [bind]; last by eexists.
rewrite /= in hs; destruct (Rlt_dec r 0) as [h2|h2]; first by exfalso; lra.
by cbn [bind]; eexists.
Qed.
Lemma equal_media S : l_emerg L = l_incid L -> scattering_interface n L wl kp = Ok S -> S = 1%:M.
Proof.
move=> e; rewrite /scattering_interface /interface; case hu : (lattice_U _ _ _ _) => [U|//]; cbn [bind].
case hv : (lattice_Ve _ _ _ _) => [V|//]; cbn [bind].
rewrite (lattice_UV hu); first by rewrite matrix_s1 => -[].
by move: hv; rewrite /lattice_Ve /lattice_Vi e.
Qed.
Lemma equal_media_def : l_emerg L = l_incid L -> n = l_ng L -> wl <> 0%Re -> num_val (l_incid L) != 0 ->
  has_sqrt (l_incid L) -> no_anomaly L (l_incid L) wl kp -> scattering_interface n L wl kp = Ok 1%:M.
Proof.
move=> e hn w0 e0 hs ha; have [U hu] := lattice_U_def hn w0 e0 ha; have [V hv] := lattice_V_def hn w0 e0 hs.
rewrite /scattering_interface hu; cbn [bind]; rewrite /lattice_Ve e hv; cbn [bind].
by rewrite /interface (lattice_UV hu hv) matrix_s1.
Qed.
End LatticeBasis.

Ltac nlia := repeat match goal with
  | H : is_true (leq _ _) |- _ => move/leP: H => H
  | H : context [addn] |- _ => rewrite -!plusE in H
  | H : context [muln] |- _ => rewrite -!multE in H
  | H : context [subn] |- _ => rewrite -!minusE in H
  end; rewrite -?plusE -?multE -?minusE; try apply/leP; lia.
(** The window. *)
Lemma half_odd p : odd p -> ((p - 1) %/ 2 = p %/ 2)%N.
Proof.
move=> op; have e := odd_double_half p; rewrite op in e.
by rewrite !divn2 -{1}e add1n subn1 /= doubleK.
Qed.
Lemma center_half q : (if odd q then (q - 1) %/ 2 else q %/ 2)%N = (q %/ 2)%N.
Proof. by case: ifP => // /half_odd. Qed.
Lemma grid_centerE s c : grid_center s = Ok c -> c = (s.1 %/ 2, s.2 %/ 2)%N.
Proof.
rewrite /grid_center; case: eqP => // h; case: ifP => o [<-] //.
by rewrite !half_odd // -?h.
Qed.
Lemma grid_sizeE p nq : grid_size p = Ok nq ->
  odd p.1 = odd p.2 /\ nq = ((p.1 %/ 2, p.2 %/ 2), (4 * (p.1 %/ 2) + odd p.1, 4 * (p.2 %/ 2) + odd p.2))%N.
Proof.
rewrite /grid_size; case: eqP => // h; case: ifP => o [<-]; rewrite -h o /= ?addn0 //.
by rewrite !half_odd // -?h.
Qed.
Lemma odd4 k (b : bool) : odd (4 * k + b) = b.
Proof. by rewrite oddD oddM /= oddb. Qed.
Lemma div4_2 k (b : bool) : ((4 * k + b) %/ 2 = 2 * k)%N.
Proof. by rewrite -[4%N]/(2 * 2)%N -mulnA mulnC divnMDl // [(b %/ 2)%N]divn_small ?addn0 //; case: b. Qed.
Lemma grid_size_def p : odd p.1 = odd p.2 ->
  grid_size p = Ok ((p.1 %/ 2, p.2 %/ 2), (4 * (p.1 %/ 2) + odd p.1, 4 * (p.2 %/ 2) + odd p.2))%N.
Proof.
move=> h; rewrite /grid_size h eqxx /=; case: ifP => o; rewrite ?addn0 //.
by rewrite !half_odd // h.
Qed.
Section Lat.
Variables (p : nat * nat) (a1 a2 : vec2) (ei ee : num) (L : lattice).
Hypothesis hL : mk_lattice p a1 a2 ei ee = Ok L.
Definition qof (k : nat) : nat := (4 * (k %/ 2) + odd k)%N.
Lemma mk_latticeE : [/\ odd p.1 = odd p.2, l_pw L = p, l_q L = (qof p.1, qof p.2), reciproc a1 a2 = Ok (l_b L) &
  [/\ l_incid L = ei, l_emerg L = ee, l_area L = unitcellarea a1 a2, (w_rows (l_G L), w_cols (l_G L)) = l_q L &
  forall i j, w_at (l_G L) i j = order_vector (l_b L)
     (Z.sub (Z.of_nat i) (Z.of_nat (2 * (p.1 %/ 2)))) (Z.sub (Z.of_nat j) (Z.of_nat (2 * (p.2 %/ 2))))]].
Proof.
move: hL; rewrite /mk_lattice; case hb : (reciproc a1 a2) => [b|//]; cbn [bind].
case hq : (grid_size p) => [nq|//]; cbn [bind]; have [ho ->] := grid_sizeE hq; rewrite /gvectors.
case hc : (grid_center _) => [c|//]; cbn [bind] => -[<-]; rewrite /= (grid_centerE hc) /= !div4_2.
by split=> //; split=> // i j; rewrite /order_vector; f_equal; ring.
Qed.
Lemma qofE k : (qof k = k + 2 * (k %/ 2))%N.
Proof. by have := divn_eq k 2; rewrite modn2 /qof; move: (k %/ 2)%N (nat_of_bool (odd k)) => h b ->; nlia. Qed.
Lemma quarterE k : quarter (qof k) = (k %/ 2)%N.
Proof.
rewrite /quarter odd4; case o : (odd k); rewrite /qof o /= ?addn0 ?addnK mulnC mulnK //.
Qed.
Lemma window_rows : w_rows (window L) = p.1 /\ forall i j, (window L).(w_at) i j =
  w_at (l_G L) (p.1 %/ 2 + i) (minn (p.2 %/ 2) (qof p.2) + j).
Proof.
have [_ _ hq _ _] := mk_latticeE; rewrite /window hq /= !quarterE /py_slice.
have ge1 : (p.1 %/ 2 <= qof p.1)%N by rewrite qofE mul2n -addnn !addnA leq_addl.
case: Z.ltb_spec => h; first by exfalso; move/leP: ge1; lia.
rewrite (minn_idPl ge1) /= -Nat2Z.inj_sub; last by apply/leP.
rewrite Nat2Z.id; split=> //.
have -> : (qof p.1 - p.1 %/ 2)%coq_nat = (qof p.1 - p.1 %/ 2)%N by [].
by rewrite (minn_idPl (leq_subr _ _)) qofE; nlia.
Qed.
(** Columns. *)
Lemma window_colsE : w_cols (window L) =
  (if (p.2 %/ 2 <= qof p.1)%N then minn (qof p.1 - p.2 %/ 2) (qof p.2) - p.2 %/ 2
   else minn (qof p.1 + qof p.2 - p.2 %/ 2) (qof p.2) - p.2 %/ 2)%N.
Proof.
have [_ _ hq _ _] := mk_latticeE; rewrite /window hq /= !quarterE /py_slice.
have ge2 : (p.2 %/ 2 <= qof p.2)%N by rewrite qofE mul2n -addnn !addnA leq_addl.
have ge3 : (p.2 %/ 2 <= qof p.1 + qof p.2)%N by apply: leq_trans ge2 (leq_addl _ _).
rewrite (minn_idPl ge2); case: leqP => h1; case: Z.ltb_spec => h2.
- by exfalso; move/leP: h1; lia.
- by rewrite -Nat2Z.inj_sub ?Nat2Z.id //; apply/leP.
- rewrite (_ : Z.add _ _ = Z.sub (Z.of_nat (qof p.1 + qof p.2)) (Z.of_nat (p.2 %/ 2))); last by nlia.
  by rewrite -Nat2Z.inj_sub ?Nat2Z.id //; apply/leP.
- by exfalso; move/ltP: h1; lia.
Qed.
Lemma qof_inj : injective qof.
Proof.
move=> a b; rewrite /qof; have := divn_eq a 2; have := divn_eq b 2; rewrite !modn2.
by case: (odd a); case: (odd b); rewrite /=; move: (a %/ 2)%N (b %/ 2)%N => x y -> -> e; nlia.
Qed.
Lemma window_cols : window_fits p -> w_cols (window L) = p.2.
Proof.
have [ho _ _ _ _] := mk_latticeE; rewrite window_colsE; have e1 := qofE p.1; case=> h.
  rewrite h; rewrite ifT; last by move: e1; move: (qof p.1) (p.1 %/ 2)%N => *; nlia.
  by rewrite (minn_idPl (leq_subr _ _)); move: e1; move: (qof p.1) (p.1 %/ 2)%N => *; nlia.
have p1 : (0 < p.1)%N by move: ho; rewrite h; case: (p.1).
rewrite h /=; have -> : qof 1 = 1%N by [].
rewrite divn_small // !subn0; apply: (minn_idPr _); rewrite e1; exact: leq_trans p1 (leq_addr _ _).
Qed.
Lemma window_cols_iff : (0 < p.1)%N -> (0 < p.2)%N -> (w_cols (window L) = p.2 <-> window_fits p).
Proof.
move=> p1 p2; have [ho _ _ _ _] := mk_latticeE; rewrite window_colsE.
have e2 := qofE p.2; have e1 := qofE p.1; rewrite /window_fits.
have d2 := divn_eq p.2 2; rewrite modn2 in d2; have b2 : (nat_of_bool (odd p.2) <= 1)%N by case: odd.
split=> [|[h|h]].
- case: leqP => h1 h.
    have [le|gt] := leqP (qof p.1 - p.2 %/ 2)%N (qof p.2).
      rewrite (minn_idPl le) in h; left; symmetry; apply: qof_inj.
      by move: h h1 le e2; move: (qof p.1) (qof p.2) (p.2 %/ 2)%N p2 => *; nlia.
    rewrite (minn_idPr (ltnW gt)) in h; right.
    by move: h e2 d2 b2; move: (qof p.2) (p.2 %/ 2)%N (nat_of_bool (odd p.2)) p2 => *; nlia.
  rewrite (minn_idPl _) in h; last by move: h1; move: (qof p.1) (qof p.2) (p.2 %/ 2)%N => *; nlia.
  by exfalso; move: h h1 e2 e1 p1; move: (qof p.1) (qof p.2) (p.2 %/ 2)%N (p.1 %/ 2)%N => *; nlia.
- by rewrite -window_colsE window_cols //; left.
- by rewrite -window_colsE window_cols //; right.
Qed.
Hypothesis hf : window_fits p.
Lemma fits_pos : (0 < p.1)%N -> (0 < p.2)%N.
Proof. by case: hf => ->. Qed.
Lemma window_at i j : w_at (window L) i j = order_vector (l_b L)
  (Z.sub (Z.of_nat i) (Z.of_nat (p.1 %/ 2))) (Z.sub (Z.of_nat j) (Z.of_nat (p.2 %/ 2))).
Proof.
have [_ ->] := window_rows; have [_ _ _ _ [_ _ _ _ ->]] := mk_latticeE.
have ge1 : (p.2 %/ 2 <= qof p.2)%N by rewrite qofE mul2n -addnn !addnA leq_addl.
rewrite (minn_idPl ge1) /order_vector; move: (p.1 %/ 2)%N (p.2 %/ 2)%N => h h'.
by congr (_, _); congr (_ * _ + _ * _)%Re; congr IZR; nlia.
Qed.
Lemma window_ng : l_ng L = (p.1 * p.2)%N.
Proof. by rewrite /l_ng /w_ng window_cols // window_rows.1. Qed.
(** The zero order is the one [incident] excites. *)
Lemma window_zero : (0 < p.1)%N -> l_g L (p.1 %/ 2 + p.1 * (p.2 %/ 2)) = (0%Re, 0%Re).
Proof.
move=> p0; have lt : (p.1 %/ 2 < p.1)%N by apply: ltn_Pdiv.
rewrite /l_g /w_flat window_rows.1 window_at; set h' := (p.1 %/ 2)%N in lt *; set h2 := (p.2 %/ 2)%N.
have -> : ((h' + p.1 * h2) %% p.1 = h')%N by rewrite addnC mulnC modnMDl modn_small.
have -> : ((h' + p.1 * h2) %/ p.1 = h2)%N by rewrite addnC mulnC divnMDl // divn_small ?addn0.
by rewrite !Z.sub_diag /order_vector; congr (_, _); ring.
Qed.
Lemma window_zero_lt : (0 < p.1)%N -> (p.1 %/ 2 + p.1 * (p.2 %/ 2) < l_ng L)%N.
Proof.
move=> p0; rewrite window_ng; have lt : (p.1 %/ 2 < p.1)%N by apply: ltn_Pdiv.
have lt2 : (p.2 %/ 2 < p.2)%N by apply: ltn_Pdiv => //; exact: fits_pos.
by apply: leq_trans (_ : (p.1 + p.1 * (p.2 %/ 2) <= _)%N); [rewrite -addSn leq_add2r|rewrite -mulnS leq_mul2l lt2 orbT].
Qed.
End Lat.
