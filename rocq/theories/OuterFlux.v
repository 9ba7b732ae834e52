(** The flux through the two half spaces in terms of the code's flux formula,
    and the energy balance of the whole device. *)
From Coq Require Import Reals Lra.
From mathcomp Require Import all_ssreflect all_algebra.
From Coquelicot Require Import Complex.
From Verif Require Import Base ZmodTac CField CFun SpecMaxwell SpecScatter SpecLayer SpecEnergy EnergyAlg
  ModelRedheffer ModelLayer ModelExpansion ModelFlux SpecFlux SpecExpansion Blk UniformProofs
  NormalProofs ExpansionProofs FluxProofs IncidentProofs.
Set Implicit Arguments. Unset Strict Implicit. Unset Printing Implicit Defensive.
Import GRing.Theory.
Local Open Scope ring_scope.

(** What the flux formula sums for one order. *)
Definition ordE (kx ky kz sx sy : C) : R :=
  (abs2 sx + abs2 sy + abs2 ((- (kx * sx + ky * sy) / kz)%R))%Re.

Lemma ordE0 kx ky kz : ordE kx ky kz 0 0 = 0 :> R.
Proof. by rewrite /ordE !mulr0 addr0 oppr0 mul0r /abs2 /=; rring. Qed.

Definition ordS (kx ky kz er ax ay bx by' : C) : R :=
  let k := 1 / (ci * kz) in
  fst ((ax + bx) * Cconj (ci * (k * (ky ^+ 2 - er) * (bx - ax) + - (k * (ky * kx)) * (by' - ay)))
     - (ay + by') * Cconj (ci * (k * (kx * ky) * (bx - ax) + k * (er - kx ^+ 2) * (by' - ay)))).

Lemma ci_div (kz : C) : kz != 0 -> ci * (1 / (ci * kz)) = kz^-1.
Proof. by move=> h; rewrite div1r invfM mulrA mulfV ?mul1r // ci_neq0. Qed.

Lemma ordS_eq kx ky kz er ax ay bx by' : kz != 0 -> er = kz * kz + kx ^+ 2 + ky ^+ 2 ->
  ordS kx ky kz er ax ay bx by' =
  (- fst (((ax + bx) * Cconj ((kz * kz * (bx - ax) + kx * (kx * (bx - ax) + ky * (by' - ay))) / kz)
     + (ay + by') * Cconj ((kz * kz * (by' - ay) + ky * (kx * (bx - ax) + ky * (by' - ay))) / kz))%R))%Re.
Proof.
move=> h he; rewrite /ordS.
have hk := ci_div h; move: (1 / (ci * kz)) hk => k hk.
have -> : ci * (k * (ky ^+ 2 - er) * (bx - ax) + - (k * (ky * kx)) * (by' - ay))
  = - ((kz * kz * (bx - ax) + kx * (kx * (bx - ax) + ky * (by' - ay))) / kz).
  by rewrite -hk he; cring.
have -> : ci * (k * (kx * ky) * (bx - ax) + k * (er - kx ^+ 2) * (by' - ay))
  = (kz * kz * (by' - ay) + ky * (kx * (bx - ax) + ky * (by' - ay))) / kz.
  by rewrite -hk he; cring.
rewrite conjCN; move: (Cconj _) (Cconj _) => u v; rewrite /=; ring.
Qed.

Lemma ordS_val (kx ky er : R) (kz ax ay bx by' : C) : kz != 0 ->
  RtoC er = kz * kz + RtoC kx ^+ 2 + RtoC ky ^+ 2 ->
  snd kz = 0%Re \/ fst kz = 0%Re /\ ((ax = 0 /\ ay = 0) \/ (bx = 0 /\ by' = 0)) ->
  ordS (RtoC kx) (RtoC ky) kz (RtoC er) ax ay bx by' =
  (fst kz * (ordE (RtoC kx) (RtoC ky) kz ax ay - ordE (RtoC kx) (RtoC ky) kz bx by'))%Re.
Proof.
move=> h he hc; rewrite (ordS_eq _ _ _ _ h he).
move/eqP: h; case: kz he hc => q r he hc h.
case: ax ay bx by' hc => a1 a2 [a3 a4] [b1 b2] [b3 b4] hc.
rewrite /ordE /abs2.
case: hc => [/= r0|[/= q0 hab]]; subst.
  have q0 : q <> 0%Re by move=> q0; apply: h; rewrite q0.
  by field; nra.
have r0 : r <> 0%Re by move=> q0; apply: h; rewrite q0.
rewrite Rmult_0_l.
case: hab => [[/(congr1 (fun z => (fst z, snd z))) [-> ->] /(congr1 (fun z => (fst z, snd z))) [-> ->]]
  |[/(congr1 (fun z => (fst z, snd z))) [-> ->] /(congr1 (fun z => (fst z, snd z))) [-> ->]]];
  by rewrite /=; field; nra.
Qed.

Section Outer.
Variable n : nat.
Implicit Types (kx ky : 'rV[C]_n) (a b : 'cV[C]_(n + n)).

Lemma half_V_blk kx ky er V :
  divcols (Qref kx ky er 1) (twice (ci *: half_kz kx ky er 1)) = Ok V ->
  let kz := half_kz kx ky er 1 in
  (forall j, kz 0 j != 0) /\
  let k j := 1 / (ci * kz 0 j) in
  V = blk2 (fun j => k j * (kx 0 j * ky 0 j)) (fun j => k j * (er - kx 0 j ^+ 2))
           (fun j => k j * (ky 0 j ^+ 2 - er)) (fun j => - (k j * (ky 0 j * kx 0 j))).
Proof.
move=> /divcolsP [/twice_neq0 h1 h2] kz.
have hz j : kz 0 j != 0 by have := h1 j; rewrite mxE mulf_eq0 negb_or => /andP[].
split=> // k.
have e : twice (ci *: kz) = twof (fun j => ci * kz 0 j).
  by rewrite /twice /twof; congr row_mx; apply/rowP => j; rewrite !mxE.
have ul : diag_mx (twice (ci *: kz)) \in unitmx.
  rewrite unitmxE det_diag unitfE; apply/prodf_neq0 => j _; apply: twice_neq0E => i.
  by rewrite mxE mulf_neq0 ?ci_neq0.
apply: (can_inj (mulmxK ul)); rewrite h2 QrefE invr1 scale1r mulr1 e blk2_diag blk2M /qmat.
have hk j : k j * (ci * kz 0 j) = 1 by rewrite /k div1r mulVf // mulf_neq0 ?ci_neq0.
by apply: eq_blk2 => j; rewrite !mulr0 ?addr0 ?add0r ?mulNr mulrAC hk mul1r.
Qed.

Lemma half_flux kx ky er V a b :
  divcols (Qref kx ky er 1) (twice (ci *: half_kz kx ky er 1)) = Ok V ->
  port_flux 1%:M V a b = \sum_j ordS (kx 0 j) (ky 0 j) (half_kz kx ky er 1 0 j) er
     (a (lshift n j) 0) (a (rshift n j) 0) (b (lshift n j) 0) (b (rshift n j) 0).
Proof.
move=> /half_V_blk [_ ->]; rewrite /port_flux /poynting_z /tangential /= mul1mx.
apply: eq_bigr => j _; rewrite /ordS blk2_mulL blk2_mulR.
by rewrite (mxE addmx_key _ (lshift n j)) (mxE addmx_key _ (rshift n j)) !entD !entN.
Qed.

(** Real permittivity and real k: kz is real or purely imaginary. *)
Lemma half_kz_cases kx ky (er : R) j : real_row kx -> real_row ky ->
  let z := half_kz kx ky (RtoC er) 1 0 j in
  (snd z = 0%Re \/ fst z = 0%Re) /\ RtoC er = z * z + kx 0 j ^+ 2 + ky 0 j ^+ 2.
Proof.
move=> hx hy z.
have ez : z = Cconj (csqrt (RtoC (er - fst (kx 0%R j) * fst (kx 0%R j) - fst (ky 0%R j) * fst (ky 0%R j))%Re)).
  by rewrite /z mxE mul1r !real_sqr // !RtoC_minus.
split.
  rewrite ez; set w := (_ - _)%Re; case: (Rle_dec 0 w) => hw.
    by left; rewrite csqrt_pos //=; ring.
  by right; rewrite csqrt_negr //=; lra.
rewrite -expr2 ez csqr_conj !real_sqr //; apply: C_ext => /=; ring.
Qed.

Lemma half_flux_val kx ky (er : R) V a b : real_row kx -> real_row ky ->
  divcols (Qref kx ky (RtoC er) 1) (twice (ci *: half_kz kx ky (RtoC er) 1)) = Ok V ->
  let kz := half_kz kx ky (RtoC er) 1 in
  (forall j : 'I_n, snd (kz 0 j) = 0%Re \/
     (a (lshift n j) 0 = 0 /\ a (rshift n j) 0 = 0) \/ (b (lshift n j) 0 = 0 /\ b (rshift n j) 0 = 0)) ->
  port_flux 1%:M V a b = \sum_j
    (fst (kz 0%R j) * ((ordE (kx 0 j) (ky 0 j) (kz 0 j) (a (lshift n j) 0) (a (rshift n j) 0))%R
                     - (ordE (kx 0 j) (ky 0 j) (kz 0 j) (b (lshift n j) 0) (b (rshift n j) 0))%R))%Re.
Proof.
move=> hx hy hV kz hc; rewrite (half_flux _ _ hV); apply: eq_bigr => j _.
have [hz _] := half_V_blk hV; have [h1 h2] := half_kz_cases er j hx hy.
have rx : kx 0 j = RtoC (fst (kx 0 j)) by apply: C_ext => //=; exact: hx.
have ry : ky 0 j = RtoC (fst (ky 0 j)) by apply: C_ext => //=; exact: hy.
rewrite -/kz in hz h1 h2 *; move: h2; rewrite rx ry => h2; apply: ordS_val => //.
by case: h1 => h1; [left | case: (hc j) => hc'; [left | right]].
Qed.
End Outer.

Lemma scale_back (s q : R) : (0 < q)%Re -> (s = q * (s * / q))%Re.
Proof. by move=> h; field; lra. Qed.
Lemma csqrt_scale (k w : R) : (0 < k)%Re ->
  csqrt (RtoC (k * k * w)%Re) = RtoC k * csqrt (RtoC w).
Proof.
move=> hk; case: (Rle_dec 0 w) => hw.
  rewrite !csqrt_pos //; last by nra.
  by rewrite sqrt_mult // ?sqrt_square ?RtoC_mult //; nra.
rewrite !csqrt_negr; [|nra|nra].
rewrite (_ : (- (k * k * w) = k * k * - w)%Re); [|ring].
rewrite sqrt_mult ?sqrt_square; [|nra|nra|nra].
by apply: C_ext => /=; ring.
Qed.

(** The k-vectors. *)
Section Krows.
Variables (n : nat) (e : expansion) (kp : C * C) (wl : R).
Hypotheses (hl : (0 < wl)%Re) (hx : snd kp.1 = 0%Re) (hy : snd kp.2 = 0%Re).
Notation k0 := (2 * PI / wl)%Re.
Lemma krows_dep eps eps' kx ky kz : krows n e kp wl eps = Ok (kx, ky, kz) ->
  exists kz', krows n e kp wl eps' = Ok (kx, ky, kz').
Proof.
rewrite /krows; destruct (Req_EM_T wl 0) as [h|h] => //.
by case: ifP => // _; case: ifP => // _ [<- <- _]; eexists.
Qed.
Lemma krows_real eps kx ky kz : krows n e kp wl eps = Ok (kx, ky, kz) -> real_row kx /\ real_row ky.
Proof.
rewrite /krows; destruct (Req_EM_T wl 0) as [h|h] => //.
case: ifP => // _; case: ifP => // _ [<- <- _]; split=> j; rewrite mxE.
  set z := kp.1 + _; have [_ ->] := divC_real z (k0_neq0 h); rewrite /z /= hx /Rdiv; ring.
set z := kp.2 + _; have [_ ->] := divC_real z (k0_neq0 h); rewrite /z /= hy /Rdiv; ring.
Qed.
Lemma krows_half (er : R) kx ky kz : krows n e kp wl (RtoC er) = Ok (kx, ky, kz) ->
  kz = half_kz kx ky (RtoC er) 1.
Proof.
move=> hk; have [rx ry] := krows_real hk; move: hk.
rewrite /krows; destruct (Req_EM_T wl 0) as [h|h] => //.
have p := k0_pos hl; have p0 := k0_neq0 h.
case: ifP => // _; case: ifP => // _ [ex ey <-]; rewrite -ex -ey in rx ry *; apply/rowP => j.
have := rx j; have := ry j; rewrite !mxE; set X := kp.1 + _; set Y := kp.2 + _ => sy sx.
have rX : snd X = 0%Re by rewrite /X /= hx; ring.
have rY : snd Y = 0%Re by rewrite /Y /= hy; ring.
rewrite /kz_from_kplanar (real_sqr sx) (real_sqr sy) conj_real mul1r.
have [e1 _] := divC_real X p0; have [e2 _] := divC_real Y p0; rewrite e1 e2.
set k := k0 in p p0 e1 e2 *.
have e3 : csqrt (RtoC k ^+ 2 * RtoC er - X ^+ 2 - Y ^+ 2)
  = RtoC k * csqrt (RtoC (er - fst X / k * (fst X / k) - fst Y / k * (fst Y / k))%Re).
  rewrite -csqrt_scale // !real_sqr //; congr csqrt; apply: C_ext => /=; field => //.
rewrite e3 conjCM conj_real mulrAC mulfV ?mul1r; last by apply/eqP => /RtoC_inj.
by congr (Cconj (csqrt _)); apply: C_ext => /=; ring.
Qed.
Lemma krows_zero eps kx ky kz (j : 'I_n) : krows n e kp wl eps = Ok (kx, ky, kz) ->
  size (e_g e) = e_size e -> gth e j = (0%Re, 0%Re) ->
  [/\ kx 0 j = kp.1 / RtoC k0, ky 0 j = kp.2 / RtoC k0 &
      kz 0 j = Cconj (csqrt (RtoC k0 ^+ 2 * Cconj eps - kp.1 ^+ 2 - kp.2 ^+ 2)) / RtoC k0].
Proof.
rewrite /krows; destruct (Req_EM_T wl 0) as [h|h] => //.
case: ifP => // /negbT; rewrite negbK => /eqP hn; case: ifP => // _ [<- <- <-] hs hg.
by rewrite !mxE hs hn eqxx -/(gth e j) hg /kz_from_kplanar !addr0.
Qed.
Lemma krows_size eps k : krows n e kp wl eps = Ok k -> e_size e = n.
Proof.
rewrite /krows; destruct (Req_EM_T wl 0) as [h|h] => //.
by case: ifP => // /negbT; rewrite negbK => /eqP.
Qed.
End Krows.

(** Energy balance: the incident beam carries the flux 1 (in the code's
    normalisation), so conservation gives R + T = 1. *)
Section Balance.
Variables (n : nat) (e : expansion) (kp : C * C) (wl ei ee : R) (te tm : C).
Hypotheses (hl : (0 < wl)%Re) (hx : snd kp.1 = 0%Re) (hy : snd kp.2 = 0%Re).
Hypotheses (he : built e) (hreg : frame_regular (fst kp.1) (fst kp.2)).
Notation k0 := (2 * PI / wl)%Re.
Variables (kx ky kz : 'rV[C]_n) (eps0 : C) (hk : krows n e kp wl eps0 = Ok (kx, ky, kz)).
Variables (Vr Vt : 'M[C]_(n + n)).
Hypotheses (hVr : divcols (Qref kx ky (RtoC ei) 1) (twice (ci *: half_kz kx ky (RtoC ei) 1)) = Ok Vr).
Hypotheses (hVt : divcols (Qref kx ky (RtoC ee) 1) (twice (ci *: half_kz kx ky (RtoC ee) 1)) = Ok Vt).
Variables (c b d : 'cV[C]_(n + n)).
Hypothesis (hc : incident n te tm (kp.1, kp.2, source_kzi k0 (RtoC ei) kp) true = Ok c).
Variables (fR fT : 'rV[R]_n).
Hypothesis (hR : poynting_fluxes e b kp wl (RtoC ei) (RtoC ei) = Ok fR).
Hypothesis (hT : poynting_fluxes e d kp wl (RtoC ei) (RtoC ee) = Ok fT).

Lemma balance_kzi : exists q : R, (0 < q)%Re /\ source_kzi k0 (RtoC ei) kp = RtoC (k0 * q)%Re /\
  flux_kzi k0 kp (RtoC ei) = RtoC q.
Proof.
have [? [? [? [wl0 _ h _ _]]]] := fluxes_ok hR.
have p := k0_pos hl; have p0 := k0_neq0 wl0.
have e1 : RtoC k0 ^+ 2 * RtoC ei - kp.1 ^+ 2 - kp.2 ^+ 2
  = RtoC (k0 * k0 * ei - fst kp.1 * fst kp.1 - fst kp.2 * fst kp.2)%Re.
  by rewrite !real_sqr //; apply: C_ext => /=; ring.
move: h; rewrite /flux_kzi /source_kzi e1; set w := (_ - _)%Re => h.
have hw : (0 < w)%Re.
  case: (Rlt_dec 0 w) => // hw; case: h.
  rewrite csqrt_negr; last lra.
  by set z := Cconj _; have [-> _] := divC_real z p0; rewrite /z /=; rewrite /Rdiv; ring.
exists (sqrt w / k0)%Re; rewrite csqrt_pos; last lra.
rewrite conj_real; split; first by apply: Rdiv_lt_0_compat => //; exact: sqrt_lt_R0.
have e2 : forall s k : R, (k <> 0)%Re -> (s = k * (s / k))%Re by move=> s k hk'; field.
split; first by rewrite -(e2 _ _ p0).
by apply/esym; exact: RtoC_div.
Qed.

Lemma incident_port : exists q : R, [/\ (0 < q)%Re, flux_kzi k0 kp (RtoC ei) = RtoC q &
  port_flux 1%:M Vr c b = (q * (1 - total fR))%Re].
Proof.
have [q [q0 [hs hf]]] := balance_kzi; exists q; split=> //.
have [kx' [ky' [kz' [wl0 hk' hf0 hz ht]]]] := fluxes_ok hR.
have [kz'' hk''] := krows_dep (RtoC ei) hk.
have [ex ey ez] : [/\ kx' = kx, ky' = ky & kz' = kz''] by move: hk'; rewrite hk''; case.
rewrite {}ex {}ey {}ez in hk' hz ht.
have [rx ry] := krows_real hx hy hk.
have ek := krows_half hl hx hy hk''.
have [p [hp n0 hcv]] := incident_ok hc.
have [wfn wf0 _] := built_centred he; have sz := krows_size hk.
have hj0 : ((n - 1) %/ 2 < n)%N.
  by case: (n) n0 => // m _; rewrite subSS subn0 ltnS leq_div.
pose j0 := Ordinal hj0.
have g0 : gth e j0 = (0%Re, 0%Re) by move: wf0; rewrite wfn -/(e_size e) sz.
have [kx0 ky0 kz0] := krows_zero hk'' wfn g0.
have ez : kz'' 0 j0 = RtoC q by rewrite kz0 conj_real -hf /flux_kzi.
have cz j : j != j0 -> c (lshift n j) 0 = 0 /\ c (rshift n j) 0 = 0.
  by move=> hj; have [-> ->] := hcv j; rewrite -[(_ == _ :> nat)]/(j == j0) (negbTE hj).
rewrite (half_flux_val rx ry hVr) -ek; last first.
  by move=> j; case: (eqVneq j j0) => [->|/cz]; [left; rewrite ez | right; left].
have rk1 : kp.1 = RtoC (fst kp.1) by apply: C_ext => //=; exact: hx.
have rk2 : kp.2 = RtoC (fst kp.2) by apply: C_ext => //=; exact: hy.
have hk0 := k0_pos hl.
have hp' : pol_vector te tm (RtoC (fst kp.1), RtoC (fst kp.2), RtoC (k0 * q)%Re) true = Ok p.
  by rewrite -hs -rk1 -rk2.
have [p1 p2 _] := pol_vector_ok hreg hp'.
have en0 : ordE (kx 0 j0) (ky 0 j0) (kz'' 0 j0) (c (lshift n j0) 0) (c (rshift n j0) 0) = 1%Re.
  have [-> ->] := hcv j0; rewrite eqxx /ordE -p1; congr (_ + _)%Re; congr abs2.
  have q1 : RtoC q != 0 by apply/eqP => /RtoC_inj; lra.
  have k1 : RtoC k0 != 0 by apply/eqP => /RtoC_inj; lra.
  rewrite ez kx0 ky0; apply: (canLR (mulfK q1)); apply: (can_inj (mulfK k1)).
  rewrite mulNr mulrDl mulrAC divfK // (mulrAC (kp.2 / _)) divfK //.
  apply/eqP; rewrite eq_sym -subr_eq0 opprK; apply/eqP; move: p2.
  by rewrite /dot3 /vx /vy /vz /= -rk1 -rk2 RtoC_mult => <-; cring.
have split_sum : \sum_j (fst (kz'' 0%R j) * ((ordE (kx 0 j) (ky 0 j) (kz'' 0 j) (c (lshift n j) 0) (c (rshift n j) 0))%R
                     - (ordE (kx 0 j) (ky 0 j) (kz'' 0 j) (b (lshift n j) 0) (b (rshift n j) 0))%R))%Re
  = \sum_j fst (kz'' 0 j) * ordE (kx 0 j) (ky 0 j) (kz'' 0 j) (c (lshift n j) 0) (c (rshift n j) 0)
  - \sum_j fst (kz'' 0 j) * ordE (kx 0 j) (ky 0 j) (kz'' 0 j) (b (lshift n j) 0) (b (rshift n j) 0) :> R.
  by rewrite -sumrB; apply: eq_bigr => j _; rewrite -mulrBr.
rewrite split_sum (bigD1 j0) //= en0 ez /= big1 ?addr0; last first.
  move=> j /cz [-> ->]; by rewrite ordE0 mulr0.
have -> : total fR = (\sum_j fst (kz'' 0 j) * ordE (kx 0 j) (ky 0 j) (kz'' 0 j) (b (lshift n j) 0) (b (rshift n j) 0)) * (/ q)%Re :> R.
  rewrite /total mulr_suml; apply: eq_bigr => j _; rewrite ht hf /ordE /=.
  by rewrite /Rdiv Rmult_assoc (Rmult_comm (/ q)) -Rmult_assoc.
by move: (\sum_j _) => s; rewrite mulr1 mulRE oppRE addRE; field; lra.
Qed.

Lemma outgoing_port q : flux_kzi k0 kp (RtoC ei) = RtoC q -> (0 < q)%Re ->
  port_flux 1%:M Vt d 0 = (q * total fT)%Re.
Proof.
move=> hf q0.
have [kx' [ky' [kz' [wl0 hk' hf0 hz ht]]]] := fluxes_ok hT.
have [kz'' hk''] := krows_dep (RtoC ee) hk.
have [ex ey ez] : [/\ kx' = kx, ky' = ky & kz' = kz''] by move: hk'; rewrite hk''; case.
rewrite {}ex {}ey {}ez in hk' hz ht.
have [rx ry] := krows_real hx hy hk.
have ek := krows_half hl hx hy hk''.
rewrite (half_flux_val rx ry hVt) -ek; last by move=> j; right; right; rewrite !mxE.
have -> : total fT = (\sum_j fst (kz'' 0 j) * ordE (kx 0 j) (ky 0 j) (kz'' 0 j) (d (lshift n j) 0) (d (rshift n j) 0)) * (/ q)%Re :> R.
  rewrite /total mulr_suml; apply: eq_bigr => j _; rewrite ht hf /ordE /=.
  by rewrite /Rdiv Rmult_assoc (Rmult_comm (/ q)) -Rmult_assoc.
transitivity (\sum_j fst (kz'' 0 j) * ordE (kx 0 j) (ky 0 j) (kz'' 0 j) (d (lshift n j) 0) (d (rshift n j) 0) : R).
  apply: eq_bigr => j _; rewrite !mxE.
  by rewrite ordE0 mulRE Rminus_0_r.
exact: scale_back.
Qed.

Variable (S : smat C_fieldType (n + n)).
Hypotheses (hb : b = s11 S *m c) (hd : d = s21 S *m c).
Lemma scatters_in : scatters S c 0 b d.
Proof. by rewrite /scatters !mulmx0 !addr0. Qed.
Lemma balance_lossless : conserves S (port_flux 1%:M Vr) (port_flux 1%:M Vt) ->
  (total fR + total fT = 1)%Re.
Proof.
move=> h; have [q [q0 hq e1]] := incident_port; have e2 := outgoing_port hq q0.
have := h _ _ _ _ scatters_in; rewrite e1 e2 => e3.
have : (1 - total fR = total fT)%Re by apply: (Rmult_eq_reg_l q); lra.
lra.
Qed.
Lemma balance_passive : dissipates Rle S (port_flux 1%:M Vr) (port_flux 1%:M Vt) ->
  (total fR + total fT <= 1)%Re.
Proof.
move=> h; have [q [q0 hq e1]] := incident_port; have e2 := outgoing_port hq q0.
have := h _ _ _ _ scatters_in; rewrite e1 e2 => e3.
have : (total fT <= 1 - total fR)%Re by apply: (Rmult_le_reg_l q).
lra.
Qed.
End Balance.
