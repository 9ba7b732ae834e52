(** The incident plane wave and the flux formula. *)
From Coq Require Import Reals Lra.
From mathcomp Require Import all_ssreflect all_algebra.
From Coquelicot Require Import Complex.
From Verif Require Import Base ZmodTac CField CFun SpecMaxwell SpecEnergy EnergyAlg ModelExpansion ModelFlux SpecExpansion
  NormalProofs ExpansionProofs.
Set Implicit Arguments. Unset Strict Implicit. Unset Printing Implicit Defensive.
Import GRing.Theory.
Local Open Scope ring_scope.

Notation tiny := (1 / 100000000)%Re.
(** The cases in which the code's polarisation frame is transverse. *)
Definition frame_regular (x y : R) : Prop :=
  (x = 0 /\ y = 0)%Re \/ (tiny <= sqrt (x * x + y * y))%Re.

Lemma abs2_real x : abs2 (RtoC x) = (x * x)%Re. Proof. by rewrite /abs2 /=; ring. Qed.
Lemma abs2_ge0 z : (0 <= abs2 z)%Re. Proof. exact: sqmod_ge0. Qed.
Lemma abs2M x y : abs2 (x * y) = (abs2 x * abs2 y)%Re. Proof. exact: sqmodM. Qed.
Lemma norm3_real x y z : norm3 (RtoC x, RtoC y, RtoC z) = sqrt (x * x + y * y + z * z)%Re.
Proof. by rewrite /norm3 /= !abs2_real. Qed.
Lemma div3_real x y z c : (c <> 0)%Re ->
  div3 (RtoC x, RtoC y, RtoC z) c = (RtoC (x / c)%Re, RtoC (y / c)%Re, RtoC (z / c)%Re).
Proof.
move=> h; have e (a : R) : RtoC a / RtoC c = RtoC (a / c)%Re by apply/esym; exact: RtoC_div.
by rewrite /div3 /= !e.
Qed.

Lemma div_sq (q s k : R) : (q * q = s)%Re -> (0 < q)%Re -> (0 < k)%Re -> (- q / k = - s / (q * k))%Re.
Proof. by move=> <- h1 h2; field; lra. Qed.
Lemma unit_TE (x y r : R) : (r * r = x * x + y * y)%Re -> (0 < r)%Re ->
  (- y / r * (- y / r) + x / r * (x / r) = 1)%Re.
Proof.
move=> h1 h2; have -> : (- y / r * (- y / r) + x / r * (x / r) = (x * x + y * y) / (r * r))%Re by field; lra.
by rewrite -h1; field; lra.
Qed.
Lemma norm_TE (x y r K : R) : (r * r = x * x + y * y)%Re -> (0 < K)%Re ->
  (- y / K * (- y / K) + x / K * (x / K) = r / K * (r / K))%Re.
Proof.
move=> h1 h2; have -> : (r / K * (r / K) = r * r / (K * K))%Re by field; lra.
by rewrite h1; field; lra.
Qed.
Lemma unit_TM (x y z r K : R) : (r * r = x * x + y * y)%Re -> (K * K = x * x + y * y + z * z)%Re ->
  (0 < r)%Re -> (0 < K)%Re ->
  (x * z / (r * K) * (x * z / (r * K)) + y * z / (r * K) * (y * z / (r * K)) + - r / K * (- r / K) = 1)%Re.
Proof.
move=> r2 K2 h1 h2.
have -> : (x * z / (r * K) * (x * z / (r * K)) + y * z / (r * K) * (y * z / (r * K)) + - r / K * (- r / K)
    = ((x * x + y * y) * (z * z) + (r * r) * (r * r)) / ((r * r) * (K * K)))%Re by field; lra.
rewrite -r2 in K2; rewrite K2 -r2; field; split; nra.
Qed.
Section Frame.
Variables x y z : R.
Notation r := (sqrt (x * x + y * y)).
Notation K := (sqrt (x * x + y * y + z * z)).
Hypothesis hr : (tiny <= r)%Re.

Lemma r_pos : (0 < r)%Re. Proof. lra. Qed.
Lemma r_sqr : (r * r = x * x + y * y)%Re. Proof. apply: sqrt_sqrt; nra. Qed.
Lemma K_sqr : (K * K = x * x + y * y + z * z)%Re. Proof. apply: sqrt_sqrt; nra. Qed.
Lemma K_pos : (0 < K)%Re.
Proof. by apply: sqrt_lt_R0; have := r_pos; have := r_sqr; nra. Qed.

Lemma frame_oblique : pol_frame (RtoC x, RtoC y, RtoC z) =
  Ok ((RtoC (- y / r)%Re, RtoC (x / r)%Re, RtoC 0),
      (RtoC (x * z / (r * K))%Re, RtoC (y * z / (r * K))%Re, RtoC (- r / K)%Re)).
Proof.
have hr0 := r_pos; have hK := K_pos; have r2 := r_sqr; have K2 := K_sqr.
rewrite /pol_frame /= !abs2_real norm3_real.
destruct (Rlt_dec (Rabs r) tiny) as [h|h]; first by exfalso; move: h; rewrite Rabs_right => [h|]; lra.
rewrite div3_real; last lra.
have -> : neg3 (np_cross (0, 0, -1) (RtoC (x / K), RtoC (y / K), RtoC (z / K)))
  = (RtoC (- y / K)%Re, RtoC (x / K)%Re, RtoC 0).
  by rewrite /neg3 /np_cross /=; congr (_, _, _); apply: C_ext => /=; field; lra.
rewrite norm3_real.
have n1 : sqrt (- y / K * (- y / K) + x / K * (x / K) + 0 * 0) = (r / K)%Re.
  apply: sqrt_lem_1; first nra.
    by apply: Rlt_le; apply: Rdiv_lt_0_compat.
  by rewrite -(norm_TE r2) //; ring.
have rK : (0 < r / K)%Re by apply: Rdiv_lt_0_compat.
rewrite n1; destruct (Req_EM_T (r / K) 0) as [h0|h0]; first lra.
rewrite div3_real //.
have e1 : (- y / K / (r / K) = - y / r)%Re by field; lra.
have e2 : (x / K / (r / K) = x / r)%Re by field; lra.
have e3 : (0 / (r / K) = 0)%Re by field; lra.
rewrite e1 e2 e3.
have -> : np_cross (RtoC (- y / r)%Re, RtoC (x / r)%Re, RtoC 0) (RtoC (x / K), RtoC (y / K), RtoC (z / K))
  = (RtoC (x * z / (r * K))%Re, RtoC (y * z / (r * K))%Re, RtoC (- r / K)%Re).
  rewrite /np_cross /=; congr (_, _, _); apply: C_ext => /=; try by field; lra.
  rewrite (div_sq r2) //; field; lra.
rewrite norm3_real.
have n2 : sqrt (x * z / (r * K) * (x * z / (r * K)) + y * z / (r * K) * (y * z / (r * K)) + - r / K * (- r / K)) = 1%Re.
  by rewrite (unit_TM r2 K2) // sqrt_1.
rewrite n2; destruct (Req_EM_T 1 0) as [h1|h1]; first lra.
by rewrite div3_real; [rewrite /Rdiv Rinv_1 !Rmult_1_r | lra].
Qed.
End Frame.

Lemma frame_normal (k : C * C * C) : (sqrt (abs2 k.1.1 + abs2 k.1.2) < tiny)%Re ->
  pol_frame k = Ok ((1, 0, 0), (0, 1, 0)).
Proof.
move=> h; rewrite /pol_frame; destruct (Rlt_dec _ _) as [h'|h'] => //; case: h'.
by rewrite Rabs_right //; apply: Rle_ge; exact: sqrt_pos.
Qed.

(** What the code's frame is, in the regular cases. *)
Lemma frame_ok x y z : frame_regular x y ->
  exists a1 a2 b1 b2 b3 : R,
  [/\ pol_frame (RtoC x, RtoC y, RtoC z)
      = Ok ((RtoC a1, RtoC a2, RtoC 0), (RtoC b1, RtoC b2, RtoC b3)),
      (a1 * a1 + a2 * a2 = 1 /\ b1 * b1 + b2 * b2 + b3 * b3 = 1)%Re,
      (a1 * b1 + a2 * b2 = 0)%Re, (x * a1 + y * a2 = 0)%Re &
      (x * b1 + y * b2 + z * b3 = 0)%Re].
Proof.
case=> [[-> ->]|hr].
  exists 1%Re, 0%Re, 0%Re, 1%Re, 0%Re; split; try (by ring); last by split; ring.
  by apply: frame_normal => /=; rewrite !abs2_real !Rmult_0_l Rplus_0_r sqrt_0; lra.
have h0 := r_pos hr; have r2 := r_sqr x y; have K2 := K_sqr x y z; have hK0 := K_pos z hr.
do 5 eexists; split; first exact: frame_oblique.
all: move: r2 K2 h0 hK0; set r := sqrt (x * x + y * y); set K := sqrt (_ + z * z) => r2 K2 h0 hK0.
- by split; [exact: unit_TE | exact: unit_TM].
- by field; lra.
- by field; lra.
- have -> : (x * (x * z / (r * K)) + y * (y * z / (r * K)) + z * (- r / K)
     = (x * x + y * y - r * r) * z / (r * K))%Re by field; lra.
  by rewrite r2; field; lra.
Qed.

Lemma lin3_unit (te tm : C) (a1 a2 b1 b2 b3 : R) :
  (a1 * a1 + a2 * a2 = 1)%Re -> (b1 * b1 + b2 * b2 + b3 * b3 = 1)%Re -> (a1 * b1 + a2 * b2 = 0)%Re ->
  let p := lin3 te tm (RtoC a1, RtoC a2, RtoC 0) (RtoC b1, RtoC b2, RtoC b3) in
  (abs2 p.1.1 + abs2 p.1.2 + abs2 p.2 = abs2 te + abs2 tm)%Re.
Proof.
case: te tm => t1 t2 [m1 m2] h1 h2 h3 /=; rewrite /abs2 /=.
transitivity ((t1 * t1 + t2 * t2) * (a1 * a1 + a2 * a2) + (m1 * m1 + m2 * m2) * (b1 * b1 + b2 * b2 + b3 * b3)
   + 2 * (t1 * m1 + t2 * m2) * (a1 * b1 + a2 * b2))%Re; first by ring.
by rewrite h1 h2 h3; ring.
Qed.

Lemma pol_norm_sqr te tm : let p := sqrt (abs2 te + abs2 tm)%Re in (p * p = abs2 te + abs2 tm)%Re.
Proof. by apply: sqrt_sqrt; have := abs2_ge0 te; have := abs2_ge0 tm; lra. Qed.
Lemma abs2_div (z : C) (c : R) : (c <> 0)%Re -> abs2 (z / RtoC c) = (abs2 z / (c * c))%Re.
Proof. by move=> h; rewrite abs2M /abs2 invCE /=; field. Qed.

Lemma pol_vector_ok te tm x y z p :
  frame_regular x y ->
  pol_vector te tm (RtoC x, RtoC y, RtoC z) true = Ok p ->
  [/\ (abs2 p.1.1 + abs2 p.1.2 + abs2 p.2 = 1)%Re, dot3 (RtoC x, RtoC y, RtoC z) p = 0 &
      tm = 0 -> p.2 = 0].
Proof.
move=> hreg; rewrite /pol_vector; destruct (Req_EM_T _ _) as [h|h] => //.
have [a1 [a2 [b1 [b2 [b3 [-> [h1 h2] h3 h4 h5]]]]]] := frame_ok z hreg; move=> /= [<-].
have hn := pol_norm_sqr te tm; move: h hn; set N := sqrt _ => h hn; split.
- rewrite lin3_unit // !abs2_div //.
  have -> : (abs2 te / (N * N) + abs2 tm / (N * N) = (abs2 te + abs2 tm) / (N * N))%Re by field.
  by rewrite -hn; field.
- rewrite /dot3 /lin3 /vx /vy /vz /=.
  transitivity ((te / RtoC N) * RtoC (x * a1 + y * a2)%Re + (tm / RtoC N) * RtoC (x * b1 + y * b2 + z * b3)%Re).
    by rewrite !(RtoC_plus, RtoC_mult); cring.
  by rewrite h4 h5 !mulr0 addr0.
- by move=> ->; rewrite /lin3 /= mulr0 !mul0r addr0.
Qed.

Lemma pol_vector_def te tm x y z : frame_regular x y ->
  (te, tm) <> (0, 0) -> is_ok (pol_vector te tm (RtoC x, RtoC y, RtoC z) true).
Proof.
move=> hreg ht; rewrite /pol_vector; destruct (Req_EM_T _ _) as [h|h].
  case: ht; have := pol_norm_sqr te tm; rewrite /= h => h0.
  have h1 := abs2_ge0 te; have h2 := abs2_ge0 tm.
  have e1 : abs2 te = 0%Re by lra.
  have e2 : abs2 tm = 0%Re by lra.
  by rewrite (sqmod_eq0 e1) (sqmod_eq0 e2).
by have [a1 [a2 [b1 [b2 [b3 [-> _ _ _ _]]]]]] := frame_ok z hreg; eexists.
Qed.

Lemma incident_ok n te tm k b v : incident n te tm k b = Ok v ->
  exists p, [/\ pol_vector te tm k b = Ok p, (0 < n)%N &
  forall j : 'I_n, v (lshift n j) 0 = (if j == ((n - 1) %/ 2)%N :> nat then p.1.1 else 0) /\
                   v (rshift n j) 0 = (if j == ((n - 1) %/ 2)%N :> nat then p.1.2 else 0)].
Proof.
rewrite /incident; case hp : (pol_vector _ _ _ _) => [p|//] /=; case: ifP => // n0 [<-].
exists p; split=> //; first by rewrite lt0n n0.
by move=> j; rewrite col_mxEu col_mxEd !mxE; case: ifP; rewrite ?mulr1 ?mulr0.
Qed.

(** Scale invariance. *)
Lemma pol_vector_scale te tm k (c : R) : (0 < c)%Re ->
  pol_vector (RtoC c * te) (RtoC c * tm) k true = pol_vector te tm k true.
Proof.
move=> hc; rewrite /pol_vector.
have e : sqrt (abs2 (RtoC c * te)%R + abs2 (RtoC c * tm)%R) = (c * sqrt (abs2 te + abs2 tm))%Re.
  have hn := pol_norm_sqr te tm; have hp := sqrt_pos (abs2 te + abs2 tm).
  apply: sqrt_lem_1.
  - by have := abs2_ge0 (RtoC c * te); have := abs2_ge0 (RtoC c * tm); lra.
  - nra.
  - rewrite !abs2M !abs2_real.
    transitivity (c * c * (sqrt (abs2 te + abs2 tm) * sqrt (abs2 te + abs2 tm)))%Re; first by ring.
    by rewrite hn; ring.
rewrite e; move: (sqrt (abs2 te + abs2 tm)) => N.
destruct (Req_EM_T (c * N) 0) as [h|h]; destruct (Req_EM_T N 0) as [h'|h'] => //.
- by case: h'; nra.
- by case: h; rewrite h'; ring.
have eq w : RtoC c * w / RtoC (c * N)%Re = w / RtoC N.
  have e1 : fst (RtoC c * w / RtoC (c * N)%Re) = (fst w / N)%Re.
    by have [-> _] := divC_real (RtoC c * w) h => /=; field; lra.
  have e2 : snd (RtoC c * w / RtoC (c * N)%Re) = (snd w / N)%Re.
    by have [_ ->] := divC_real (RtoC c * w) h => /=; field; lra.
  by have [f1 f2] := divC_real w h'; apply: C_ext; [rewrite e1 f1 | rewrite e2 f2].
by rewrite !eq.
Qed.
Lemma incident_scale n te tm k (c : R) : (0 < c)%Re ->
  incident n (RtoC c * te) (RtoC c * tm) k true = incident n te tm k true.
Proof. by move=> hc; rewrite /incident pol_vector_scale. Qed.

Definition res_scale n (w : C) (x : res 'cV[C]_n) : res 'cV[C]_n :=
  match x with Ok v => Ok (w *: v) | Err e => Err e end.
Lemma pol_vector_phase te tm k (w : C) : abs2 w = 1%Re ->
  pol_vector (w * te) (w * tm) k true =
  match pol_vector te tm k true with Ok p => Ok (w * p.1.1, w * p.1.2, w * p.2) | Err e => Err e end.
Proof.
move=> hw; rewrite /pol_vector !abs2M hw !Rmult_1_l.
destruct (Req_EM_T _ _) as [h|h] => //; case: (pol_frame k) => [f|//] /=.
by rewrite /lin3; congr (Ok (_, _, _)); rewrite !mulrDr !mulrA.
Qed.
Lemma incident_phase n te tm k (w : C) : abs2 w = 1%Re ->
  incident n (w * te) (w * tm) k true = res_scale w (incident n te tm k true).
Proof.
move=> hw; rewrite /incident pol_vector_phase //; case: (pol_vector _ _ _ _) => [p|//] /=.
by case: ifP => // _; rewrite /res_scale scale_col_mx !scalerA.
Qed.

(** The flux formula. *)
Section Fluxes.
Variables (n : nat) (e : expansion) (kp : C * C) (wl : R) (epsi epse : C).
Implicit Type c : 'cV[C]_(n + n).
Notation k0 := (2 * PI / wl)%Re.
Lemma fluxes_ok c t : poynting_fluxes e c kp wl epsi epse = Ok t ->
  exists kx ky kz : 'rV[C]_n, [/\ (wl <> 0)%Re, krows n e kp wl epse = Ok (kx, ky, kz),
    fst (flux_kzi k0 kp epsi) <> 0%Re, forall j, kz 0 j != 0 &
    forall j, t 0 j = (fst (kz 0%R j) / fst (flux_kzi k0 kp epsi)
      * (abs2 (c (lshift n j) 0%R) + abs2 (c (rshift n j) 0%R)
         + abs2 ((- (kx 0 j * c (lshift n j) 0 + ky 0 j * c (rshift n j) 0) / kz 0 j)%R)))%Re].
Proof.
rewrite /poynting_fluxes; destruct (Req_EM_T wl 0) as [h|h] => //.
case hk : (krows _ _ _ _ _) => [[[kx ky] kz]|//] /=.
destruct (Req_EM_T _ 0) as [h'|h'] => //; case: ifP => // /negbT; rewrite negb_exists => /forallP hz [<-].
by exists kx, ky, kz; split=> // j; rewrite mxE.
Qed.
Lemma fluxes_scale c (w : C) : abs2 w = 1%Re ->
  poynting_fluxes e (w *: c) kp wl epsi epse = poynting_fluxes e c kp wl epsi epse.
Proof.
move=> hw; rewrite /poynting_fluxes; destruct (Req_EM_T wl 0) as [h|h] => //.
case hk : (krows _ _ _ _ _) => [[[kx ky] kz]|//] /=.
destruct (Req_EM_T _ 0) as [h'|h'] => //; case: ifP => // _; congr Ok.
apply/rowP => j; rewrite !mxE.
have -> : - (kx 0 j * (w * c (lshift n j) 0) + ky 0 j * (w * c (rshift n j) 0)) / kz 0 j
  = w * (- (kx 0 j * c (lshift n j) 0 + ky 0 j * c (rshift n j) 0) / kz 0 j).
  by rewrite [RHS]mulrA; congr (_ * _); rewrite mulrN mulrDr (mulrCA w) (mulrCA w).
by rewrite !abs2M hw !Rmult_1_l.
Qed.
Lemma krows_re (kx ky kz : 'rV[C]_n) j : (0 < wl)%Re -> krows n e kp wl epse = Ok (kx, ky, kz) ->
  (0 <= fst (kz 0%R j))%Re.
Proof.
move=> hl; rewrite /krows; destruct (Req_EM_T wl 0) as [h|h] => //.
case: ifP => // _; case: ifP => // _ [_ _ <-]; rewrite mxE.
have [-> _] := divC_real (kz_from_kplanar (kp.1 + RtoC (if size (e_g e) == n then nth (0%Re, 0%Re) (e_g e) j else nth (0%Re, 0%Re) (e_g e) 0).1)
  (kp.2 + RtoC (if size (e_g e) == n then nth (0%Re, 0%Re) (e_g e) j else nth (0%Re, 0%Re) (e_g e) 0).2) k0 epse) (k0_neq0 h).
have := k0_pos hl; set q := kz_from_kplanar _ _ _ _ => hk.
by apply: Rmult_le_pos; [exact: kz_re | apply: Rlt_le; exact: Rinv_0_lt_compat].
Qed.
Lemma fluxes_ge0 c t j : (0 < wl)%Re -> poynting_fluxes e c kp wl epsi epse = Ok t -> (0 <= t 0%R j)%Re.
Proof.
move=> hl /fluxes_ok [kx [ky [kz [h1 h2 h3 h4 ->]]]].
have hz := krows_re j hl h2.
have hi : (0 < fst (flux_kzi k0 kp epsi))%Re.
  have : (0 <= fst (flux_kzi k0 kp epsi))%Re.
    rewrite /flux_kzi; have [-> _] := divC_real (Cconj (csqrt (RtoC k0 ^+ 2 * epsi - kp.1 ^+ 2 - kp.2 ^+ 2))) (k0_neq0 h1).
    apply: Rmult_le_pos; first exact: csqrt_re_ge0.
    by apply: Rlt_le; apply: Rinv_0_lt_compat; exact: k0_pos.
  by lra.
apply: Rmult_le_pos.
  by apply: Rmult_le_pos => //; apply: Rlt_le; exact: Rinv_0_lt_compat.
by have := @abs2_ge0; move=> h; apply: Rplus_le_le_0_compat; [apply: Rplus_le_le_0_compat|]; exact: h.
Qed.
Lemma total_ge0 (t : 'rV[R]_n) : (forall j, (0 <= t 0%R j)%Re) -> (0 <= total t)%Re.
Proof.
move=> h; rewrite /total; elim/big_rec: _ => [|i x _ hx]; first exact: Rle_refl.
exact: Rplus_le_le_0_compat.
Qed.
End Fluxes.

(** The two statements about the returned amplitudes. *)
Section IncidentApi.
Variables (n : nat) (te tm : C) (x y z : R).
Notation k := (RtoC x, RtoC y, RtoC z).
Lemma incident_transverse v : frame_regular x y -> incident n te tm k true = Ok v ->
  exists (j0 : 'I_n) (sz : C),
  [/\ j0 = ((n - 1) %/ 2)%N :> nat,
      (forall j, j != j0 -> v (lshift n j) 0 = 0 /\ v (rshift n j) 0 = 0),
      dot3 k (v (lshift n j0) 0, v (rshift n j0) 0, sz) = 0,
      (abs2 (v (lshift n j0) 0%R) + abs2 (v (rshift n j0) 0%R) + abs2 sz = 1)%Re &
      tm = 0 -> sz = 0].
Proof.
move=> hreg /incident_ok [p [hp n0 hv]].
have hj0 : ((n - 1) %/ 2 < n)%N.
  by case: (n) n0 => // m _; rewrite subSS subn0 ltnS leq_div.
have [h1 h2 h3] := pol_vector_ok hreg hp.
exists (Ordinal hj0), p.2; have [-> ->] := hv (Ordinal hj0); rewrite eqxx; split=> //.
  by move=> j hj; have [-> ->] := hv j; rewrite -[(_ == _ :> nat)]/(j == Ordinal hj0) (negbTE hj).
Qed.
Lemma incident_def : frame_regular x y -> (0 < n)%N -> (te, tm) <> (0, 0) ->
  is_ok (incident n te tm k true).
Proof.
move=> hreg n0 ht; have [p hp] := pol_vector_def z hreg ht; rewrite /incident hp /= -[n == 0%N]negbK -lt0n n0.
by eexists.
Qed.
End IncidentApi.

(** The frame at normal incidence. *)
Lemma pol_norm_1 : sqrt (abs2 1%R + abs2 0%R) = 1%Re.
Proof. by rewrite /abs2 /=; rewrite (_ : (_ + _ = 1)%Re); [exact: sqrt_1 | ring]. Qed.
Lemma div_1 (w : C) : w / RtoC 1%Re = w.
Proof. by rewrite -oneCE divr1. Qed.
Lemma incident_te_normal n z : (0 < n)%N -> incident n 1 0 (0, 0, RtoC z) true =
  Ok (col_mx (\col_(j < n) (if (j == ((n - 1) %/ 2)%N :> nat) then 1 else 0)) 0).
Proof.
move=> n0; rewrite /incident /pol_vector pol_norm_1; destruct (Req_EM_T 1 0) as [h|h]; first lra.
rewrite frame_normal /=; last first.
  rewrite /abs2 /=; rewrite (_ : (_ + _ = 0)%Re); [rewrite sqrt_0; lra | ring].
rewrite -[n == 0%N]negbK -lt0n n0 /= !div_1 !mulr0 !mul0r mulr1 !addr0.
by congr (Ok (col_mx _ _)); [rewrite scale1r | rewrite scale0r].
Qed.
Lemma incident_te_oblique n x z : (0 < n)%N -> (tiny <= x)%Re ->
  incident n 1 0 (RtoC x, 0, RtoC z) true =
  Ok (col_mx 0 (\col_(j < n) (if (j == ((n - 1) %/ 2)%N :> nat) then 1 else 0))).
Proof.
move=> n0 hx; rewrite /incident /pol_vector pol_norm_1; destruct (Req_EM_T 1 0) as [h|h]; first lra.
have e : sqrt (x * x + 0 * 0) = x by rewrite Rmult_0_l Rplus_0_r sqrt_square //; lra.
rewrite (frame_oblique (x := x) (y := 0%Re)) ?e //= -[n == 0%N]negbK -lt0n n0 /= !div_1 !mul0r !mul1r !addr0.
have -> : (- 0 / x = 0)%Re by field; lra.
have -> : (x / x = 1)%Re by field; lra.
by congr (Ok (col_mx _ _)); [rewrite scale0r | rewrite scale1r].
Qed.
Lemma incident_te_sliver n x z : (0 < n)%N -> (0 < x < tiny)%Re ->
  incident n 1 0 (RtoC x, 0, RtoC z) true =
  Ok (col_mx (\col_(j < n) (if (j == ((n - 1) %/ 2)%N :> nat) then 1 else 0)) 0).
Proof.
move=> n0 hx; rewrite /incident /pol_vector pol_norm_1; destruct (Req_EM_T 1 0) as [h|h]; first lra.
rewrite frame_normal /=; last first.
  rewrite /abs2 /=; rewrite (_ : (_ + _ = x * x)%Re); [rewrite sqrt_square; lra | ring].
rewrite -[n == 0%N]negbK -lt0n n0 /= !div_1 !mulr0 !mul0r mulr1 !addr0.
by congr (Ok (col_mx _ _)); [rewrite scale1r | rewrite scale0r].
Qed.
Lemma sliver_witness :
  exists (te tm : C) (x : R), (x <> 0)%Re /\ forall (n : nat) (z : R), (0 < n)%N ->
  incident n te tm (RtoC x, 0, RtoC z) true =
  Ok (col_mx (\col_(j < n) (if j == ((n - 1) %/ 2)%N :> nat then 1 else 0)) 0).
Proof.
exists 1, 0, (tiny / 2)%Re; split; first lra.
by move=> n z n0; apply: incident_te_sliver => //; lra.
Qed.
Lemma fluxes_nonneg (n : nat) (e : expansion) (c : 'cV[C]_(n + n)) (kp : C * C) (wl : R)
    (epsi epse : C) (t : 'rV[R]_n) :
  (0 < wl)%Re -> poynting_fluxes e c kp wl epsi epse = Ok t ->
  (forall j, (0 <= t 0%R j)%Re) /\ (0 <= total t)%Re.
Proof.
move=> hl ht; have h j := fluxes_ge0 j hl ht; split=> //; exact: total_ge0.
Qed.
Lemma phase_api (n : nat) (te tm : C) (k : C * C * C) (w : C) (v : 'cV[C]_(n + n)) :
  Cmod w = 1%Re -> incident n te tm k true = Ok v ->
  incident n (w * te) (w * tm) k true = Ok (w *: v) /\
  forall (e : expansion) (A : 'M[C]_(n + n)) (kp : C * C) (wl : R) (epsi epse : C),
    poynting_fluxes e (A *m (w *: v)) kp wl epsi epse = poynting_fluxes e (A *m v) kp wl epsi epse.
Proof.
move=> hw hv; have h : abs2 w = 1%Re by rewrite /abs2 -Cmod_sqr hw; ring.
split; first by rewrite incident_phase // hv.
by move=> e A kp wl epsi epse; rewrite -scalemxAr fluxes_scale.
Qed.
Lemma normal_limit_witness :
  exists te tm : C, forall (n : nat) (z : R), (0 < n)%N ->
  let zero_order := \col_(j < n) (if j == ((n - 1) %/ 2)%N :> nat then 1 else 0) in
  (forall x, (1 / 100000000 <= x)%Re ->
     incident n te tm (RtoC x, 0, RtoC z) true = Ok (col_mx 0 zero_order)) /\
  incident n te tm (0, 0, RtoC z) true = Ok (col_mx zero_order 0).
Proof.
exists 1, 0 => n z n0 d; split; last exact: incident_te_normal.
by move=> x hx; apply: incident_te_oblique.
Qed.
