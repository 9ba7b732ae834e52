(** Devices with layers of several lattices, in the form of the property theorems. *)
From Coq Require Import Reals ZArith Lra String.
From mathcomp Require Import all_ssreflect all_algebra.
From Coquelicot Require Import Complex.
From Verif Require Import Base CField CFun ModelRedheffer SpecScatter ModelLayer SpecLayer SpecEig ModelExpansion SpecExpansion ExpansionProofs
  ModelFlux ModelFourier ModelExtension ModelDevice SpecDevice SpecExtension ExtensionProofs ExtendedProofs ModelFields SpecFields
  SpecReciprocity SpecTwisted ExtendedSlab TwistedProofs.
Set Implicit Arguments. Unset Strict Implicit. Unset Printing Implicit Defensive.
Import GRing.Theory.
Local Open Scope ring_scope.

Lemma jn_acts kind N (Cm : 'M[C]_N) : acts_on_own kind Cm (jn kind (fun _ => Cm)).
Proof.
move=> i j m m' r c hm hm' ei ej; rewrite mxE.
have [e1 e2] : cp N kind i = m /\ ow kind i = r.
  have [||||| -> h] := @place_inj kind N (cp N kind i) (ow kind i) m r; rewrite ?cp_lt ?ltn_ord ?placeK //.
  by split=> //; exact: val_inj.
have [e3 e4] : cp N kind j = m' /\ ow kind j = c.
  have [||||| -> h] := @place_inj kind N (cp N kind j) (ow kind j) m' c; rewrite ?cp_lt ?ltn_ord ?placeK //.
  by split=> //; exact: val_inj.
by rewrite e1 e2 e3 e4.
Qed.

Section Th.
Variables (eig : forall m, 'M[C]_m -> 'rV[C]_m * 'M[C]_m) (J1 : R -> R).
Lemma th_structured lhs rhs e who b x kp wl : eigen_equation eig ->
  built lhs -> built rhs -> add_expansion lhs rhs = Ok e ->
  l_exp b = (if who is IsLhs then lhs else rhs) -> is_slab (l_form b) -> mk_extended e who b = Ok x ->
  let N := e_size (l_exp b) in
  forall s, extended_solve eig J1 (N * N) x kp wl = Ok s ->
  exists kx ky kz f (Cm : 'M[C]_N) (CJ : 'M[C]_(N * N)) W V lam Sm,
  [/\ krows (N * N) e kp wl 1 = Ok (kx, ky, kz) /\ free_space_eigenmodes kx ky = Ok f,
      permittivity_matrix J1 (l_exp b) (l_form b) Cm /\ acts_on_own (if who is IsLhs then 1 else 0) Cm CJ,
      CJ \in unitmx /\ modal_decomposition (structured_P kx ky (invmx CJ)) (structured_Q kx ky CJ) W V lam,
      build_scatmat W V f.1 f.2 lam (l_depth b) (2 * PI / wl)%Re = Ok Sm &
      sl_S s = Some Sm].
Proof.
move=> he h1 h2 h3 h4 h5 h6 N s hs.
have sl : size (e_g lhs) = e_size lhs by have [] := built_wf h1.
have sr : size (e_g rhs) = e_size rhs by have [] := built_wf h2.
have [_ hel _ _] := add_expansionE h3.
have [eb em] : x_base x = b /\ x_mode x = (if who is IsLhs then 1 else 0)%N.
  by move: h6; rewrite /mk_extended hel; case: (who) => // -[<-].
have hx : ext_of lhs rhs x.
  exists who; rewrite eb em; move: h6 h4; rewrite /mk_extended hel; case: (who) => // -[<-] e4; by split.
have := extended_slab he h3 sl sr hx; rewrite eb em => h.
have [kx [ky [kz [f [Cm [W [V [lam [Sm [a1 a2 a3 a4 a5]]]]]]]]]] := h _ _ _ _ hs.
exists kx, ky, kz, f, Cm, (jn (if who is IsLhs then 1 else 0)%N (fun _ => Cm)), W, V, lam, Sm; split=> //.
by split; [exact: a5|exact: jn_acts].
Qed.

Variable n : nat.
Implicit Types (c : crystal n).
Lemma th_twisted_reciprocal (ei ee : C) c0 c ca ca' cb cb' ops (wl : R) (te tm te' tm' : C) (th ph th' ph' : R)
  (kp kp' : option (C * C)) (sa sb : solution n) (mL mL' mR mR' : 'M[C]_(n + n) * 'M[C]_(n + n) * 'rV[C]_(n + n)) :
  eigen_equation eig -> created c0 false ei ee ->
  all_calls (slab_call (fun f _ => is_slab f) (c_exp c0)) ops -> history eig J1 c0 ops c ->
  step eig J1 c (SetSource wl te tm th ph kp) ca -> step eig J1 ca Solve ca' ->
  step eig J1 c (SetSource wl te' tm' th' ph' kp') cb -> step eig J1 cb Solve cb' ->
  (c_kp cb).1 = - (c_kp ca).1 -> (c_kp cb).2 = - (c_kp ca).2 ->
  c_solution ca' = Some sa -> c_solution cb' = Some sb ->
  named_modes ca' Sref = Ok mL -> named_modes cb' Sref = Ok mL' ->
  named_modes ca' Strans = Ok mR -> named_modes cb' Strans = Ok mR' ->
  [/\ reciprocal mL.1 mL'.1 mR.1 mR'.1 (r_S sa) (r_S sb),
      nondegenerate mL.1 mL'.1 /\ nondegenerate mR.1 mR'.1 &
      forall a a' : 'cV[C]_(n + n),
      [/\ exchange mL.1 mL'.1 a (s12 (r_S sb) *m a') = exchange mR.1 mR'.1 (s21 (r_S sa) *m a) a',
          exchange mL.1 mL'.1 a (s11 (r_S sb) *m a') = exchange mL'.1 mL.1 a' (s11 (r_S sa) *m a) &
          exchange mR.1 mR'.1 (s22 (r_S sa) *m a) a' = exchange mR'.1 mR.1 (s22 (r_S sb) *m a') a]].
Proof.
move=> he h0 hc hh a1 a2 b1 b2 o1 o2 s1 s2 l1 l2 r1 r2.
have hP f (d : R) : is_slab f -> SolvedProofs.slab_form f by [].
have g0 := created_gen (Xslab (c_exp c0) (fun f _ => is_slab f)) h0 erefl.
have g := history_gen (@Xslab_enable _ _) g0 (slab_gens hP hc) hh.
apply: (gen_reciprocal (@Xslab_enable _ _) _ g a1 a2 b1 b2 o1 o2 s1 s2 l1 l2 r1 r2) => o k k' w kx ky kz kx' ky' kz' f f' s s' Sm Sm'.
exact: (Xslab_recip he hP (n_built g)).
Qed.
Lemma th_twisted_lossless (ei ee : R) c0 ops c c' R T : eigen_equation eig ->
  created c0 false (RtoC ei) (RtoC ee) -> all_calls (slab_call (fun f _ => lossless_slab f) (c_exp c0)) ops ->
  history eig J1 c0 ops c -> step eig J1 c Solve c' -> good_source c' -> poynting_flux_end c' = Ok (R, T) -> (R + T = 1)%Re.
Proof.
move=> he h0 hc hh hs gs hf.
have g0 := created_gen (Xslab (c_exp c0) (Pgood true)) h0 erefl.
have g := history_gen (@Xslab_enable _ _) g0 (slab_gens (@Pgood_slab true) hc) hh.
apply: (gen_energy (strict := true) (@Xslab_enable _ _) _ g hs gs hf) => o k w s kk f Sm.
exact: Xslab_diss.
Qed.
Lemma th_twisted_passive (ei ee : R) c0 ops c c' R T : eigen_equation eig ->
  created c0 false (RtoC ei) (RtoC ee) ->
  all_calls (slab_call (fun f d => passive_slab f /\ (0 <= d)%Re) (c_exp c0)) ops ->
  history eig J1 c0 ops c -> step eig J1 c Solve c' -> good_source c' -> poynting_flux_end c' = Ok (R, T) -> (R + T <= 1)%Re.
Proof.
move=> he h0 hc hh hs gs hf.
have g0 := created_gen (Xslab (c_exp c0) (Pgood false)) h0 erefl.
have g := history_gen (@Xslab_enable _ _) g0 (slab_gens (@Pgood_slab false) hc) hh.
apply: (gen_energy (strict := false) (@Xslab_enable _ _) _ g hs gs hf) => o k w s kk f Sm.
exact: Xslab_diss.
Qed.
End Th.
