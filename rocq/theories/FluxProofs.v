(** Energy flux through slabs, interfaces and stacks. *)
From Coq Require Import Reals Lra.
From mathcomp Require Import all_ssreflect all_algebra.
From Coquelicot Require Import Complex.
From Verif Require Import Base ZmodTac CField CFun Blk ModelRedheffer SpecScatter RedhefferProofs
  ModelLayer SpecLayer SpecEig SpecEnergy SpecFlux EnergyAlg LayerProofs LayerCProofs UniformProofs Calculus.
Set Implicit Arguments. Unset Strict Implicit. Unset Printing Implicit Defensive.
Import GRing.Theory.
Local Open Scope ring_scope.

Section Flux.
Variable n : nat.
Implicit Types (E u : 'cV[C]_(n + n)).

Definition Jm : 'M[C]_(n + n) := block_mx 0 1%:M (- 1%:M) 0.

Lemma snd_sum (I : finType) (f : I -> C) : snd (\sum_i f i) = \sum_i snd (f i).
Proof. exact: (raddf_sum Im_additive). Qed.
Lemma fst_sum (I : finType) (f : I -> C) : fst (\sum_i f i) = \sum_i fst (f i).
Proof. exact: (raddf_sum Re_additive). Qed.

Lemma form_Jm E u : (adj E *m Jm *m u) 0 0
  = \sum_j (Cconj (E (lshift n j) 0) * u (rshift n j) 0 - Cconj (E (rshift n j) 0) * u (lshift n j) 0).
Proof.
rewrite -{1}(vsubmxK E) -{1}(vsubmxK u) adj_col -mulmxA mul_block_col !mul0mx add0r addr0.
rewrite mul_row_col mul1mx mulNmx mul1mx mulmxN mxE [X in _ + X]mxE !mxE -sumrB.
by apply: eq_bigr => j _; rewrite !mxE.
Qed.
Lemma poynting_form E u : poynting_z E u = (- snd ((adj E *m Jm *m u) 0%R 0%R))%Re.
Proof.
rewrite form_Jm snd_sum /poynting_z.
transitivity (- \sum_j snd (Cconj (E (lshift n j) 0) * u (rshift n j) 0 - Cconj (E (rshift n j) 0) * u (lshift n j) 0) : R); last by [].
rewrite -sumrN; apply: eq_bigr => j _ /=; rewrite oppRE; ring.
Qed.

(** * A slab *)
Section Slab.
Variables (kx ky : 'rV[C]_n) (Cm : 'M[C]_n).
Hypotheses (rx : real_row kx) (ry : real_row ky) (uC : Cm \in unitmx).
Let P := structured_P kx ky (invmx Cm).
Let Q := structured_Q kx ky Cm.
Let Kx := diag_mx kx.
Let Ky := diag_mx ky.

Lemma adj_real (k : 'rV[C]_n) : real_row k -> adj (diag_mx k) = diag_mx k.
Proof.
move=> h; rewrite adj_diag; congr diag_mx; apply/rowP => j; rewrite mxE.
by apply: C_ext => //=; rewrite h; lra.
Qed.
Lemma Jm_col (a b c d : 'cV[C]_n) :
  adj (col_mx a b) *m Jm *m col_mx c d = adj a *m d - adj b *m c.
Proof.
by rewrite adj_col -mulmxA mul_block_col !mul0mx add0r addr0 mul_row_col mul1mx mulNmx mul1mx mulmxN.
Qed.

Lemma form_Q E : let s := Ky *m usubmx E - Kx *m dsubmx E in
  adj E *m Jm *m (Q *m E) = adj s *m s - adj (usubmx E) *m Cm *m usubmx E
                                      - adj (dsubmx E) *m Cm *m dsubmx E.
Proof.
move=> s; have hs : adj s = adj (usubmx E) *m Ky - adj (dsubmx E) *m Kx.
  by rewrite /s adjB !adjM !adj_real.
rewrite hs -{1 2}(vsubmxK E) /Q /structured_Q -/Kx -/Ky mul_block_col Jm_col /s.
by move: (usubmx E) (dsubmx E) => x y; mxz.
Qed.
Lemma form_P u : let v := invmx Cm *m (Ky *m usubmx u - Kx *m dsubmx u) in
  adj (P *m u) *m Jm *m u = adj u *m u - adj v *m Cm *m v.
Proof.
rewrite -(vsubmxK u); move: (usubmx u) (dsubmx u) => x y; rewrite col_mxKu col_mxKd => v.
have hv : Cm *m v = Ky *m x - Kx *m y by rewrite mulKVmx.
have -> : P *m col_mx x y = col_mx (Kx *m v + y) (Ky *m v - x).
  rewrite /P /structured_P -/Kx -/Ky mul_block_col.
  by congr col_mx; rewrite /v; mxz.
rewrite Jm_col adjB adjD !adjM !adj_real // -(mulmxA _ Cm) hv adj_col mul_row_col -/Kx -/Ky.
by move: (v) => v'; mxz.
Qed.
Lemma real_form m (x : 'cV[C]_m) : snd ((adj x *m x) 0%R 0%R) = 0%Re.
Proof. by rewrite -powerE. Qed.

Variables (W V : 'M[C]_(n + n)) (lam : 'rV[C]_(n + n)).
Hypotheses (PV : P *m V = W *m diag_mx lam) (QW : Q *m W = V *m diag_mx lam).
Variables (cp cm : 'cV[C]_(n + n)) (k0 : R).
Let Ez z := W *m (diag_mx (fwd lam z k0) *m cp + diag_mx (bwd lam z k0) *m cm).
Let uz z := V *m (diag_mx (bwd lam z k0) *m cm - diag_mx (fwd lam z k0) *m cp).

Lemma diag_mulE (r : 'rV[C]_(n + n)) (c : 'cV[C]_(n + n)) i : (diag_mx r *m c) i 0 = r 0 i * c i 0.
Proof. by rewrite mul_diag_mx mxE. Qed.
Lemma mder_bwd z (c : 'cV[C]_(n + n)) : mder (fun z => diag_mx (bwd lam z k0) *m c) z
  (RtoC k0 *: (diag_mx lam *m (diag_mx (bwd lam z k0) *m c))).
Proof.
move=> i j; rewrite ord1 mxE diag_mulE diag_mulE mxE.
have := cderM (cder_exp (lam 0 i) k0 z) (cder_const (c i 0) z).
rewrite mulr0 addr0 -!mulrA => h.
by apply: cder_ext h => t /=; rewrite diag_mulE mxE.
Qed.
Lemma mder_fwd z (c : 'cV[C]_(n + n)) : mder (fun z => diag_mx (fwd lam z k0) *m c) z
  (- (RtoC k0 *: (diag_mx lam *m (diag_mx (fwd lam z k0) *m c)))).
Proof.
move=> i j; rewrite ord1 mxE mxE diag_mulE diag_mulE mxE.
have := cderM (cder_exp (- lam 0 i) k0 z) (cder_const (c i 0) z).
rewrite mulr0 addr0 mulrN !mulNr -!mulrA => h.
by apply: cder_ext h => t /=; rewrite diag_mulE mxE mulNr.
Qed.
Lemma mder_E z : mder Ez z (RtoC k0 *: (P *m uz z)).
Proof.
rewrite (_ : RtoC k0 *: _ = W *m (- (RtoC k0 *: (diag_mx lam *m (diag_mx (fwd lam z k0) *m cp)))
    + RtoC k0 *: (diag_mx lam *m (diag_mx (bwd lam z k0) *m cm)))).
  by apply: mderMc; apply: mderD; [exact: mder_fwd | exact: mder_bwd].
by rewrite /uz mulmxA PV; mxz.
Qed.
Lemma mder_u z : mder uz z (RtoC k0 *: (Q *m Ez z)).
Proof.
rewrite (_ : RtoC k0 *: _ = V *m (RtoC k0 *: (diag_mx lam *m (diag_mx (bwd lam z k0) *m cm))
    + RtoC k0 *: (diag_mx lam *m (diag_mx (fwd lam z k0) *m cp)))).
  apply: mderMc; apply: mderD; first exact: mder_bwd.
  by have := mderN (mder_fwd z cp); rewrite opprK.
by rewrite /Ez mulmxA QW; mxz.
Qed.

Let absorb z : R :=
  (let E := Ez z in let v := invmx Cm *m (Ky *m usubmx (uz z) - Kx *m dsubmx (uz z)) in
   snd ((adj v *m Cm *m v) 0%R 0%R) + (snd ((adj (usubmx E) *m Cm *m usubmx E) 0%R 0%R)
   + snd ((adj (dsubmx E) *m Cm *m dsubmx E) 0%R 0%R)))%Re.

(** Poynting's theorem in the slab. *)
Lemma poynting_derivative z : rder (fun t => poynting_z (Ez t) (uz t)) z (k0 * absorb z)%Re.
Proof.
have h := mderM (mderM (mder_adj (mder_E z)) (mder_const Jm z)) (mder_u z).
have [_ hs] := h 0 0; have := rderN hs; move: (h) => _.
rewrite mulmx0 addr0 => h'; apply: rder_ext; last first.
  apply: rder_eq; first exact: h'.
  have -> : (adj (RtoC k0 *: (P *m uz z)) *m Jm *m uz z + adj (Ez z) *m Jm *m (RtoC k0 *: (Q *m Ez z)))
    = RtoC k0 *: (adj (P *m uz z) *m Jm *m uz z + adj (Ez z) *m Jm *m (Q *m Ez z)).
    rewrite adjZ scalerDr -!scalemxAl -!scalemxAr; congr (_ *: _ + _).
    by apply: C_ext => /=; ring.
  rewrite form_P form_Q mxE /absorb.
  set a := (adj (uz z) *m uz z); set s := (adj (_ - _) *m _) .
  have ha : snd (a 0%R 0%R) = 0%Re by exact: real_form.
  have hs0 : snd (s 0%R 0%R) = 0%Re by exact: real_form.
  move: a s ha hs0 => a s ha hs0.
  set p := adj _ *m Cm *m _; set q := adj (usubmx _) *m Cm *m _; set r := adj (dsubmx _) *m Cm *m _.
  rewrite !(entD, entN) /= ha hs0; rring.
by move=> t; rewrite /= poynting_form.
Qed.

Lemma slab_fields0 : Ez 0%Re = (tangential W V cp cm).1 /\ uz 0%Re = (tangential W V cp cm).2.
Proof. by rewrite /Ez /uz fwd0 bwd0 /= diag_const_mx !mul1mx. Qed.

Lemma slab_flux_decreases d : passive_op Cm -> (0 <= k0)%Re -> (0 <= d)%Re ->
  (poynting_z (Ez d) (uz d) <= poynting_z (Ez 0%Re) (uz 0%Re))%Re.
Proof.
move=> hC hk hd; apply: (rder_decreasing hd poynting_derivative) => z.
rewrite /absorb; move: (hC (invmx Cm *m (Ky *m usubmx (uz z) - Kx *m dsubmx (uz z)))).
move: (hC (usubmx (Ez z))) (hC (dsubmx (Ez z))); nra.
Qed.
Lemma lossless_form m (A : 'M[C]_m) (x : 'cV[C]_m) : lossless_op A ->
  snd ((adj x *m A *m x) 0%R 0%R) = 0%Re.
Proof.
move=> hA; have : adj (adj x *m A *m x) = adj x *m A *m x by rewrite !adjM adjK hA mulmxA.
move/matrixP/(_ 0 0); rewrite mxE mxE => /(congr1 snd) /=; lra.
Qed.
Lemma slab_flux_constant d : lossless_op Cm ->
  poynting_z (Ez d) (uz d) = poynting_z (Ez 0%Re) (uz 0%Re).
Proof.
move=> hC; apply: (rder_constant _ _ poynting_derivative) => z.
by rewrite /absorb !lossless_form //; ring.
Qed.
End Slab.

Lemma modal_PV (P Q W V : 'M[C]_(n + n)) lam : modal_decomposition P Q W V lam ->
  P *m V = W *m diag_mx lam.
Proof.
case=> uW e1 e2 ln.
have uL : diag_mx lam \in unitmx.
  by rewrite unitmxE det_diag unitfE; apply/prodf_neq0 => j _.
apply: (can_inj (mulmxK uL)); rewrite -mulmxA -e2 mulmxA e1 -mulmxA; congr (_ *m _).
by rewrite mulmx_diag; congr diag_mx; apply/rowP => j; rewrite !mxE expr2.
Qed.

(** ** The scattering matrix of a slab. *)
Section SlabS.
Variables (kx ky : 'rV[C]_n) (Cm : 'M[C]_n) (W V W0 V0 : 'M[C]_(n + n)) (lam : 'rV[C]_(n + n)).
Variables (d k0 : R) (S : smat C_fieldType (n + n)).
Hypotheses (rx : real_row kx) (ry : real_row ky) (uC : Cm \in unitmx).
Hypothesis md : modal_decomposition (structured_P kx ky (invmx Cm)) (structured_Q kx ky Cm) W V lam.
Hypothesis hS : build_scatmat W V W0 V0 lam d k0 = Ok S.

Let fields z cp cm := tangential W V (diag_mx (fwd lam z k0) *m cp) (diag_mx (bwd lam z k0) *m cm).
Lemma slab_ports a1 a2 b1 b2 : scatters S a1 a2 b1 b2 -> exists cp cm,
  tangential W0 V0 a1 b1 = fields 0%Re cp cm /\ tangential W0 V0 b2 a2 = fields d cp cm.
Proof.
move=> /(layer_responseP _ _ _ _ hS) [cp [cm [e1 e2]]]; exists cp, cm; split; last by rewrite -e2.
by rewrite e1 /fields fwd0 bwd0 diag_const_mx !mul1mx.
Qed.
Lemma slab_conserves : lossless_op Cm -> conserves S (port_flux W0 V0) (port_flux W0 V0).
Proof.
move=> hC a1 a2 b1 b2 /slab_ports [cp [cm [e1 e2]]].
rewrite /port_flux e1 e2; have [_ _ qw _] := md.
by have := slab_flux_constant rx ry uC (modal_PV md) qw cp cm k0 d hC.
Qed.
Lemma slab_dissipates : passive_op Cm -> (0 <= k0)%Re -> (0 <= d)%Re ->
  dissipates Rle S (port_flux W0 V0) (port_flux W0 V0).
Proof.
move=> hC hk hd a1 a2 b1 b2 /slab_ports [cp [cm [e1 e2]]].
rewrite /port_flux e1 e2; have [_ _ qw _] := md.
exact: (slab_flux_decreases rx ry uC (modal_PV md) qw cp cm hC hk hd).
Qed.
End SlabS.

(** ** The layers of the library. *)
Lemma structured_modal eig kx ky Cm (W V : 'M[C]_(n + n)) lam :
  let M := structured_P kx ky (invmx Cm) *m structured_Q kx ky Cm in
  diagonalises M (eig M) -> solve_structured_layer eig kx ky Cm = Ok (W, V, lam) ->
  Cm \in unitmx /\
  modal_decomposition (structured_P kx ky (invmx Cm)) (structured_Q kx ky Cm) W V lam.
Proof.
move=> M; rewrite /solve_structured_layer /inv; case: ifP => // uC hd /=; rewrite -/M.
case hE : (eig M) hd => [l2 W'] [/= uW eW]; case hV : (divcols _ _) => [V'|//] [<- <- <-].
have [h1 h2] := (divcolsP _ _ _).1 hV; split=> //; split=> //.
rewrite -/M eW; congr (_ *m diag_mx _); apply/rowP => j; rewrite !mxE expr2 csqrt_sqr //.
Qed.
Lemma uniform_modal kx ky er (W V : 'M[C]_(n + n)) lam :
  solve_uniform_layer kx ky er 1 = Ok (W, V, lam) ->
  (er%:M : 'M[C]_n) \in unitmx /\
  modal_decomposition (structured_P kx ky (invmx er%:M)) (structured_Q kx ky er%:M) W V lam.
Proof.
move=> h; have [e0 _ hW hl [hk _]] := uniform_ok h.
have uC : (er%:M : 'M[C]_n) \in unitmx by rewrite unitmxE det_scalar unitrX // unitfE.
split=> //; have [e1 e2] := uniform_eigen h.
have iC : invmx (er%:M) = (er^-1)%:M :> 'M[C]_n by rewrite invmx_scalar.
rewrite iC structured_PE // structured_QE.
move: e1 e2; rewrite uniform_QE // uniform_PE mulr1 invr1 scale1r => e1 e2.
split=> //; first by rewrite hW unitmx1.
move=> j; rewrite hl mxE; case: split => k; rewrite mxE mulf_neq0 ?ci_neq0 // kz_branch_eq0 //.
Qed.
Lemma scalar_lossless (e : C) : snd e = 0%Re -> lossless_op (e%:M : 'M[C]_n).
Proof.
move=> h; rewrite /lossless_op adj_scalar; congr (_%:M); apply: C_ext => //=; rewrite h; ring.
Qed.
Lemma scalar_passive (e : C) : (snd e <= 0)%Re -> passive_op (e%:M : 'M[C]_n).
Proof.
move=> h x; rewrite -mulmxA mul_scalar_mx -scalemxAr mxE -powerE /=.
have := power_ge0 x; nra.
Qed.

(** Interfaces: the flux is continuous because the fields are. *)
Lemma interface_conserves (W V W' V' : 'M[C]_(n + n)) (S : smat C_fieldType (n + n)) :
  (forall a1 a2 b1 b2, scatters S a1 a2 b1 b2 -> interface_response W V W' V' a1 a2 b1 b2) ->
  conserves S (port_flux W V) (port_flux W' V').
Proof. by move=> h a1 a2 b1 b2 /h; rewrite /interface_response /port_flux => ->. Qed.

End Flux.
