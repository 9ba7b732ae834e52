(** The two routes of a uniform picture, the dispatch, and the entries of the
    convolution matrix in terms of the expansion's orders. *)
From Coq Require Import Reals ZArith Lra Lia String.
From mathcomp Require Import all_ssreflect all_algebra.
From Coquelicot Require Import Complex Rbar.
From Verif Require Import Base ZmodTac CField CFun Blk ModelRedheffer SpecScatter ModelLayer SpecLayer SpecEig SpecFlux
  LayerProofs LayerApiProofs ScalarProofs NormalProofs ThinFilmProofs ModelExpansion SpecExpansion ExpansionProofs ModelFlux FluxProofs
  ModelFourier SpecFourier FourierProofs ModelExtension ModelDevice SpecDevice StringEq DeviceProofs DeviceEnergy FilmDevice.
Set Implicit Arguments. Unset Strict Implicit. Unset Printing Implicit Defensive.
Import GRing.Theory.
Local Open Scope ring_scope.

Section Routes.
Variables (eig : forall m, 'M[C]_m -> 'rV[C]_m * 'M[C]_m) (J1 : R -> R) (n : nat).
Hypothesis heig : eigen_equation eig.

Lemma uniform_picture_same e A v d b b' kp wl (s s' : solved n) : constant_picture A v ->
  layer_solve eig J1 n (Layer e (FFT A) d b) kp wl = Ok s ->
  layer_solve eig J1 n (Layer e (UNIFORM v) d b') kp wl = Ok s' -> sl_S s = sl_S s'.
Proof.
move=> hc; rewrite /layer_solve /=.
case: (krows _ _ _ _ _) => [k|//] /=; case: (free_space_eigenmodes _ _) => [g|//] /=.
case hC : (convolution_matrix _ _ _) => [Cm|//] /=.
have {hC} eC : Cm = v%:M by move: hC; case: (e_pw e) => P Q hC; exact: conv_constant hC hc.
rewrite {}eC; case: (inv _) => [IC|//] /=; case hm : (solve_structured_layer _ _ _ _) => [[[W V] lam]|//] /=.
case hS : (build_scatmat _ _ _ _ _ _ _) => [S|//] /= [<-].
case hm' : (solve_uniform_layer _ _ _ _) => [[[W' V'] lam']|//] /=.
case hS' : (build_scatmat _ _ _ _ _ _ _) => [S'|//] /=; case: (one_over _) => [ic|//] /= [<-].
have [uC md] := structured_modal (eig_diagonalises heig hm hS) hm.
have [_ md'] := uniform_modal hm'.
by have -> := modal_independent md md' hS hS'; case: b; case: b'.
Qed.
End Routes.

Lemma all_equalP A v : reflect (constant_picture A v) (all_equal A v).
Proof.
apply: (iffP forallP) => [h x y hx hy|h x].
  by have /forallP /(_ (Ordinal hy)) /eqP := h (Ordinal hx).
by apply/forallP => y; apply/eqP; exact: h.
Qed.
Lemma dispatch e A d l : pixmap_or_uniform e A d = Ok l ->
  (exists v, constant_picture A v /\ l = layer_uniform e v d) \/
  ((forall v, ~ constant_picture A v) /\ l = layer_pixmap e A d).
Proof.
rewrite /pixmap_or_uniform; case: ifP => // /negbT; rewrite negb_or -!lt0n => /andP [hx hy].
case: all_equalP => h [<-]; [left; by exists (a_at A 0 0) | right; split=> // v hv; apply: h].
by move=> x y h1 h2; rewrite (hv _ _ h1 h2) (hv _ _ hx hy).
Qed.
Lemma dispatch_def e A d : (0 < a_rows A)%N -> (0 < a_cols A)%N -> is_ok (pixmap_or_uniform e A d).
Proof.
by rewrite /pixmap_or_uniform !lt0n => /negbTE -> /negbTE -> /=; case: ifP => _; eexists.
Qed.

Lemma conv_by_order (pw : nat * nat) n A idx (M : 'M[C]_n) (i j : 'I_n) :
  generate_expansion_indices pw = Ok idx -> convolution_matrix n A pw = Ok M ->
  let o k := nth (BinNums.Z0, BinNums.Z0) idx k in
  M i j = fourier_coef A (Z.sub (o i).1 (o j).1) (Z.sub (o i).2 (o j).2).
Proof.
case: pw => P Q hi hM o; have [/= hn hx hy] := conv_size hM.
rewrite (conv_entry hM) /o !(indices_nth hi) /= ?hn //; congr (fourier_coef A _ _); rewrite /ord_x /ord_y; lia.
Qed.
Lemma conv_domain n A (pw : nat * nat) : (pw.1 * pw.2 = n)%N -> (0 < n)%N -> (0 < a_rows A)%N -> (0 < a_cols A)%N ->
  if (pw.1 <= (a_rows A + 1) %/ 2)%N && (pw.2 <= (a_cols A + 1) %/ 2)%N
  then is_ok (convolution_matrix n A pw) else convolution_matrix n A pw = Err IndexError.
Proof.
case: pw => P Q /= hn n0 hx hy; case: ifP => h.
  by have [M [-> _]] := conv_fits hn hx hy h; exists M.
by apply: conv_unfit => //; rewrite /fits h.
Qed.
Lemma conv_linear n pw A B D a b (MA MB MD : 'M[C]_n) :
  a_rows B = a_rows A -> a_cols B = a_cols A -> a_rows D = a_rows A -> a_cols D = a_cols A ->
  (forall x y, (x < a_rows A)%N -> (y < a_cols A)%N -> a_at D x y = a * a_at A x y + b * a_at B x y) ->
  convolution_matrix n A pw = Ok MA -> convolution_matrix n B pw = Ok MB ->
  convolution_matrix n D pw = Ok MD -> MD = a *: MA + b *: MB.
Proof.
case: pw => P Q r1 c1 r2 c2 h hA hB hD; apply/matrixP => i j.
by rewrite !mxE (conv_entry hA) (conv_entry hB) (conv_entry hD); exact: fourier_coef_lin.
Qed.

(** * An eigensolver for scalar matrices, for the examples. *)
Definition scalar_eig (m : nat) (M : 'M[C]_m) : 'rV[C]_m * 'M[C]_m :=
  if is_scalar_mx M then (\row_j M j j, 1%:M) else (0, 0).
Lemma scalar_eig_ok : eigen_equation scalar_eig.
Proof.
move=> m M; rewrite /scalar_eig; case: is_scalar_mxP => [[a ->]|_] /=; last by rewrite mulmx0 mul0mx.
rewrite mulmx1 mul1mx; apply/matrixP => i j; rewrite !mxE; case: (eqVneq i j) => [->|h] //=.
by rewrite eqxx.
Qed.
Lemma scalar_eigE m (a : C) : scalar_eig (a%:M : 'M[C]_m) = (const_mx a, 1%:M).
Proof.
rewrite /scalar_eig; case: is_scalar_mxP => [_|h]; last by case: h; exists a.
by congr pair; apply/rowP => j; rewrite !mxE eqxx.
Qed.
Lemma structured_scalar n (x : R) : (0 < x)%Re ->
  solve_structured_layer (@scalar_eig _) (0 : 'rV[C]_n) 0 (RtoC x * RtoC x)%:M
  = Ok (1%:M, RtoC x *: V0n n, twof (fun _ => ci * RtoC x)).
Proof.
move=> hx; rewrite -(structured_normal n hx) /solve_structured_layer.
case hi : (inv _) => [IC|//] /=.
have eI : IC = invmx (RtoC x * RtoC x)%:M by move: hi; rewrite /inv; case: ifP => // _ [<-].
by rewrite eI structured_M_normal // scalar_eigE.
Qed.

Lemma either_route eig J1 n e A d l kp wl (s s' : solved n) : eigen_equation eig ->
  pixmap_or_uniform e A d = Ok l -> layer_solve eig J1 n l kp wl = Ok s ->
  layer_solve eig J1 n (layer_pixmap e A d) kp wl = Ok s' -> sl_S s = sl_S s'.
Proof.
move=> he /dispatch [[v [hv ->]]|[_ ->]] h h'.
  by apply/esym; exact: (uniform_picture_same he hv h' h).
by move: h'; rewrite h => -[->].
Qed.
Lemma conv_real n pw A (M : 'M[C]_n) : convolution_matrix n A pw = Ok M -> real_picture A ->
  forall i j, M i j = Cconj (M j i).
Proof.
case: pw => P Q hM hr i j; have := conv_lossless hM hr; rewrite /lossless_op => h.
by rewrite -{1}h !mxE.
Qed.
Lemma conv_ones n pw A (M : 'M[C]_n) : convolution_matrix n A pw = Ok M -> constant_picture A 1 -> M = 1%:M.
Proof. by case: pw => P Q hM; exact: conv_constant hM. Qed.
Lemma conv_dissip n pw A (M : 'M[C]_n) : convolution_matrix n A pw = Ok M -> passive_picture A -> passive_op M.
Proof. by case: pw => P Q hM; exact: conv_passive hM. Qed.
