(** Property C108: the eigenvalues and the determinant of a scattering matrix
    (T-matrix API). *)
From Coq Require Import Reals String Lra.
From mathcomp Require Import all_ssreflect all_algebra.
From Coquelicot Require Import Complex.
From Verif Require Import Base CField CFun ModelRedheffer ModelExpansion ModelFourier ModelTmat SpecTmat TmatProofs ModelLattice SpecLattice
  SpecExp ExpProofs ModelEz SpecBloch SpecLoss TmatExamples BlochProofs ModelEigen DetProofs.
Set Implicit Arguments. Unset Strict Implicit. Unset Printing Implicit Defensive.
Import GRing.Theory.
Local Open Scope ring_scope.

(** What scattering_eigenvalues returns: Bloch waves of the layer and, on request, the
    determinant of its scattering matrix.  Any field, any matrix. *)
Theorem C108_eigenvalues (F : fieldType) k (eig : 'M[F]_(k + k) -> 'M[F]_(k + k) -> seq (F * 'cV[F]_(k + k))) S dos wv d :
  (forall A B w v, List.In (w, v) (eig A B) -> eigenpair (A, B) w v) -> scattering_eigenvalues eig S dos = Ok (wv, d) ->
  (forall w v, List.In (w, v) wv -> bloch_wave S w v) /\ d = if dos then Some (\det S) else None.
Proof. exact (@eigen_meaning F k eig S dos wv d). Qed.
Print Assumptions C108_eigenvalues.

(** Lossless piles whose orders all propagate outside: the determinant is always
    computed, and its modulus is 1. *)
Theorem C108_lossless J1 n (expm : 'M[C]_((n + n) + (n + n)) -> 'M[C]_((n + n) + (n + n))) p a1 a2 ei ee L wl kp r recipes
    stacking d name S eig :
  is_expm expm -> mk_lattice p a1 a2 ei ee = Ok L -> window_fits p -> (0 < wl)%Re -> num_val ei = RtoC r -> all_propagate n L wl kp ->
  (forall layer q, recipes layer = Some q -> lossless_recipe q) -> pile_at J1 expm p L wl kp recipes stacking d name S ->
  (forall A B w v, List.In (w, v) (eig A B) -> eigenpair (A, B) w v) ->
  exists wv dos, [/\ scattering_eigenvalues eig S true = Ok (wv, Some dos),
    forall w v, List.In (w, v) wv -> bloch_wave S w v, dos = \det S & Cmod dos = 1%Re].
Proof.
exact (fun hx hL hf hw hi al hr hS he =>
  @det_lossless J1 n expm hx p ei ee L wl kp recipes stacking d name S hf hw hS eig he r a1 a2 hL hi al hr).
Qed.
Print Assumptions C108_lossless.

(** Absorbing piles: the modulus is at most 1. *)
Theorem C108_absorbing J1 n (expm : 'M[C]_((n + n) + (n + n)) -> 'M[C]_((n + n) + (n + n))) p Lx Ly ei ee L wl kp r recipes
    stacking d name S eig :
  is_expm expm -> (0 < Lx)%Re -> (0 < Ly)%Re -> mk_lattice p (Lx, 0%Re) (0%Re, Ly) ei ee = Ok L -> window_fits p -> (0 < wl)%Re ->
  num_val ei = RtoC r -> all_propagate n L wl kp ->
  (forall layer q, recipes layer = Some q -> absorbing_recipe Lx Ly q) -> pile_at J1 expm p L wl kp recipes stacking d name S ->
  (forall A B w v, List.In (w, v) (eig A B) -> eigenpair (A, B) w v) ->
  exists wv dos, [/\ scattering_eigenvalues eig S true = Ok (wv, Some dos),
    forall w v, List.In (w, v) wv -> bloch_wave S w v, dos = \det S & (Cmod dos <= 1)%Re].
Proof.
exact (fun hx h1 h2 hL hf hw hi al ha hS he =>
  @det_lossy J1 n expm hx p ei ee L wl kp recipes stacking d name S hf hw hS eig he r Lx Ly h1 h2 hL hi al ha).
Qed.
Print Assumptions C108_absorbing.

(** With or without losses, the determinant is the same for the opposite in-plane
    wavevector (windows with an odd number of orders). *)
Theorem C108_opposite J1 n (expm : 'M[C]_((n + n) + (n + n)) -> 'M[C]_((n + n) + (n + n))) p a1 a2 ei ee L wl kp recipes
    stacking d name S S' :
  is_expm expm -> mk_lattice p a1 a2 ei ee = Ok L -> window_fits p -> odd p.1 ->
  closed_at J1 expm p L wl kp recipes stacking d name S -> closed_at J1 expm p L wl (opposite kp) recipes stacking d name S' ->
  no_anomaly L ee wl kp -> \det S = \det S'.
Proof.
exact (fun hx hL hf ho hS hS' hc => @det_opposite p a1 a2 ei ee L hL hf ho J1 n expm hx wl kp recipes stacking d name S S' hS hS' hc).
Qed.
Print Assumptions C108_opposite.

(** A solver that returns a Bloch wave. *)
Example C108_eigenvalues_hypotheses_met : exists (S : 'M[C]_((1 + 1) + (1 + 1)))
    (eig : 'M[C]_((1 + 1) + (1 + 1)) -> 'M[C]_((1 + 1) + (1 + 1)) -> seq (C * 'cV[C]_((1 + 1) + (1 + 1)))) w v r,
  [/\ forall A B w v, List.In (w, v) (eig A B) -> eigenpair (A, B) w v, scattering_eigenvalues eig S true = Ok r & List.In (w, v) r.1].
Proof. exact eig_example. Qed.

(** A rectangle in a host, without losses ... *)
Example C108_lossless_hypotheses_met J1 : (forall layer q, pane_layer 0 layer = Some q -> lossless_recipe q) /\
  exists L S, let expm := @mexp ((1 + 1) + (1 + 1)) in let kp := (0%Re, 0%Re) in let wl := 2%Re in
  [/\ mk_lattice (1, 1)%N (1%Re, 0%Re) (0%Re, 1%Re) (Float 1) (Float 4) = Ok L, is_expm expm,
      pile_at J1 expm (1, 1)%N L wl kp (pane_layer 0) [::] 1 "pane" S & all_propagate 1 L wl kp].
Proof. exact (conj pane_lossless (pane_example J1 (Rle_refl 0))). Qed.

(** ... and with losses. *)
Example C108_absorbing_hypotheses_met J1 : (forall layer q, pane_layer 1 layer = Some q -> absorbing_recipe 1 1 q) /\
  exists L S, let expm := @mexp ((1 + 1) + (1 + 1)) in let kp := (0%Re, 0%Re) in let wl := 2%Re in
  [/\ mk_lattice (1, 1)%N (1%Re, 0%Re) (0%Re, 1%Re) (Float 1) (Float 4) = Ok L, is_expm expm,
      pile_at J1 expm (1, 1)%N L wl kp (pane_layer 1) [::] 1 "pane" S & all_propagate 1 L wl kp].
Proof. exact (conj (fun layer q => pane_absorbs (layer := layer) (q := q) Rle_0_1) (pane_example J1 Rle_0_1)). Qed.

(** A layer of air on a substrate, at two opposite wavevectors. *)
Example C108_opposite_hypotheses_met J1 : exists L S S', let expm := @mexp ((1 + 1) + (1 + 1)) in let kp := ((5 / 4)%Re, 0%Re) in
  [/\ is_expm expm, mk_lattice (1, 1)%N (1%Re, 0%Re) (0%Re, 1%Re) (Float 1) (Float (16 / 9)) = Ok L,
      closed_at J1 expm (1, 1)%N L (2 * PI) kp air_layer [::] 1 "air" S,
      closed_at J1 expm (1, 1)%N L (2 * PI) (opposite kp) air_layer [::] 1 "air" S' & no_anomaly L (Float (16 / 9)) (2 * PI) kp].
Proof. exact (opposite_example J1). Qed.
