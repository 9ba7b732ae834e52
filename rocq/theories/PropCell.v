(** Properties C87 and C88: the Poynting vector of field maps, and field maps in a
    volume. *)
From Coq Require Import Reals ZArith Lra String.
From mathcomp Require Import all_ssreflect all_algebra.
From Coquelicot Require Import Complex Rbar.
From Verif Require Import Base CField CFun ModelExpansion ModelFlux ModelDevice SpecDevice ModelFields SpecFields
  SpecPlane ModelVolume SpecCell CellProofs CellExamples.
Set Implicit Arguments. Unset Strict Implicit. Unset Printing Implicit Defensive.
Import GRing.Theory.
Local Open Scope ring_scope.

(** ** C87 The Poynting vector of the maps is the flux of energy *)

(** Its average over the unit cell is the sum over the orders of E x conj(H) of each
    order, provided the grid has as many points as orders at least. *)
Theorem C87_mean_partial (n : nat) (c : crystal n) pw lat N1 N2 z inc v :
  mk_expansion pw lat = Ok (c_exp c) -> (pw.1 <= N1)%N -> (pw.2 <= N2)%N ->
  snd (c_kp c).1 = 0%Re -> snd (c_kp c).2 = 0%Re -> fourier_fields c z inc = Ok v ->
  exists E H : R -> R -> C * C * C,
  (forall x y, fields_coords_xy c x y z (Some inc) = Ok (E x y, H x y)) /\
  let mean f := cell_mean lat.1 lat.2 N1 N2 (fun x y => f (poynting_vector (E x y) (H x y))) in
  let total f := \sum_(j < n) f (energy_cross (order_E v.1 v.2 j) (order_H v.1 v.2 j)) in
  [/\ mean (fun p => p.1.1) = total (fun p => p.1.1), mean (fun p => p.1.2) = total (fun p => p.1.2) &
      mean (fun p => p.2) = total (fun p => p.2)].
Proof. exact (@mean_poynting n c pw lat N1 N2 z inc v). Qed.
Print Assumptions C87_mean_partial.

(** The magnetic field of the maps is the one of the solver, H / i: the flux of energy
    is the average of the imaginary part of the normal component. *)
Theorem C87_imaginary_partial (n : nat) (c : crystal n) pw lat N1 N2 z inc v :
  mk_expansion pw lat = Ok (c_exp c) -> (pw.1 <= N1)%N -> (pw.2 <= N2)%N ->
  snd (c_kp c).1 = 0%Re -> snd (c_kp c).2 = 0%Re -> fourier_fields c z inc = Ok v ->
  exists E H : R -> R -> C * C * C,
  (forall x y, fields_coords_xy c x y z (Some inc) = Ok (E x y, H x y)) /\
  snd (cell_mean lat.1 lat.2 N1 N2 (fun x y => (poynting_vector (E x y) (H x y)).2)) = plane_flux v.1.
Proof.
move=> h1 h2 h3 h4 h5 h6; have [E [H [h [_ _ m]]]] := mean_poynting h1 h2 h3 h4 h5 h6.
by exists E, H; split=> //; rewrite m (plane_flux_cross _ v.2).
Qed.
Print Assumptions C87_imaginary_partial.

(** The real part, which the examples plot, is not: for a TM wave in vacuum at
    kx = 3/5, default source, it is zero everywhere while the wave carries energy.
    This device meets the hypotheses of the two theorems above. *)
Theorem C87_real_refuted eig J1 : exists (c0 c c' : crystal 1) ops inc v (E H : R -> R -> C * C * C),
  [/\ created c0 false 1 1, all_calls own_call ops, history eig J1 c0 ops c, step eig J1 c Solve c' & source_fields c' = Ok inc] /\
  [/\ mk_expansion (1, 1)%N ((1, 0), (0, 1))%Re = Ok (c_exp c'), snd (c_kp c').1 = 0%Re & snd (c_kp c').2 = 0%Re] /\
  [/\ fourier_fields c' (-1)%Re inc = Ok v, (forall x y, fields_coords_xy c' x y (-1)%Re None = Ok (E x y, H x y)),
      (0 < plane_flux v.1)%Re & forall x y, fst (poynting_vector (E x y) (H x y)).2 = 0%Re].
Proof. exact (oblique_poynting eig J1). Qed.
Print Assumptions C87_real_refuted.

(** ** C88 Fields in a volume are the maps at each depth *)
Theorem C88_depths (n : nat) (c : crystal n) x y z inc Es Hs :
  fields_volume c x y z inc = Ok (Es, Hs) ->
  [/\ (0 < size z)%N, size Es = size z, size Hs = size z &
      forall i, (i < size z)%N -> fields_coords_xy c x y (nth 0%Re z i) inc = Ok (nth (0, 0, 0) Es i, nth (0, 0, 0) Hs i)].
Proof. exact (@volume_ok n c x y z inc Es Hs). Qed.
Print Assumptions C88_depths.

Theorem C88_defined (n : nat) (c : crystal n) x y z inc : is_ok (fields_volume c x y z inc) <->
  (0 < size z)%N /\ forall i, (i < size z)%N -> is_ok (fields_coords_xy c x y (nth 0%Re z i) inc).
Proof. exact (@volume_def n c x y z inc). Qed.
Print Assumptions C88_defined.

Example C88_hypotheses_met eig J1 : exists (c0 c c' : crystal 1) ops,
  [/\ created c0 false 1 1, history eig J1 c0 ops c, step eig J1 c Solve c' &
      forall x y, is_ok (fields_volume c' x y [:: -1; -1]%Re None)].
Proof.
have [c0 [c [c' [ops [inc [v [E [H [[h1 _ h2 h3 _] [_ [_ h4 _ _]]]]]]]]]]] := oblique_poynting eig J1.
exists c0, c, c', ops; split=> // x y; apply/volume_def; split=> // -[|[|i]] //= _; rewrite h4; by eexists.
Qed.
