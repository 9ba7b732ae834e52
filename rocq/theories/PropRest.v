(** Properties C90-C92: layers without objects, the woodpile, resampled drawings. *)
From Coq Require Import Reals ZArith Lra String.
From mathcomp Require Import all_ssreflect all_algebra.
From Coquelicot Require Import Complex.
From Verif Require Import Base CField CFun ModelLayer SpecLayer SpecEnergy ModelExpansion ModelFourier ModelFlux ModelDevice SpecDevice LayerRoutes ModelDraw FilmDevice
  DeviceExamples ModelRest SpecRest WoodpileProofs WoodpileExample CanvasProofs.
Set Implicit Arguments. Unset Strict Implicit. Unset Printing Implicit Defensive.
Import GRing.Theory.
Local Open Scope ring_scope.

(** ** C90 The functions of the layers and the Layer objects *)

(** Same scattering matrix, same modes, same errors. *)
Theorem C90_uniform eig J1 n (e : expansion) (kp : C * C) (wl : R) (eps : C) (d : R) b : eps <> 0 ->
  same_answer (scattering_uniform_layer n e kp wl eps d b) (layer_solve eig J1 n (Layer e (UNIFORM eps) d b) kp wl).
Proof. exact (@uniform_function eig J1 n e kp wl eps d b). Qed.
Print Assumptions C90_uniform.

Theorem C90_structured eig J1 n (e : expansion) (kp : C * C) (wl : R) (A : array2) (d : R) b :
  same_answer (scattering_structured_layer eig n e kp wl A d b) (layer_solve eig J1 n (Layer e (FFT A) d b) kp wl).
Proof. exact (@structured_function eig J1 n e kp wl A d b). Qed.
Print Assumptions C90_structured.

(** Both sides return: a plate of index 2. *)
Example C90_answers (J1 : R -> R) : exists e,
  is_ok (layer_solve scalar_eig J1 1 (Layer e (FFT (flat_picture (RtoC 2 * RtoC 2))) 1 true) (0, 0) 1) /\
  is_ok (layer_solve scalar_eig J1 1 (Layer e (UNIFORM (RtoC 2 * RtoC 2)) 1 true) (0, 0) 1).
Proof. have [e [_ _ hpw hg]] := multilayer_exp 1 1. exists e. apply: fft_layer => //; lra. Qed.

(** ** C91 The woodpile *)

(** Four layers.  A: rods along the first axis in the middle of the cell.  C: the
    same rods moved by the shift to either side.  B and D: A and C with the axes
    exchanged.  The structure is periodic: the pictures contain the parts of the
    rods that leave the cell on one side and enter it on the other.  Rods moved by
    half a period or less. *)
Theorem C91_layers n (w eps s h : R) (pw res0 : nat * nat) (c : crystal n) :
  make_woodpile n w eps s h pw res0 = Ok c -> (0 <= s <= 1 / 2)%Re ->
  exists A B Cc D, [/\ rods_across A res0.1 res0.2 w eps [:: 0%Re], exchanged A B,
    rods_across Cc res0.1 res0.2 w eps [:: s; (- s)%Re] & exchanged Cc D] /\
    [/\ holds_picture c "A" A h, holds_picture c "B" B h, holds_picture c "C" Cc h & holds_picture c "D" D h] /\
    crystal_depth c = Ok (4 * h)%Re.
Proof. exact (@woodpile_made n w eps s h pw res0 c). Qed.
Print Assumptions C91_layers.

(** The energy is conserved, whatever the parameters of the rods. *)
Theorem C91_energy eig J1 n (w eps s h : R) (pw res0 : nat * nat) (c c1 c2 : crystal n) wl te tm th ph kp R T :
  eigen_equation eig -> make_woodpile n w eps s h pw res0 = Ok c -> set_source c wl te tm th ph kp = Ok c1 ->
  step eig J1 c1 Solve c2 -> good_source c2 -> poynting_flux_end c2 = Ok (R, T) -> (R + T = 1)%Re.
Proof. exact (@woodpile_energy eig J1 n w eps s h pw res0 c c1 c2 wl te tm th ph kp R T). Qed.
Print Assumptions C91_energy.

Theorem C91_defined n (w eps s h : R) (pw res0 : nat * nat) :
  (0 < res0.1)%N -> (0 < res0.2)%N -> odd pw.1 -> odd pw.2 -> n = (pw.1 * pw.2)%N ->
  is_ok (make_woodpile n w eps s h pw res0).
Proof. exact (@woodpile_ok n w eps s h pw res0). Qed.
Print Assumptions C91_defined.

(** A woodpile that is solved. *)
Example C91_solved J1 : exists (c c1 c2 : crystal 1) RT,
  [/\ make_woodpile 1 1 4 (1 / 4) (1 / 2) (1, 1)%N (2, 3)%N = Ok c, set_source c 1 1 0 0 0 None = Ok c1,
      step scalar_eig J1 c1 Solve c2, good_source c2 & poynting_flux_end c2 = Ok RT].
Proof. exact: solved_woodpile. Qed.

(** ** C92 Drawings at another resolution *)

Theorem C92_defined (d : drawing R_eqType) shape :
  (1 < (d_shape d).1)%N -> (1 < (d_shape d).2)%N ->
  (l00 (d_lattice d) <> 0 \/ l10 (d_lattice d) <> 0)%Re -> (l01 (d_lattice d) <> 0 \/ l11 (d_lattice d) <> 0)%Re ->
  is_ok (canvas_shape d shape).
Proof. exact (fun h1 h2 hx hy => @canvas_defined d h1 h2 hx hy shape). Qed.
Print Assumptions C92_defined.

(** No permittivity out of the range of those drawn. *)
Theorem C92_range (d : drawing R_eqType) shape V X Y (lo hi : R) i j :
  (1 < (d_shape d).1)%N -> (1 < (d_shape d).2)%N ->
  (l00 (d_lattice d) <> 0 \/ l10 (d_lattice d) <> 0)%Re -> (l01 (d_lattice d) <> 0 \/ l11 (d_lattice d) <> 0)%Re ->
  canvas_shape d shape = Ok (V, X, Y) -> (i < shape.1)%N -> (j < shape.2)%N ->
  (forall i j, (i < (d_shape d).1)%N -> (j < (d_shape d).2)%N -> (lo <= d_canvas d i j <= hi)%Re) ->
  (lo <= V i j <= hi)%Re.
Proof. exact (fun h1 h2 hx hy h => @canvas_bounds d h1 h2 hx hy shape V X Y h lo hi i j). Qed.
Print Assumptions C92_range.

(** A finer grid that contains the pixels keeps them. *)
Theorem C92_refinement (d : drawing R_eqType) shape V X Y k1 k2 i j :
  (1 < (d_shape d).1)%N -> (1 < (d_shape d).2)%N ->
  (l00 (d_lattice d) <> 0 \/ l10 (d_lattice d) <> 0)%Re -> (l01 (d_lattice d) <> 0 \/ l11 (d_lattice d) <> 0)%Re ->
  canvas_shape d shape = Ok (V, X, Y) ->
  shape = (k1 * ((d_shape d).1 - 1) + 1, k2 * ((d_shape d).2 - 1) + 1)%N -> (0 < k1)%N -> (0 < k2)%N ->
  (i < (d_shape d).1)%N -> (j < (d_shape d).2)%N -> V (k1 * i)%N (k2 * j)%N = d_canvas d i j.
Proof. exact (fun h1 h2 hx hy h => @canvas_refine d h1 h2 hx hy shape V X Y h k1 k2 i j). Qed.
Print Assumptions C92_refinement.

(** On upright lattices the coordinates are those of the pixels. *)
Theorem C92_coordinates_partial (d : drawing R_eqType) shape V X Y i j :
  (1 < (d_shape d).1)%N -> (1 < (d_shape d).2)%N -> canvas_shape d shape = Ok (V, X, Y) ->
  (0 < l00 (d_lattice d))%Re -> (0 < l11 (d_lattice d))%Re ->
  l01 (d_lattice d) = 0%Re -> l10 (d_lattice d) = 0%Re -> shape = d_shape d -> (i < (d_shape d).1)%N -> (j < (d_shape d).2)%N ->
  (X i j, Y i j) = pixel_point d i j.
Proof. exact (@upright_points d shape V X Y i j). Qed.
Print Assumptions C92_coordinates_partial.

(** On a slanted lattice they are not: the cell is stretched over its bounding box,
    and at the point of a painted pixel the value is another one. *)
Theorem C92_slanted_refuted : exists d0 d V X Y i j, [/\ @mk_drawing R_eqType (2, 2)%N 1%Re (Some (Lat 1 0 1 1)) = Ok d0,
  d = draw_rectangle d0 0 (- (1 / 2))%Re 1 (1 / 2)%Re 3%Re, canvas_shape d (3, 2)%N = Ok (V, X, Y),
  (i < 3)%N && (j < 2)%N & (X i j, Y i j) = pixel_point d 1 0 /\ V i j <> d_canvas d 1 0].
Proof. exact slanted_refuted. Qed.
Print Assumptions C92_slanted_refuted.

(** The hypotheses of the theorems above hold for that drawing. *)
Example C92_hypotheses_met : exists d : drawing R_eqType, [/\ (1 < (d_shape d).1)%N, (1 < (d_shape d).2)%N,
  (l00 (d_lattice d) <> 0 \/ l10 (d_lattice d) <> 0)%Re, (l01 (d_lattice d) <> 0 \/ l11 (d_lattice d) <> 0)%Re &
  is_ok (canvas_shape d (3, 2)%N)].
Proof. exists spot; split=> //; [exact: spot_wide | exact: spot_high | exact: (canvas_defined _ _ spot_wide spot_high)]. Qed.
