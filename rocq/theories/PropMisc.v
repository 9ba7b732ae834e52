(** Helper functions: block reshaping, strided convolution, units, paths, bands. *)
From Coq Require Import Reals ZArith String.
From mathcomp Require Import all_ssreflect all_algebra.
From Coquelicot Require Import Complex.
From Verif Require Import Base CField CFun ModelMisc SpecMisc MiscProofs MiscTheorems.
Set Implicit Arguments. Unset Strict Implicit. Unset Printing Implicit Defensive.
Import GRing.Theory.

(** C44 *)
Theorem C44_round_trip T (A : arr2 T) m : r2 A = 2 * m -> c2 A = 2 * m ->
  exists2 B, block_split A = Ok B & same2 (block2dense B) A.
Proof. exact (@blocks_dense T A m). Qed.
Print Assumptions C44_round_trip.

Theorem C44_blocks_back T (B : arr4 T) m : d4 B = (2, 2, m, m) ->
  exists2 B', block_split (block2dense B) = Ok B' & same4 B' B.
Proof. exact (@dense_blocks T B m). Qed.
Print Assumptions C44_blocks_back.

Theorem C44_halves T (A : arr2 T) m : r2 A = 2 * m -> c2 A = 2 * m ->
  block_split A = Ok (Arr4 (2, 2, m, m) (fun a b i j => at2 A (a * m + i) (b * m + j))).
Proof. exact (@split_square_halves T A m). Qed.
Print Assumptions C44_halves.

Theorem C44_split_square_partial T (A : arr2 T) n nrows ncols : r2 A = n -> c2 A = n ->
  0 < n -> 0 < nrows -> 0 < ncols -> nrows %| n -> ncols %| n ->
  exists2 B, split A nrows ncols = Ok B & blocks A nrows ncols B.
Proof. exact (@split_blocks T A n nrows ncols). Qed.
Print Assumptions C44_split_square_partial.

(** A 2 x 4 array cut in 2 x 2 blocks. *)
Theorem C44_split_refuted : exists2 B, split wide 2 2 = Ok B & ~ blocks wide 2 2 B.
Proof. exact split_wide. Qed.
Print Assumptions C44_split_refuted.

Example C44_example : exists2 B, split (Arr2 4 4 (fun i j => 4 * i + j)) 2 2 = Ok B & at3 B 2 1 1 = 13.
Proof. by eexists; [by []|by vm_compute]. Qed.

(** C54: what band_structure keeps. *)
Theorem C54_kept_partial w x : List.In x (band_structure w) <->
  (exists2 z, List.In z w & fst z = x) /\ (1 - / 10 ^ 10 <= x < 1)%Re.
Proof. exact (@bandsP w x). Qed.
Print Assumptions C54_kept_partial.

(** The factor i of the middle of the zone is on the unit circle and is dropped. *)
Theorem C54_circle_refuted : exists z, Cmod z = 1%Re /\ band_structure [:: z] = [::].
Proof. exact (ex_intro _ _ unit_circle_lost). Qed.
Print Assumptions C54_circle_refuted.

(** A factor of modulus above 5 is kept. *)
Theorem C54_far_refuted : exists z, (5 < Cmod z)%Re /\ List.In (fst z) (band_structure [:: z]).
Proof. exact (ex_intro _ _ far_kept). Qed.
Print Assumptions C54_far_refuted.

(** C61 *)
Theorem C61_there f p : (p <> 0)%Re -> exists2 e, fn2ev f p = Ok e & ev2fn e p = f.
Proof. exact (@units_there f p). Qed.
Print Assumptions C61_there.

Theorem C61_back e p : (p <> 0)%Re -> fn2ev (ev2fn e p) p = Ok e.
Proof. exact (@units_back e p). Qed.
Print Assumptions C61_back.

Example C61_example : exists2 e, fn2ev (1 / 2) 1 = Ok e & ev2fn e 1 = (1 / 2)%Re.
Proof. exact (C61_there (1 / 2)%Re R1_neq_R0). Qed.

(** C62 *)
Theorem C62_points ks rs a l : bz_path ks rs a = Ok l ->
  [/\ (a <> 0)%Re, 1 < size ks, size (asked (size ks) rs) = (size ks - 1)%N,
      size l = points_before (asked (size ks) rs) (size ks - 1) &
      forall i, i < size ks - 1 -> exists p q, [/\ corner a (nth ""%string ks i) p, corner a (nth ""%string ks i.+1) q &
        forall j d, j < Z.to_nat (nth Z0 (asked (size ks) rs) i) ->
          nth d l (points_before (asked (size ks) rs) i + j) = between p q (INR j / IZR (nth Z0 (asked (size ks) rs) i))]].
Proof. exact (@path_points ks rs a l). Qed.
Print Assumptions C62_points.

Theorem C62_accepted ks rs a : is_ok (bz_path ks rs a) <->
  [/\ (a <> 0)%Re, 1 < size ks, size (asked (size ks) rs) = (size ks - 1)%N &
      forall k, List.In k ks -> exists p, corner a k p].
Proof. exact (path_ok ks rs a). Qed.
Print Assumptions C62_accepted.

Example C62_example : exists l, bz_path [:: "G"; "X"; "M"]%string [:: Z.of_nat 3; Z.of_nat 2] 1 = Ok l /\ size l = 5.
Proof.
by rewrite /bz_path; destruct (Req_EM_T 1 0) as [h|h]; [case: (R1_neq_R0 h)|eexists].
Qed.

(** C63 *)
Theorem C63_inside (F : fieldType) (V : view F) (W : arr2 F) k r ads :
  0 < k -> strided_convolution V W (Z.of_nat k) = Ok (r, ads) ->
  (forall x, List.In x ads -> exists i j, [/\ i < v_rows V, j < v_cols V & x = address V (Z.of_nat i) (Z.of_nat j)]) /\
  (forall i j, i < r2 r -> j < c2 r ->
     at2 r i j = (\sum_(a < r2 W) \sum_(b < c2 W) pixel V (i * k + a) (j * k + b) * at2 W a b)%R).
Proof. exact (@convolution_inside F V W k r ads). Qed.
Print Assumptions C63_inside.

Theorem C63_shape (F : fieldType) (V : view F) (W : arr2 F) k : 0 < k -> r2 W <= v_rows V -> c2 W <= v_cols V ->
  exists r ads, [/\ strided_convolution V W (Z.of_nat k) = Ok (r, ads),
    r2 r = 1 + (v_rows V - r2 W) %/ k & c2 r = 1 + (v_cols V - c2 W) %/ k].
Proof. exact (@convolution_shape F V W k). Qed.
Print Assumptions C63_shape.

(** With a negative stride a kernel larger than the image reads outside. *)
Theorem C63_negative_refuted (F : fieldType) : exists r ads x,
  [/\ strided_convolution (one_pixel F) (Arr2 2 2 (fun _ _ => 0%R)) (Zneg xH) = Ok (r, ads), List.In x ads &
      ~ exists i j, [/\ i < 1, j < 1 & x = address (one_pixel F) (Z.of_nat i) (Z.of_nat j)]].
Proof. exact (convolution_outside F). Qed.
Print Assumptions C63_negative_refuted.

(** A 5 x 4 image seen through a 2 x 2 kernel with stride 2. *)
Example C63_example : exists r ads,
  strided_convolution (View 5 4 Z0 (Z.of_nat 4, Zpos xH) (fun z => if Z.eqb z (Z.of_nat 3) then 1%R else 0%R : rat)) (Arr2 2 2 (fun _ _ => 1%R)) (Z.of_nat 2) = Ok (r, ads) /\
  r2 r = 2 /\ c2 r = 2.
Proof. by do 2 eexists; split; first by []. Qed.
