(** The helper functions: witnesses and final forms. *)
From Coq Require Import Reals ZArith String Lia Lra.
From mathcomp Require Import all_ssreflect all_algebra.
From Coquelicot Require Import Complex.
From Verif Require Import Base CField CFun ModelMisc SpecMisc MiscProofs.
Set Implicit Arguments. Unset Strict Implicit. Unset Printing Implicit Defensive.
Import GRing.Theory.

(** * split *)
Definition wide : arr2 nat := Arr2 2 4 (fun i j => 4 * i + j).
Lemma split_wide : exists2 B, split wide 2 2 = Ok B & ~ blocks wide 2 2 B.
Proof.
eexists; first by vm_compute.
move=> [_ h]; have := h 0 0 1 0 erefl erefl erefl erefl.
by vm_compute.
Qed.

(** * Paths *)
Lemma corner_ok a name p : (a <> 0)%Re -> main_k_points a name = Ok p <-> corner a name p.
Proof.
move=> ha; rewrite /main_k_points /corner.
case: (String.eqb_spec name "G") => [->|n1].
  by split=> [[<-]|[[_ ->]|[[] //|[] //]]] //; left.
case: (String.eqb_spec name "X") => [->|n2].
  split=> [[<-]|[[]//|[[_ ->]|[] //]]]; last by congr (Ok (_, _)); field.
  by right; left; split=> //; congr pair; field.
case: (String.eqb_spec name "M") => [->|n3].
  split=> [[<-]|[[]//|[[]//|[_ ->]]]]; last by congr (Ok (_, _)); field.
  by right; right; split=> //; congr pair; field.
by split=> // -[[]|[[]|[]]].
Qed.

Lemma path_points ks rs a l : bz_path ks rs a = Ok l ->
  [/\ (a <> 0)%Re, 1 < size ks, size (asked (size ks) rs) = (size ks - 1)%N,
      size l = points_before (asked (size ks) rs) (size ks - 1) &
      forall i, i < size ks - 1 -> exists p q, [/\ corner a (nth ""%string ks i) p, corner a (nth ""%string ks i.+1) q &
        forall j d, j < Z.to_nat (nth Z0 (asked (size ks) rs) i) ->
          nth d l (points_before (asked (size ks) rs) i + j) = between p q (INR j / IZR (nth Z0 (asked (size ks) rs) i))]].
Proof.
rewrite /bz_path; destruct (Req_EM_T a 0) as [h|ha] => //; case: leqP => // h1.
rewrite -/(asked (size ks) rs); case: eqP => //= hs ht.
have [e1 e2] := trajectoryE hs ht; split=> //.
  by rewrite e1 /points_before -hs take_size.
move=> i hi; rewrite -hs in hi; have [s [t [h2 h3 h4]]] := e2 i hi; exists s, t; split; try exact/(corner_ok _ _ ha).
move=> j d hj; rewrite /points_before map_take -/(lengths _) -/(offset _ _) h4 // /between.
by congr pair; rewrite /Rdiv Rmult_assoc.
Qed.

Lemma path_ok ks rs a : is_ok (bz_path ks rs a) <->
  [/\ (a <> 0)%Re, 1 < size ks, size (asked (size ks) rs) = (size ks - 1)%N &
      forall k, List.In k ks -> exists p, corner a k p].
Proof.
rewrite /bz_path; destruct (Req_EM_T a 0) as [h|ha]; first by split=> // -[].
case: leqP => h1; first by split=> // -[].
rewrite -/(asked (size ks) rs); case: eqP => /= hs; last by split=> // -[].
have hp : 0 < size (asked (size ks) rs) by rewrite hs subn_gt0.
rewrite (trajectory_ok a hs hp); split=> [h|[_ _ _ h]].
  split=> // k hk; have := h k hk; case hm : (main_k_points a k) => [p|e] /=; last by case.
  by move=> _; exists p; apply (corner_ok _ _ ha).
by move=> k hk; have [p hp'] := h k hk; exists p; exact ((corner_ok k p ha).2 hp').
Qed.

(** * Strided convolution with a negative stride *)
Definition one_pixel (F : fieldType) : view F := View 1 1 Z0 (Zpos xH, Zpos xH) (fun _ => 0%R).
Lemma convolution_outside (F : fieldType) : exists r ads x,
  [/\ strided_convolution (one_pixel F) (Arr2 2 2 (fun _ _ => 0%R)) (Zneg xH) = Ok (r, ads), List.In x ads &
      ~ exists i j, [/\ i < 1, j < 1 & x = address (one_pixel F) (Z.of_nat i) (Z.of_nat j)]].
Proof.
do 2 eexists; exists (Zpos xH); split; first by [].
  by vm_compute; right; left.
by move=> [[|i] [[|j] [h1 h2 h3]]].
Qed.

(** * Bands *)
Lemma unit_circle_lost : Cmod (0, 1)%Re = 1%Re /\ band_structure [:: (0, 1)%Re] = [::].
Proof.
split; first by rewrite /Cmod /= (_ : _ + _ = 1)%Re ?sqrt_1; lra.
rewrite /band_structure /=; destruct (Rlt_dec 0 0) as [h|h] => //; exfalso; lra.
Qed.

Lemma far_kept : (5 < Cmod (1 - / 10 ^ 11, 5)%Re)%Re /\
  List.In (1 - / 10 ^ 11)%Re (band_structure [:: (1 - / 10 ^ 11, 5)%Re]).
Proof.
split; last first.
  apply/bandsP; split; first by eexists; [left|].
  by lra.
rewrite /Cmod; rewrite -{1}(sqrt_Rsqr 5); last lra.
apply: sqrt_lt_1_alt; rewrite /Rsqr /=; nra.
Qed.
