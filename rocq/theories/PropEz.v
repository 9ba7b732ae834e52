(** Project files (khepri/ez.py). *)
From Coq Require Import Reals ZArith String.
From mathcomp Require Import all_ssreflect all_algebra.
From Coquelicot Require Import Complex.
From Verif Require Import Base CField CFun StringEq ModelFourier ModelTmat SpecTmat ModelEz SpecEz EzProofs EzTheorems.
Set Implicit Arguments. Unset Strict Implicit. Unset Printing Implicit Defensive.
Import GRing.Theory.
Local Open Scope ring_scope.

(** C55: the matrix of a device is that of its unrolled layers, in order. *)
Theorem C55_product (F : fieldType) (k : nat) (p : stackings) layers (mat : string -> 'M[F]_(k + k)) d d' name req T :
  positive_repeats p -> gather_s p layers d name [::] = Ok req ->
  stack_s p (computed req mat) d' name = Ok (Some T) ->
  exists ls, [/\ unrolled p name ls, {subset ls <= layers} &
    forall lp lm rp rm, tscatters T lp lm rp rm <-> chain (map mat ls) lp lm rp rm].
Proof. exact (fun h => @project_product F k p layers mat h d d' name req T). Qed.
Print Assumptions C55_product.

(** A project of known layers without cycles or empty stackings has a matrix unless a
    resonance makes one of the products singular; exactly the layers it needs are
    computed, each of them once. *)
Theorem C55_defined (F : fieldType) (k : nat) (p : stackings) layers (mat : string -> 'M[F]_(k + k)) n name ls :
  positive_repeats p -> nonempty_stackings p -> nested_within p n name -> unrolled p name ls -> {subset ls <= layers} ->
  exists req, [/\ gather_s p layers n name [::] = Ok req, req =i ls, uniq req &
    (exists T, stack_s p (computed req mat) n name = Ok (Some T)) \/
    stack_s p (computed req mat) n name = Err LinAlgError].
Proof. exact (fun h => @project_defined F k p layers mat h n name ls). Qed.
Print Assumptions C55_defined.

Theorem C55_order_unique p name l1 l2 : unrolled p name l1 -> unrolled p name l2 -> l1 = l2.
Proof. exact (@unrolled_unique p name l1 l2). Qed.
Print Assumptions C55_order_unique.

(** A stacking that is repeated zero times is nevertheless traversed once. *)
Theorem C55_zero_refuted (F : fieldType) : exists (mat : string -> 'M[F]_(1 + 1)) req T,
  [/\ unrolled never "device" [::], gather_s never [:: "a"%string] 2 "device" [::] = Ok req,
      stack_s never (computed req mat) 2 "device" = Ok (Some T) &
      ~ forall lp lm rp rm, tscatters T lp lm rp rm <-> chain [::] lp lm rp rm].
Proof. exact (repeat_zero F). Qed.
Print Assumptions C55_zero_refuted.

(** A cavity between two mirrors of three periods meets the hypotheses. *)
Example C55_example : [/\ positive_repeats cavity, nonempty_stackings cavity, nested_within cavity 3 "device",
  unrolled cavity "device" cavity_unrolled & {subset cavity_unrolled <= cavity_layers}].
Proof. exact cavity_ok. Qed.

(** C71: discs have their centre and radius, in units of the pitch. *)
Theorem C71_disc_partial a cx cy r :
  island_shape a (Island "disc" (cx, cy) (Some r) None) = Ok (Disc (cx * a) (cy * a) (r * a)).
Proof. exact (disc_island a cx cy r). Qed.
Print Assumptions C71_disc_partial.

(** The centre and the size of a rectangle are taken for two of its corners. *)
Theorem C71_corners a cx cy sx sy :
  island_shape a (Island "rectangle" (cx, cy) None (Some (sx, sy))) = Ok (Rectangle (cx * a) (cy * a) (sx * a) (sy * a)).
Proof. exact (rectangle_island a cx cy sx sy). Qed.
Print Assumptions C71_corners.

(** A square of side 1/2 in the middle of the cell does not exist for the program. *)
Theorem C71_rectangle_refuted (J1 : R -> R) : exists sh, island_shape 1 square_island = Ok sh /\
  transform J1 sh [:: (0%Re, 0%Re)] 1 = Ok [:: 0] /\ RtoC (1 / 2 * (1 / 2) / 1)%Re <> 0.
Proof. exact (square_lost J1). Qed.
Print Assumptions C71_rectangle_refuted.
