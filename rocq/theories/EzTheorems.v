(** Project files: witnesses. *)
From Coq Require Import Reals ZArith String Lra Lia.
From mathcomp Require Import all_ssreflect all_algebra.
From Coquelicot Require Import Complex.
From Verif Require Import Base CField CFun StringEq ModelRedheffer ModelExpansion ModelFourier TransformProofs ModelTmat SpecTmat
  TmatProofs ModelEz SpecEz EzProofs.
Set Implicit Arguments. Unset Strict Implicit. Unset Printing Implicit Defensive.
Import GRing.Theory.
Local Open Scope ring_scope.

(** * A stacking repeated zero times *)
Definition never : stackings := [:: ("device"%string, ([:: "a"%string], Some Z0))].
Lemma repeat_zero (F : fieldType) : exists (mat : string -> 'M[F]_(1 + 1)) req T,
  [/\ unrolled never "device" [::], gather_s never [:: "a"%string] 2 "device" [::] = Ok req,
      stack_s never (computed req mat) 2 "device" = Ok (Some T) &
      ~ forall lp lm rp rm, tscatters T lp lm rp rm <-> chain [::] lp lm rp rm].
Proof.
exists (fun _ => 0), [:: "a"%string], 0; split.
- have -> : [::] = flatten (nseq (copies (Some Z0)) [:: "a"%string]) :> seq string by [].
  apply: unrolled_stack; first by [].
  by apply: unrolled_all1; apply: unrolled_layer.
- by [].
- by [].
move=> /(_ 1 0 1 0) [_ /(_ (conj erefl erefl))]; rewrite /tscatters mul0mx => h.
have := congr1 (fun v : 'cV[F]_(1 + 1) => v (lshift 1 0) 0) h.
by rewrite col_mxEu !mxE eqxx => /eqP; rewrite oner_eq0.
Qed.

(** A nested project: "mirror" is three periods of two layers, the device is a layer
    between two mirrors. *)
Definition cavity : stackings :=
  [:: ("device"%string, ([:: "mirror"; "c"; "mirror"]%string, None));
      ("mirror"%string, ([:: "a"; "b"]%string, Some (Zpos (xI xH))))].
Definition cavity_layers : seq string := [:: "a"; "b"; "c"]%string.
Definition cavity_unrolled : seq string := [:: "a"; "b"; "a"; "b"; "a"; "b"; "c"; "a"; "b"; "a"; "b"; "a"; "b"]%string.
Lemma cavity_ok : [/\ positive_repeats cavity, nonempty_stackings cavity, nested_within cavity 3 "device",
  unrolled cavity "device" cavity_unrolled & {subset cavity_unrolled <= cavity_layers}].
Proof.
have mirror : unrolled cavity "mirror" [:: "a"; "b"; "a"; "b"; "a"; "b"]%string.
  apply: (@unrolled_stack cavity "mirror" [:: "a"; "b"]%string (Some (Zpos (xI xH))) [:: "a"; "b"]%string) => //.
  apply: (@unrolled_cons _ _ _ [:: "a"%string] [:: "b"%string]); first by apply: unrolled_layer.
  by apply: unrolled_all1; apply: unrolled_layer.
split.
- move=> name names z; rewrite /cavity /look; case: eqP => _; first by []; case: eqP => _ h; inversion h; lia.
- move=> name rep; rewrite /=; do 2 case: ifP => //.
- by cbn; repeat constructor.
- apply: (@unrolled_stack cavity "device" [:: "mirror"; "c"; "mirror"]%string None cavity_unrolled) => //.
  apply: (@unrolled_cons _ _ _ [:: "a"; "b"; "a"; "b"; "a"; "b"]%string _) => //.
  apply: (@unrolled_cons _ _ _ [:: "c"%string] _); first by apply: unrolled_layer.
  exact: unrolled_all1.
- by move=> x; rewrite !inE; repeat (case/orP => [/eqP -> //|]); move/eqP => ->.
Qed.

(** * Islands *)
Definition square_island : island := Island "rectangle" (1 / 2, 1 / 2)%Re None (Some (1 / 2, 1 / 2)%Re).
Lemma square_lost (J1 : R -> R) : exists sh, island_shape 1 square_island = Ok sh /\
  transform J1 sh [:: (0%Re, 0%Re)] 1 = Ok [:: 0] /\ RtoC (1 / 2 * (1 / 2) / 1)%Re <> 0.
Proof.
eexists; split; first by []; split.
  rewrite /transform /= rectangle_zero; last lra.
  have -> : ((1 / 2 * 1 - 1 / 2 * 1) * (1 / 2 * 1 - 1 / 2 * 1) / 1 = 0)%Re by field.
  destruct (Req_EM_T 1 0) as [h|h] => //; exfalso; lra.
move=> h; have := congr1 fst h; cbn; lra.
Qed.

Lemma disc_island a cx cy r : island_shape a (Island "disc" (cx, cy) (Some r) None) = Ok (Disc (cx * a) (cy * a) (r * a)).
Proof. by []. Qed.
Lemma rectangle_island a cx cy sx sy :
  island_shape a (Island "rectangle" (cx, cy) None (Some (sx, sy))) = Ok (Rectangle (cx * a) (cy * a) (sx * a) (sy * a)).
Proof. by []. Qed.
