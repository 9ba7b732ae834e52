(** Proofs about ranges given as text and about grids of points. *)
From Coq Require Import Reals ZArith Lra Lia String Ascii.
From mathcomp Require Import all_ssreflect all_algebra.
From Coquelicot Require Import Complex.
From Verif Require Import Base CField ModelFourier LatticeProofs ModelRest SpecRest.
Set Implicit Arguments. Unset Strict Implicit. Unset Printing Implicit Defensive.
Local Open Scope string_scope.

Fixpoint joined (l : seq string) : string :=
  match l with [::] => "" | [:: a] => a | a :: l' => a ++ ":" ++ joined l' end.
Lemma split_neq s : split_colon s <> [::].
Proof. by case: s => [|c s] //=; case: Ascii.eqb => //; case: (split_colon s). Qed.
Lemma split_joined s : joined (split_colon s) = s.
Proof.
elim: s => [|c s IH] //=; case: (Ascii.eqb_spec c ":"%char) => [->|h].
  by move: IH (@split_neq s); case: (split_colon s) => [|a l] //= ->.
by move: IH (@split_neq s); case: (split_colon s) => [|a [|b l]] //= <-.
Qed.
Lemma free_nil : colon_free "". Proof. by case. Qed.
Lemma free_cons c s : c <> ":"%char -> colon_free s -> colon_free (String c s).
Proof. by move=> h hs [|i] /=; [case | apply: hs]. Qed.
Lemma split_free s a : List.In a (split_colon s) -> colon_free a.
Proof.
elim: s a => [|c s IH] a /=; first by case=> [<-|//]; apply: free_nil.
case: (Ascii.eqb_spec c ":"%char) => [_|h] /=; first by case=> [<-|/IH //]; apply: free_nil.
move: IH; case: (split_colon s) => [|b l] IH /=; case=> [<-|] //.
- exact: free_cons free_nil.
- by apply: free_cons => //; apply: IH; left.
- by move=> hl; apply: IH; right.
Qed.
Lemma freeP c s : colon_free (String c s) -> c <> ":"%char /\ colon_free s.
Proof. by move=> h; split=> [e|i]; [apply: (h 0%nat); rewrite e | apply: (h (S i))]. Qed.
Lemma split_app a r : colon_free a -> split_colon (a ++ ":" ++ r) = a :: split_colon r.
Proof.
elim: a => [|c a IH] //= /freeP [h hf]; case: (Ascii.eqb_spec c ":"%char) => // _.
by move: (IH hf) => /= ->.
Qed.
Lemma split_one a : colon_free a -> split_colon a = [:: a].
Proof. by elim: a => [|c a IH] //= /freeP [h hf]; case: (Ascii.eqb_spec c ":"%char) => // _; rewrite IH. Qed.

Section Parse.
Variables (parse_float : string -> option R) (parse_int : string -> option Z).
Lemma range_ok a b c x y k : colon_free a -> colon_free b -> colon_free c ->
  parse_float a = Some x -> parse_float b = Some y -> parse_int c = Some k ->
  str2linspace_args parse_float parse_int (a ++ ":" ++ b ++ ":" ++ c) = Ok (x, y, k).
Proof. by move=> ha hb hc ea eb ec; rewrite /str2linspace_args !split_app // split_one // ea eb ec. Qed.
Lemma range_fields s : str2linspace_args parse_float parse_int s <> Err AssertionError <->
  exists a b c, [/\ colon_free a, colon_free b, colon_free c & s = a ++ ":" ++ b ++ ":" ++ c].
Proof.
split; last first.
  case=> a [b [c [ha hb hc ->]]]; rewrite /str2linspace_args !split_app // split_one //.
  by case: (parse_float a) => [x|] //=; case: (parse_float b) => [y|] //=; case: (parse_int c).
move: (split_joined s) (@split_free s); rewrite /str2linspace_args.
case: (split_colon s) => [|a [|b [|c [|? ?]]]] //= <- hf _.
by exists a, b, c; split=> //; apply: hf; [left | right; left | right; right; left].
Qed.
Lemma range_value s x y k : str2linspace_args parse_float parse_int s = Ok (x, y, k) ->
  exists a b c, [/\ s = a ++ ":" ++ b ++ ":" ++ c, parse_float a = Some x, parse_float b = Some y & parse_int c = Some k].
Proof.
move: (split_joined s); rewrite /str2linspace_args; case: (split_colon s) => [|a [|b [|c [|? ?]]]] //= <-.
case ea : (parse_float a) => [x'|] //=; case eb : (parse_float b) => [y'|] //=; case ec : (parse_int c) => [k'|] //= [<- <- <-].
by exists a, b, c.
Qed.
End Parse.

(** * Grids *)
Lemma linspace_steps a b n : equal_steps a b n (linspace_from a b n).
Proof.
split.
- by rewrite /linspace_from /=; case: eqP => // _; lra.
- move=> h; rewrite /linspace_from gtn_eqF //; field; have := lt_0_INR (n - 1); have /leP : (0 < n - 1)%nat by rewrite subn_gt0.
  by rewrite /lt => h1 h2; have := h2 h1; lra.
- move=> i h; rewrite /linspace_from gtn_eqF; last by apply: leq_ltn_trans h.
  by rewrite S_INR; ring.
Qed.
Lemma coords_grid x0 x1 y0 y1 z0 z1 nx ny nz : let: (shape, X, Y, z) := coords x0 x1 y0 y1 z0 z1 (nx, ny, nz) in
  [/\ shape = (ny, nx), forall r, equal_steps x0 x1 nx (X r), forall c, equal_steps y0 y1 ny (fun r => Y r c),
      size z = nz & (0 < nz)%nat -> equal_steps z0 z1 nz (nth 0%Re z)].
Proof.
rewrite /coords; split=> //; try by move=> ?; apply: linspace_steps.
  by rewrite size_map size_iota.
have E k : (k < nz)%nat -> nth 0%Re [seq linspace_from z0 z1 nz k | k <- iota 0 nz] k = linspace_from z0 z1 nz k.
  by move=> h; rewrite (nth_map 0%nat) ?size_iota // nth_iota.
have [h1 h2 h3] := linspace_steps z0 z1 nz => hn; split.
- by rewrite E.
- by move=> h; rewrite E ?h2 // ltn_subrL.
- by move=> i hi; rewrite !E ?h3 //; apply: ltnW.
Qed.
