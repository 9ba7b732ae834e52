(** Proofs about the Bloch factors of shifted and repeated cells. *)
From Coq Require Import Reals ZArith String Lra Lia.
From mathcomp Require Import all_ssreflect all_algebra.
From Coquelicot Require Import Complex.
From Verif Require Import Base CField CFun StringEq ModelExpansion ModelFourier SpecFourier FourierProofs ModelTmat SpecTmat TmatProofs
  TmatTheorems ModelDraw DrawProofs ModelEz SpecEz EzProofs SpecSupercell SumProofs.
Set Implicit Arguments. Unset Strict Implicit. Unset Printing Implicit Defensive.
Import GRing.Theory.
Local Open Scope ring_scope.

Section Cells.
Variables (F : fieldType) (k : nat).
Notation M := 'M[F]_(k + k).
Implicit Types (S : M) (x y : 'cV[F]_(k + k)).

(** The waves [x] on the left and [y] on the right of a pile. *)
Definition link (ls : seq M) x y := chain ls (usubmx x) (dsubmx x) (usubmx y) (dsubmx y).
Lemma link_cat l1 l2 x y : link (l1 ++ l2) x y <-> exists z, link l1 x z /\ link l2 z y.
Proof.
rewrite /link chain_cat; split=> [[gp [gm [h1 h2]]]|[z [h1 h2]]]; last by exists (usubmx z), (dsubmx z).
by exists (col_mx gp gm); rewrite col_mxKu col_mxKd.
Qed.
Lemma chain_scale (ls : seq M) (c : F) lp lm rp rm : chain ls lp lm rp rm -> chain ls (c *: lp) (c *: lm) (c *: rp) (c *: rm).
Proof.
elim: ls lp lm => [|S ls ih] lp lm /=; first by case=> -> ->.
move=> [gp [gm [h /ih h2]]]; exists (c *: gp), (c *: gm); split=> //.
by move: h; rewrite /tscatters -!scale_col_mx -scalemxAr => <-.
Qed.
Lemma link_scale ls c x y : link ls x y -> link ls (c *: x) (c *: y).
Proof. by rewrite /link !linearZ; exact: chain_scale. Qed.
Lemma pile_link S ls x y : is_pile S ls -> tscatters S (usubmx x) (dsubmx x) (usubmx y) (dsubmx y) <-> link ls x y.
Proof. by case=> h _; exact: h. Qed.
Lemma pile_bloch S ls w x : is_pile S ls -> bloch_wave S w x <-> x != 0 /\ link ls x (w *: x).
Proof. by move=> h; rewrite /bloch_wave -(pile_link _ _ h) !linearZ. Qed.

Lemma shifted_cell S S' l1 l2 w x : is_pile S (l1 ++ l2) -> is_pile S' (l2 ++ l1) -> w != 0 ->
  bloch_wave S w x -> exists y, bloch_wave S' w y.
Proof.
move=> h h' w0 /(pile_bloch _ _ h) [x0 /link_cat [z [h1 h2]]]; exists z.
apply/(pile_bloch _ _ h'); split; last by apply/link_cat; exists (w *: x); split=> //; exact: link_scale.
apply/eqP => z0; have hz := link_scale w h1; move: h2 hz; rewrite z0 scaler0 /link !raddf0 => h2 hz.
have [e1 e2] := h'.2 l2 l1 _ _ _ _ erefl h2 hz.
have : w *: x = 0 by rewrite -[w *: x]vsubmxK e1 e2 col_mx0.
by move/eqP; rewrite scaler_eq0 (negbTE w0) (negbTE x0).
Qed.

Lemma repeated_link l w x N : link l x (w *: x) -> link (flatten (nseq N l)) x (w ^+ N *: x).
Proof.
move=> h; elim: N => [|N ih] /=; first by rewrite expr0 scale1r.
apply/link_cat; exists (w *: x); split=> //.
by rewrite exprS -scalerA; exact: link_scale.
Qed.
Lemma unrolled_link l N x y : link (flatten (nseq N l)) x y ->
  exists f : nat -> 'cV[F]_(k + k), [/\ f 0%N = x, f N = y & forall j, (j < N)%N -> link l (f j) (f j.+1)].
Proof.
elim: N x => [|N ih] x /=.
  by case=> h1 h2; exists (fun=> x); split=> //; rewrite -[x]vsubmxK h1 h2 vsubmxK.
case/link_cat => z [h /ih [f [f0 fN hf]]]; exists (fun j => if j is j'.+1 then f j' else x); split=> //.
by case=> [|j] hj; [rewrite f0|exact: hf].
Qed.
Lemma tscatters_sum S (I : Type) (r : seq I) (c : I -> F) (f g : I -> 'cV[F]_(k + k)) :
  (forall i, tscatters S (usubmx (f i)) (dsubmx (f i)) (usubmx (g i)) (dsubmx (g i))) ->
  tscatters S (usubmx (\sum_(i <- r) c i *: f i)) (dsubmx (\sum_(i <- r) c i *: f i))
    (usubmx (\sum_(i <- r) c i *: g i)) (dsubmx (\sum_(i <- r) c i *: g i)).
Proof.
move=> h; elim: r => [|i r ih]; first by rewrite !big_nil /tscatters !raddf0 !col_mx0 mulmx0.
rewrite !big_cons !linearD !linearZ /=; move: ih (h i).
rewrite /tscatters => ih hi.
by rewrite -!add_col_mx -!scale_col_mx mulmxDr -scalemxAr -hi -ih.
Qed.
End Cells.

(** The roots of a complex number. *)
Lemma cexp_onto (W : C) : W != 0 -> exists z, cexp z = W.
Proof.
case: W => x y W0; have [] := atan2P y x; set r := sqrt _ => h1 h2.
have r0 : (0 < r)%Re.
  apply: sqrt_lt_R0; case: (Rle_lt_dec (x * x + y * y) 0) => // h.
  have e1 : x = 0%Re by nra.
  have e2 : y = 0%Re by nra.
  by move/eqP: W0; case; rewrite e1 e2.
by exists (ln r, atan2 y x); rewrite /cexp /= exp_ln // h1 h2.
Qed.
Lemma root_of (W : C) N : (0 < N)%N -> W != 0 -> exists r : C, r ^+ N = W /\ r != 0.
Proof.
move=> hN /cexp_onto [z <-]; exists (cexp (z / N%:R)); split; last exact: cexp_neq0.
rewrite cexpX; congr cexp; rewrite mulfVK // natRtoC; apply/eqP => /RtoC_inj; apply: not_0_INR => e.
by rewrite e in hN.
Qed.
Lemma waveC N j x : wave N (Z.of_nat j) x = wave N (Zpos xH) x ^+ j.
Proof.
have -> : wave N (Z.of_nat j) x = wave N (Z.of_nat x) j.
  by rewrite /wave -!INR_IZR_INZ; congr (cexp (- (ci * RtoC _))); rewrite /Rdiv; ring.
by rewrite wave_pow; congr (_ ^+ j); rewrite /wave -INR_IZR_INZ; congr (cexp (- (ci * RtoC _))); rewrite /Rdiv /=; ring.
Qed.

Section Fold.
Variable k : nat.
Implicit Types (S : 'M[C]_(k + k)) (x : 'cV[C]_(k + k)).

Lemma folded_cell S l S' N W x : (0 < N)%N -> is_pile S l -> is_pile S' (flatten (nseq N l)) -> W != 0 ->
  bloch_wave S' W x -> exists w y, w ^+ N = W /\ bloch_wave S w y.
Proof.
move=> hN h h' W0 /(pile_bloch _ _ h') [x0 /unrolled_link [f [f0 fN hf]]].
have [r [hr r0]] := root_of hN W0.
pose w (i : 'I_N) := r / wave N (Zpos xH) i.
have z0 i : wave N (Zpos xH) i != 0 by exact: cexp_neq0.
have w0 i : w i != 0 by rewrite mulf_neq0 // invr_neq0.
have wN i : w i ^+ N = W.
  rewrite exprMn hr exprVn -waveC -[Z.of_nat N]Z.mul_1_r wave_period // invr1 mulr1 //.
pose z i := \sum_(j < N) (w i)^-1 ^+ j *: f j.
have hz i : tscatters S (usubmx (z i)) (dsubmx (z i)) (usubmx (w i *: z i)) (dsubmx (w i *: z i)).
  pose g j := (w i * (w i)^-1 ^+ j) *: f j.
  have -> : w i *: z i = \sum_(j < N) (w i)^-1 ^+ j *: f j.+1.
    apply/eqP; rewrite eq_sym -subr_eq0 scaler_sumr.
    have -> : \sum_(j < N) (w i)^-1 ^+ j *: f j.+1 = \sum_(j < N) g j.+1.
      by apply: eq_bigr => j _; rewrite /g exprS mulVKf.
    have -> : \sum_(j < N) w i *: ((w i)^-1 ^+ j *: f j) = \sum_(j < N) g j by apply: eq_bigr => j _; rewrite scalerA.
    rewrite -sumrB -(big_mkord xpredT (fun j => g j.+1 - g j)) telescope_sumr //.
    by rewrite /g fN f0 expr0 mulr1 scalerA -mulrA exprVn wN mulVf // mulr1 subrr.
  by apply: tscatters_sum => j; apply/(pile_link _ _ h); exact: hf.
have hs : \sum_i z i = RtoC (INR N) *: x.
  rewrite exchange_big /=.
  have e (j : 'I_N) : \sum_i (w i)^-1 ^+ j *: f j = (r^-1 ^+ j * (if Z.eqb (Z.of_nat j) BinNums.Z0 then RtoC (INR N) else 0)) *: f j.
    rewrite -scaler_suml; congr (_ *: _).
    have -> : \sum_i (w i)^-1 ^+ j = \sum_(i < N) r^-1 ^+ j * wave N (Z.of_nat j) i.
      by apply: eq_bigr => i _; rewrite /w invfM invrK exprMn waveC.
    by rewrite -mulr_sumr wave_sum //; have := ltn_ord j; move/ltP; lia.
  rewrite (eq_bigr _ (fun j _ => e j)) (bigD1 (Ordinal hN)) //= expr0 mul1r f0 big1 ?addr0 // => j hj.
  have -> : Z.eqb (Z.of_nat j) BinNums.Z0 = false.
    by apply/Z.eqb_neq => hj0; move/eqP: hj; case; apply: val_inj => /=; lia.
  by rewrite mulr0 scale0r.
have /existsP [i hi] : [exists i, z i != 0].
  apply: contraT; rewrite negb_exists => /forallP hn; move: hs; rewrite big1 => [|i _]; last by apply/eqP; rewrite -[_ == _]negbK.
  move/esym/eqP; rewrite scaler_eq0 (negbTE x0) orbF => /eqP /RtoC_inj h0.
  by case: (not_0_INR N _ h0) => e; rewrite e in hN.
exists (w i), (z i); split; first exact: wN.
by split=> //; rewrite -!linearZ; exact: hz.
Qed.
End Fold.

Section Named.
Variables (F : fieldType) (k : nat) (p : stackings) (layers : seq string) (mat : string -> 'M[F]_(k + k)).
Hypothesis pos : positive_repeats p.
Lemma cell_pile name ls S : cell_of p layers mat name ls S -> is_pile S (map mat ls).
Proof.
case=> hu [d [req [hg hs]]]; have [ls' [hu' ha hp]] := stack_pile pos (computed_leaf hg) hs.
by have [e _] := pmap_computed ha; rewrite (unrolled_unique hu hu') -e.
Qed.
Lemma cell_shift n1 n2 l1 l2 S1 S2 w : cell_of p layers mat n1 (l1 ++ l2) S1 -> cell_of p layers mat n2 (l2 ++ l1) S2 ->
  w != 0 -> bloch_factor S1 w -> bloch_factor S2 w.
Proof.
move=> /cell_pile h1 /cell_pile h2 w0 [v /blochE hv]; rewrite !map_cat in h1 h2.
by have [y /blochE hy] := shifted_cell h1 h2 w0 hv; exists y.
Qed.
Lemma cell_repeat n1 n2 l N S1 S2 w : cell_of p layers mat n1 l S1 -> cell_of p layers mat n2 (flatten (nseq N l)) S2 ->
  bloch_factor S1 w -> bloch_factor S2 (w ^+ N).
Proof.
move=> /cell_pile h1 /cell_pile h2 [v /blochE /(pile_bloch _ _ h1) [v0 hv]]; exists v; apply/blochE/(pile_bloch _ _ h2); split=> //.
by rewrite map_flatten map_nseq; exact: repeated_link.
Qed.
End Named.
Lemma cell_fold k p layers (mat : string -> 'M[C]_(k + k)) n1 n2 l N S1 S2 W : positive_repeats p -> (0 < N)%N ->
  cell_of p layers mat n1 l S1 -> cell_of p layers mat n2 (flatten (nseq N l)) S2 ->
  W != 0 -> bloch_factor S2 W -> exists w, w ^+ N = W /\ bloch_factor S1 w.
Proof.
move=> pos hN /(cell_pile pos) h1 /(cell_pile pos) h2 W0 [v /blochE hv]; rewrite map_flatten map_nseq in h2.
by have [w [y [e /blochE hy]]] := folded_cell hN h1 h2 W0 hv; exists w; split=> //; exists y.
Qed.

(** A crystal of two layers, and three ways to name its period. *)
Definition crystal2 : stackings :=
  [:: ("ab", ([:: "a"; "b"], None)); ("ba", ([:: "b"; "a"], None)); ("thrice", ([:: "ab"], Some (Zpos (xI xH))))]%string.
Definition two_mats (name : string) : 'M[C]_(1 + 1) :=
  if (name == "a")%string then sc (2%:R : C) 0 0 3%:R else sc (1 : C) 1 0 1.
Lemma multS_tri (F : fieldType) (a b d a' b' d' : F) :
  multS (sc a b 0 d) (sc a' b' 0 d') = Ok (sc (a' * a) (b' + a' * b * d') 0 (d * d')).
Proof.
have h : 1 - b * 0 != 0 :> F by rewrite mulr0 subr0 oner_eq0.
by rewrite sc_multS // !mulr0 subr0 !mul0r !invr1 !mul1r !addr0 mulr1.
Qed.
Lemma tri_factor (F : fieldType) (a b d : F) : bloch_factor (sc a b 0 d) a.
Proof.
exists (col_mx 1%:M 0); apply/blochE; split; first by apply/eqP => /(congr1 usubmx) /matrixP /(_ 0 0); rewrite col_mxKu !mxE => /eqP; rewrite oner_eq0.
rewrite /tscatters /sc col_mxKu col_mxKd scaler0 mul_block_col !mulmx0 !addr0 !mulmx1 scale_scalar_mx mulr1.
by rewrite (raddf0 (scalar_mx_additive _ 1)).
Qed.
Lemma supercell_example : exists S1 S2 S3 : 'M[C]_(1 + 1), let layers := [:: "a"; "b"]%string in
  [/\ positive_repeats crystal2, cell_of crystal2 layers two_mats "ab" ([:: "a"%string] ++ [:: "b"%string]) S1,
      cell_of crystal2 layers two_mats "ba" ([:: "b"%string] ++ [:: "a"%string]) S2 &
      cell_of crystal2 layers two_mats "thrice" (flatten (nseq 3 [:: "a"; "b"]))%string S3] /\
  [/\ (2%:R : C) != 0, bloch_factor S1 2%:R & bloch_factor S3 (2%:R ^+ 3)].
Proof.
pose S1 : 'M[C]_(1 + 1) := sc (1 * 2%:R) (1 + 1 * 0 * 1) 0 (3%:R * 1).
pose S2 : 'M[C]_(1 + 1) := sc (2%:R * 1) (0 + 2%:R * 1 * 3%:R) 0 (1 * 3%:R).
have h1 : multS (two_mats "a") (two_mats "b") = Ok S1 by exact: multS_tri.
have h2 : multS (two_mats "b") (two_mats "a") = Ok S2 by exact: multS_tri.
have [S4 h4] : exists S4, multS S1 S1 = Ok S4 by eexists; exact: multS_tri.
have [S3 h3] : exists S3, multS S4 S1 = Ok S3.
  by move: h4; rewrite multS_tri; case=> <-; eexists; exact: multS_tri.
have ua : unrolled crystal2 "a" [:: "a"%string] by constructor.
have ub : unrolled crystal2 "b" [:: "b"%string] by constructor.
have pos : positive_repeats crystal2.
  by move=> name names z; rewrite /crystal2 /look; do 3 (case: eqP => _; first by case=> // *; lia).
have c1 : cell_of crystal2 [:: "a"; "b"]%string two_mats "ab" ([:: "a"%string] ++ [:: "b"%string]) S1.
  split; first by apply: (@unrolled_stack crystal2 "ab" [:: "a"; "b"]%string None ([:: "a"%string] ++ [:: "b"%string]) erefl);
    apply: unrolled_cons ua (unrolled_all1 ub).
  exists 5%N, [:: "a"; "b"]%string; split; first by vm_compute.
  by rewrite /= h1.
have c2 : cell_of crystal2 [:: "a"; "b"]%string two_mats "ba" ([:: "b"%string] ++ [:: "a"%string]) S2.
  split; first by apply: (@unrolled_stack crystal2 "ba" [:: "b"; "a"]%string None ([:: "b"%string] ++ [:: "a"%string]) erefl);
    apply: unrolled_cons ub (unrolled_all1 ua).
  exists 5%N, [:: "b"; "a"]%string; split; first by vm_compute.
  by rewrite /= h2.
have c3 : cell_of crystal2 [:: "a"; "b"]%string two_mats "thrice" (flatten (nseq 3 [:: "a"; "b"]))%string S3.
  split; first by apply: (@unrolled_stack crystal2 "thrice" [:: "ab"]%string (Some (Zpos (xI xH))) [:: "a"; "b"]%string erefl);
    apply: unrolled_all1; case: c1.
  exists 5%N, [:: "a"; "b"]%string; split; first by vm_compute.
  by rewrite /= h1 /= h4 /= h3.
have f1 : bloch_factor S1 2%:R by rewrite -[2%:R]mul1r; exact: tri_factor.
exists S1, S2, S3; split; first by split.
split=> //; last exact: cell_repeat c1 c3 f1.
by rewrite natRtoC; apply/eqP => /RtoC_inj /=; lra.
Qed.
