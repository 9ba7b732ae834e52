(** Proofs for C117. *)
From Coq Require Import Reals ZArith String Lra.
From mathcomp Require Import all_ssreflect all_algebra.
From Coquelicot Require Import Complex Rbar.
From Verif Require Import Base ZmodTac CField CFun StringEq ModelRedheffer ModelExpansion ModelFourier SpecFourier ModelTmat SpecTmat TmatProofs
  ModelLattice SpecLattice LatticeProofs SpecExp ExpProofs TmatTheorems ModelEz SpecEz EzProofs SpecScale SpecBloch SpecLoss LossPiles DetProofs SpecProfile ProfileProofs SpecTprofile.
Set Implicit Arguments. Unset Strict Implicit. Unset Printing Implicit Defensive.
Import GRing.Theory.
Local Open Scope ring_scope.

Section Pile.
Variables (J1 : R -> R) (n : nat) (expm : 'M[C]_((n + n) + (n + n)) -> 'M[C]_((n + n) + (n + n))).
Variables (p : nat * nat) (L : lattice) (wl : R) (kp : vec2).
Hypothesis hx : is_expm expm.
Notation M := 'M[C]_((n + n) + (n + n)).

(** The matrix A of a layer, which depends on its contents only. *)
Definition matA_res (c : contents) : res M :=
  do nq <- grid_size p;
  do data <- mapM (fun isl => do t <- grid_transform J1 isl.1 (l_G L) (l_area L); Ok (t, isl.2)) c.1;
  do epsg <- epsilon_g nq.2 data c.2 false;
  do epsinvg <- epsilon_g nq.2 data c.2 true;
  let nn := (w_rows (window L) %/ 2, w_cols (window L) %/ 2)%N in
  do indices <- mapM (coords_from_index p nn) (iota 0 (p.1 * p.2));
  matrix_a n indices (window L) epsg epsinvg wl kp.
Definition matA c : M := if matA_res c is Ok A then A else 0.

Lemma islands_parts isl host d pow S : scattering_matrix_islands J1 expm p L isl host wl kp d pow = Ok S ->
  exists U Vi, [/\ lattice_U n L wl kp = Ok U, lattice_Vi n L wl kp = Ok Vi, matA_res (isl, host) = Ok (matA (isl, host)) &
    sliced_layer expm U (matA (isl, host)) Vi (RtoC d) pow = Ok S].
Proof.
rewrite /scattering_matrix_islands /matA /matA_res; cbn [fst snd].
case: (grid_size p) => [nq|//]; cbn [bind]; case: (mapM _ _) => [data|//]; cbn [bind].
case: (epsilon_g _ _ _ false) => [e1|//]; cbn [bind]; case: (epsilon_g _ _ _ true) => [e2|//]; cbn [bind].
case hU : (lattice_U _ _ _ _) => [U|//]; cbn [bind]; case hV : (lattice_Vi _ _ _ _) => [Vi|//]; cbn [bind].
case: (mapM _ _) => [ind|//]; cbn [bind]; case hA : (matrix_a _ _ _ _ _ _ _) => [A|//]; cbn [bind] => h.
by exists U, Vi.
Qed.

Variables (U Vi : M).
Hypotheses (hU : lattice_U n L wl kp = Ok U) (hV : lattice_Vi n L wl kp = Ok Vi).
Definition T_of (s : contents * R) : M := U *m expm (RtoC s.2 *: - matA s.1) *m Vi.
Definition T_all (l : seq (contents * R)) : M := foldr (fun s acc => T_of s *m acc) 1%:M l.

Lemma T_split a d1 d2 : T_of (a, d1 + d2)%Re = T_of (a, d1) *m T_of (a, d2).
Proof.
rewrite /T_of; cbn [fst snd]; have -> : RtoC (d1 + d2)%Re = RtoC d1 + RtoC d2 by rewrite RtoC_plus.
rewrite (expm_translations (matA a) hx) -!mulmxA; congr (_ *m (_ *m _)).
by rewrite ![in RHS]mulmxA (mulmx1C (lattice_UV hU hV)) mul1mx.
Qed.
Lemma T_zero a : T_of (a, 0%Re) = 1%:M.
Proof.
rewrite /T_of; cbn [fst snd]; have -> : RtoC 0 *: - matA a = diag_mx (0 : 'rV[C]_((n + n) + (n + n))).
  by rewrite scale0r; apply/matrixP => i j; rewrite !mxE mul0rn.
rewrite (expm_exponential hx).2.
have -> : diag_mx (map_mx cexp (0 : 'rV[C]_((n + n) + (n + n)))) = 1%:M.
  by rewrite (_ : map_mx _ _ = const_mx 1) ?diag_const_mx //; apply/rowP => j; rewrite !mxE cexp0.
by rewrite mulmx1 (lattice_UV hU hV).
Qed.
Lemma T_profile l l' : no_negative_depth l -> no_negative_depth l' -> same_profile l l' -> T_all l = T_all l'.
Proof.
have conv t : no_negative_depth t -> List.Forall (laid (fun _ : contents => True)) t.
  by move=> h; apply: List.Forall_impl h => s hs; split.
move=> /conv h /conv h'; apply: (profile_step (P := fun l l' => T_all l = T_all l')) h h' => //.
- by move=> [a d] t t' _ /= -> ->; rewrite T_zero mul1mx.
- by move=> a d t t' _ /= ->.
- by move=> a d1 d2 t t' _ /= <-; rewrite T_split mulmxA.
Qed.

Lemma chain_T recipes (req : string -> option M) names l lp lm rp rm : computed_at J1 expm p L wl kp recipes req ->
  map (fun x => omap slab_of (recipes x)) names = map Some l ->
  SpecEz.chain (pmap req names) lp lm rp rm <-> transfers (T_all l) lp lm rp rm.
Proof.
move=> hq; elim: names l lp lm => [|x names ih] [|s l] lp lm //.
  move=> _; rewrite /transfers mul1mx; split; first by case=> -> ->.
  exact: eq_col_mx.
rewrite [map _ (x :: _)]/= [map _ (s :: _)]/=; case=> hs hl; have := hq x.
case: (recipes x) hs => [[[[isl host] d] pow]|//] [<-] [S hS] /islands_parts [U' [Vi' [hU' hV' _ hm]]].
move: hU' hV'; rewrite hU hV => -[eU] [eV]; subst U' Vi'.
have {}hm := sliced_exp hx (lattice_UV hU hV) hm.
rewrite /= hS /=; split.
  case=> gp [gm [/(matrix_s_meaning _ _ _ _ hm) h1 /(ih _ _ _ hl)]]; rewrite /transfers => h2.
  by move: h1; rewrite /transfers h2 mulmxA.
rewrite /transfers -mulmxA => h.
pose g := T_all l *m col_mx rp rm; exists (usubmx g), (dsubmx g); split.
  by apply/(matrix_s_meaning _ _ _ _ hm); rewrite /transfers vsubmxK.
by apply/(ih _ _ _ hl); rewrite /transfers vsubmxK.
Qed.
End Pile.

Section Same.
Variables (J1 : R -> R) (n : nat) (expm : 'M[C]_((n + n) + (n + n)) -> 'M[C]_((n + n) + (n + n))).
Variables (p : nat * nat) (L : lattice) (wl : R) (kp : vec2).
Hypothesis hx : is_expm expm.
Variables (q q' : string -> option recipe) (st st' : stackings) (name name' : string) (l l' : seq (contents * R)).
Hypotheses (hs : sound_project q st) (hs' : sound_project q' st').
Hypotheses (hm : made_of q st name l) (hm' : made_of q' st' name' l').
Hypotheses (hd : no_negative_depth l) (hd' : no_negative_depth l') (hp : same_profile l l').

Lemma pile_names (r : string -> option recipe) s d nm k S : sound_project r s -> made_of r s nm k -> pile_at J1 expm p L wl kp r s d nm S ->
  exists req names, [/\ computed_at J1 expm p L wl kp r req, map (fun x => omap slab_of (r x)) names = map Some k &
    forall lp lm rp rm, tscatters S lp lm rp rm <-> SpecEz.chain (pmap req names) lp lm rp rm].
Proof.
move=> [pos lf] [names hn hk] [req hq hS].
have leaves nm0 : req nm0 -> look s nm0 = None.
  move=> h; apply: lf => h0; have := hq nm0; rewrite h0 => e; by move: h; rewrite e.
have [ls [hu _ [hpile _]]] := stack_pile pos leaves hS.
by exists req, names; split=> //; rewrite (unrolled_unique hn hu).
Qed.

Lemma pile_profile d d' S S' : pile_at J1 expm p L wl kp q st d name S -> pile_at J1 expm p L wl kp q' st' d' name' S' -> S = S'.
Proof.
move=> /(pile_names hs hm) [r [ns [c1 e1 t1]]] /(pile_names hs' hm') [r' [ns' [c2 e2 t2]]].
have main U Vi : lattice_U n L wl kp = Ok U -> lattice_Vi n L wl kp = Ok Vi -> S = S'.
  move=> hU hV; apply: tscatters_inj => lp lm rp rm /t1 /(chain_T hx hU hV _ _ _ _ c1 e1) h.
  apply/t2/(chain_T hx hU hV _ _ _ _ c2 e2); rewrite -(T_profile J1 p hx hU hV hd hd' hp); exact: h.
have found (q0 : string -> option recipe) r0 ns0 k : computed_at J1 expm p L wl kp q0 r0 -> map (fun x => omap slab_of (q0 x)) ns0 = map Some k -> k <> [::] -> S = S'.
  case: ns0 k => [|x ns0] [|s k] // hq [hsx _] _; have := hq x; case: (q0 x) hsx => [[[[isl host] dd] pow]|//] _ [A _].
  by move=> /islands_parts [U [Vi [hU hV _ _]]]; exact: main hU hV.
case: (l) e1 => [|s k] e1; last exact: (found _ _ _ _ c1 e1).
case: (l') e2 => [|s' k'] e2; last exact: (found _ _ _ _ c2 e2).
have z1 : ns = [::] by case: (ns) e1.
have z2 : ns' = [::] by case: (ns') e2.
by apply: tscatters_inj => lp lm rp rm /t1 h; apply/t2; move: h; rewrite z1 z2.
Qed.
Lemma closed_profile d d' S S' : closed_at J1 expm p L wl kp q st d name S -> closed_at J1 expm p L wl kp q' st' d' name' S' -> S = S'.
Proof.
move=> [A [B [hA hB hS]]] [A' [B' [hA' hB' hS']]]; move: hS; rewrite (pile_profile hA hA'); move: hB; rewrite hB' => -[<-]; rewrite hS'.
by case.
Qed.
End Same.
