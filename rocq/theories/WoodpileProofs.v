(** Proofs of C90 and C91. *)
From Coq Require Import Reals ZArith Lra Lia String.
From mathcomp Require Import all_ssreflect all_algebra.
From Coquelicot Require Import Complex.
From Verif Require Import Base CField CFun StringEq ModelRedheffer ModelLayer ModelExpansion ModelFlux ModelFourier ModelDevice
  ModelDraw ModelRest SpecDevice SpecRest PropDevice SpecFourier ExpansionProofs.
Set Implicit Arguments. Unset Strict Implicit. Unset Printing Implicit Defensive.
Import GRing.Theory.
Local Open Scope ring_scope.

(** * C90 *)
Section Layers.
Variable eig : forall m, 'M[C]_m -> 'rV[C]_m * 'M[C]_m.
Variable J1 : R -> R.

Lemma uniform_function n e kp wl eps d b : eps <> 0 ->
  same_answer (scattering_uniform_layer n e kp wl eps d b) (layer_solve eig J1 n (Layer e (UNIFORM eps) d b) kp wl).
Proof.
move=> h0; rewrite /scattering_uniform_layer /layer_solve /=.
case: (krows _ _ _ _ _) => [k|//] /=; case: (free_space_eigenmodes _ _) => [f|//] /=.
case: (solve_uniform_layer _ _ _ _) => [[[W V] L]|//] /=; case: (build_scatmat _ _ _ _ _ _ _) => [S|//] /=.
rewrite /one_over; case: eqP => // _; case: b => /=; split=> // W' V' L'; split=> //.
- by case=> -> -> ->.
- by case=> -> -> ->.
Qed.

Lemma structured_function n e kp wl A d b :
  same_answer (scattering_structured_layer eig n e kp wl A d b) (layer_solve eig J1 n (Layer e (FFT A) d b) kp wl).
Proof.
rewrite /scattering_structured_layer /layer_solve /=.
case: (krows _ _ _ _ _) => [k|//] /=; case: (free_space_eigenmodes _ _) => [f|//] /=.
case: (convolution_matrix _ _ _) => [Cm|//] /=.
rewrite /solve_structured_layer; case hi : (inv Cm) => [IC|//] /=.
case: (eig _) => lam WI; case: (divcols _ _) => [VI|//] /=; case: (build_scatmat _ _ _ _ _ _ _) => [S|//] /=.
case: b => /=; split=> // W' V' L'; split=> //.
- by case=> -> -> ->.
- by case=> -> -> ->.
Qed.
End Layers.

(** * C91 *)
Lemma far (m : Z) : [\/ IZR m = 0%Re, IZR m = 1%Re, IZR m = (-1)%Re | (2 <= IZR m)%Re \/ (IZR m <= -2)%Re].
Proof.
have [h|[h|[h|[h|h]]]] : m = Z0 \/ m = BinNums.Zpos xH \/ m = BinNums.Zneg xH \/ Z.le (BinNums.Zpos (xO xH)) m \/ Z.le m (BinNums.Zneg (xO xH)) by lia.
- by rewrite h; apply: Or41.
- by rewrite h; apply: Or42.
- by rewrite h; apply: Or43.
- by apply: Or44; left; apply: (IZR_le 2).
- by apply: Or44; right; apply: (IZR_le _ (BinNums.Zneg (xO xH))).
Qed.

Section Rods.
Variables (w s : R).
Hypothesis hs : (0 <= s <= 1 / 2)%Re.

Lemma one_rod y : (- (1 / 2) <= y <= 1 / 2)%Re -> in_rods w [:: 0%Re] y <-> (Rabs y <= w / 2)%Re.
Proof.
clear s hs.
move=> hy; split; last first.
  move=> h; exists Z0, 0%Re; split; first by left.
  by rewrite (_ : (y - 0 - 0 = y)%Re) //; lra.
case=> m [c [[<-|//] h]]; move: h; rewrite /Rabs; destruct (far m) as [e|e|e|e]; rewrite ?e;
  repeat destruct (Rcase_abs _); lra.
Qed.
Lemma two_rods y : (- (1 / 2) <= y <= 1 / 2)%Re ->
  in_rods w [:: s; (- s)%Re] y <-> (Rabs (y - s) <= w / 2)%Re \/ (Rabs (y + s) <= w / 2)%Re.
Proof.
move=> hy; split; last first.
  case=> h; [exists Z0, s | exists Z0, (- s)%Re]; (split; first by rewrite /=; auto).
    by rewrite (_ : (y - s - 0 = y - s)%Re) //; lra.
  by rewrite (_ : (y - - s - 0 = y + s)%Re) //; lra.
case=> m [c [[<-|[<-|//]] h]]; move: h; rewrite /Rabs; destruct (far m) as [e|e|e|e]; rewrite ?e;
  repeat destruct (Rcase_abs _); lra.
Qed.
End Rods.

Lemma positionE n k : linspace n k = position n k.
Proof.
rewrite /linspace /position; case: eqP => // ->; rewrite subnn.
by rewrite (_ : INR 0 = 0%Re) // /Rdiv Rinv_0; lra.
Qed.
Lemma position_bounds n k : (k < n)%N -> (- (1 / 2) <= position n k <= 1 / 2)%Re.
Proof.
move=> h; rewrite /position; case: (ltnP 1 n) => hn; last first.
  have -> : n = 1%N by apply/eqP; rewrite eqn_leq hn (leq_trans _ h).
  by rewrite subnn (_ : INR 0 = 0%Re) // /Rdiv Rinv_0; lra.
have h1 : (0 < INR (n - 1))%Re by apply: lt_0_INR; apply/ltP; rewrite subn_gt0.
have h2 : (INR k <= INR (n - 1))%Re by apply: le_INR; apply/leP; rewrite leq_subRL ?add1n // (leq_trans _ hn).
have h3 := pos_INR k.
have h4 : (0 <= INR k / INR (n - 1))%Re by apply: Rmult_le_pos => //; apply: Rlt_le; apply: Rinv_0_lt_compat.
suff : (INR k / INR (n - 1) <= 1)%Re by lra.
apply: (Rmult_le_reg_r (INR (n - 1))) => //; rewrite /Rdiv Rmult_assoc Rinv_l; lra.
Qed.

Section Wood.
Variables (n : nat) (w eps s h : R) (pw res0 : nat * nat) (c : crystal n).
Hypothesis hc : make_woodpile n w eps s h pw res0 = Ok c.

Definition pictureA : array2 :=
  picture (draw_rectangle (Drawing res0 square (1 : C_eqType) (fun _ _ => 1) [::]) 0%Re 0%Re 1%Re w (RtoC eps)).
Definition pictureC : array2 :=
  picture (draw_rectangle (draw_rectangle (Drawing res0 square (1 : C_eqType) (fun _ _ => 1) [::]) 0%Re s 1%Re w (RtoC eps))
    0%Re (- s)%Re 1%Re w (RtoC eps)).

Lemma woodpileE : [/\ (0 < res0.1)%N, (0 < res0.2)%N & exists c0, mk_crystal n pw (LatticeName "square") 1%Re false 1 1 = Ok c0 /\
  set_device (add_layer_pixmap (add_layer_pixmap (add_layer_pixmap (add_layer_pixmap c0 "A" pictureA h)
    "B" (transposed pictureA) h) "C" pictureC h) "D" (transposed pictureC) h)
    [:: "A"; "B"; "C"; "D"]%string (inr [:: false; false; false; false]) = Ok c].
Proof.
move: hc; rewrite /make_woodpile /mk_drawing; case: ifP => //= /negbT; rewrite negb_or -!lt0n => /andP [h1 h2].
by case: (mk_crystal _ _ _ _ _ _ _) => [c0|//] /= h3; split=> //; exists c0.
Qed.

Lemma RlebE x y : reflect (x <= y)%Re (Rleb x y).
Proof. by rewrite /Rleb; destruct (Rle_dec x y) as [hh|hh]; constructor. Qed.

Lemma rod_mask y0 i j : (i < res0.1)%N -> (j < res0.2)%N ->
  forall cv it, let d := Drawing res0 square (1 : C_eqType) cv it in
  d_canvas (draw_rectangle d 0%Re y0 1%Re w (RtoC eps)) i j =
  if Rleb (Rabs (position res0.2 j - y0)) (w / 2) then RtoC eps else cv i j.
Proof.
move=> hi hj cv it d; rewrite /draw_rectangle /paint /= /dX /dY /= !positionE.
have b1 := position_bounds hi; have b2 := position_bounds hj.
set x := position _ i in b1 *; set y := position _ j in b2 *.
have -> : (Rleb (0 - 1 / 2) (1 * x + 0 * y) && Rleb (1 * x + 0 * y) (0 - 1 / 2 + 1))%Re = true.
  by apply/andP; split; apply/RlebE; lra.
rewrite /=; congr (if _ then _ else _).
apply/idP/idP.
- by case/andP => /RlebE h1 /RlebE h2; apply/RlebE; rewrite /Rabs; destruct (Rcase_abs _); lra.
- by move/RlebE; rewrite /Rabs; destruct (Rcase_abs _) => h1; apply/andP; split; apply/RlebE; lra.
Qed.

Lemma pictureA_rods : rods_across pictureA res0.1 res0.2 w eps [:: 0%Re].
Proof.
split=> // i j hi hj; rewrite /pictureA /picture; cbn [a_at]; rewrite (rod_mask _ hi hj) Rminus_0_r.
have := one_rod w (position_bounds hj) => H.
case: RlebE => h1; split=> //; first by case; apply/H.
by move/H.
Qed.
Lemma pictureC_rods : (0 <= s <= 1 / 2)%Re -> rods_across pictureC res0.1 res0.2 w eps [:: s; (- s)%Re].
Proof.
move=> hs; split=> // i j hi hj; rewrite /pictureC /picture.
rewrite [draw_rectangle (Drawing _ _ _ _ _) _ _ _ _ _]/draw_rectangle /paint.
set cv := fun i j : nat => if _ then _ else _; set it := _ ++ _; cbn [a_at d_shape d_lattice d_background].
rewrite (rod_mask _ hi hj cv it).
have -> : cv i j = if Rleb (Rabs (position res0.2 j - s)) (w / 2) then RtoC eps else 1.
  by rewrite -(rod_mask s hi hj (fun _ _ => 1) [::]).
have := two_rods w hs (position_bounds hj) => H.
rewrite (_ : (position res0.2 j - - s = position res0.2 j + s)%Re); last by lra.
case: RlebE => h1; first by split=> //; case; apply/H; right.
case: RlebE => h2; first by split=> //; case; apply/H; left.
by split=> // /H [].
Qed.

Lemma woodpile_layers : [/\ holds_picture c "A" pictureA h, holds_picture c "B" (transposed pictureA) h,
  holds_picture c "C" pictureC h & holds_picture c "D" (transposed pictureC) h] /\ crystal_depth c = Ok (4 * h)%Re.
Proof.
have [_ _ [c0 [h0]]] := woodpileE.
have -> : c0 = crystal_of n (c_exp c0) false 1 1.
  move: h0; rewrite /mk_crystal /=; case: (mk_expansion _ _) => [e|//] /=; case: eqP => //= _ [<-] //.
rewrite /set_device /= => -[<-]; split.
  by split; eexists; (split; [reflexivity|]); do 2 eexists.
by rewrite /crystal_depth /=; congr (Ok _); lra.
Qed.

Lemma picture_real (d : drawing C_eqType) : (forall i j, snd (d_canvas d i j : C) = 0%Re) -> real_picture (picture d).
Proof. by move=> hd i j *; apply: hd. Qed.
Lemma pictureA_real : real_picture pictureA.
Proof. by apply: picture_real => i j /=; case: ifP. Qed.
Lemma pictureC_real : real_picture pictureC.
Proof. by apply: picture_real => i j /=; case: ifP => // _; case: ifP. Qed.
Lemma transposed_real A : real_picture A -> real_picture (transposed A).
Proof. by move=> hA i j hi hj; apply: hA. Qed.

Lemma woodpile_history eig J1 : exists c0 ops, [/\ created c0 false (RtoC 1) (RtoC 1), all_calls lossless_call ops & history eig J1 c0 ops c].
Proof.
have [_ _ [c0 [h0 h1]]] := woodpileE.
exists c0, [:: AddPixmap "A" pictureA h; AddPixmap "B" (transposed pictureA) h; AddPixmap "C" pictureC h;
  AddPixmap "D" (transposed pictureC) h; SetDevice [:: "A"; "B"; "C"; "D"]%string (inr [:: false; false; false; false])].
split.
- by left; exists pw, (LatticeName "square"), 1%Re.
- split; first by split=> //; apply: pictureA_real.
  split; first by split=> //; apply/transposed_real/pictureA_real.
  split; first by split=> //; apply: pictureC_real.
  split; first by split=> //; apply/transposed_real/pictureC_real.
  by split=> // x; rewrite !inE => /or4P [] /eqP ->.
- do 4 (eapply history_cons; first by constructor).
  by eapply history_cons; [constructor; exact: h1 | constructor].
Qed.
End Wood.

Lemma woodpile_made n w eps s h pw res0 (c : crystal n) : make_woodpile n w eps s h pw res0 = Ok c -> (0 <= s <= 1 / 2)%Re ->
  exists A B Cc D, [/\ rods_across A res0.1 res0.2 w eps [:: 0%Re], exchanged A B,
    rods_across Cc res0.1 res0.2 w eps [:: s; (- s)%Re] & exchanged Cc D] /\
    [/\ holds_picture c "A" A h, holds_picture c "B" B h, holds_picture c "C" Cc h & holds_picture c "D" D h] /\
    crystal_depth c = Ok (4 * h)%Re.
Proof.
move=> hc hs; exists (pictureA w eps res0), (transposed (pictureA w eps res0)), (pictureC w eps s res0), (transposed (pictureC w eps s res0)).
by split; [split=> //; [exact: pictureA_rods | exact: pictureC_rods] | exact: woodpile_layers hc].
Qed.
Lemma woodpile_ok n w eps s h pw res0 : (0 < res0.1)%N -> (0 < res0.2)%N -> odd pw.1 -> odd pw.2 -> n = (pw.1 * pw.2)%N ->
  is_ok (make_woodpile n w eps s h pw res0).
Proof.
move=> h1 h2 o1 o2 hn; rewrite /make_woodpile /mk_drawing !gtn_eqF //= /mk_crystal /=.
case he : (mk_expansion _ _) => [e|] /=; last first.
  exfalso; move: he; rewrite /mk_expansion /reciproc /=; destruct (Req_EM_T _ 0) as [hh|hh]; first by lra.
  by rewrite /= /generate_expansion_indices o1 o2.
have [b [idx [_ _ ->]]] := mk_expansion_ok he.
by rewrite /e_size /= hn eqxx /=; eexists.
Qed.

Lemma woodpile_energy eig J1 n w eps s h pw res0 (c c1 c2 : crystal n) wl te tm th ph kp R T :
  eigen_equation eig -> make_woodpile n w eps s h pw res0 = Ok c -> set_source c wl te tm th ph kp = Ok c1 ->
  step eig J1 c1 Solve c2 -> good_source c2 -> poynting_flux_end c2 = Ok (R, T) -> (R + T = 1)%Re.
Proof.
move=> he hc h1 h2 h3 h4.
have [c0 [ops [k1 k2 k3]]] := woodpile_history hc eig J1.
apply: (@C16_energy_conservation eig J1 n 1 1 c0 c1 c2 (ops ++ [:: SetSource wl te tm th ph kp])) => //.
- by elim: (ops) k2 => [|o r IH] //= [? ?]; split=> //; apply: IH.
- elim: k3 h1 => [c'|c' o ops' c'' c3 st _ IH] h1 /=.
    by eapply history_cons; [constructor; exact: h1 | constructor].
  by eapply history_cons; [exact: st | apply: IH].
Qed.
