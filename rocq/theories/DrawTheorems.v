(** Drawings: final forms and witnesses. *)
From Coq Require Import Reals ZArith String Lra Lia.
From mathcomp Require Import all_ssreflect all_algebra.
From Coquelicot Require Import Complex.
From Verif Require Import Base CField CFun StringEq ModelExpansion ModelFourier ModelDraw SpecDraw DrawProofs PictureProofs.
Set Implicit Arguments. Unset Strict Implicit. Unset Printing Implicit Defensive.

Section Draw.
Variables (V : eqType).
Implicit Types (d : drawing V) (o : op V).

Lemma draw1_listed d o d' : draw1 d o = Ok d' -> ~~ is_parallelogram o -> exists it, islands d' = islands d ++ [:: it] /\ listed o it.
Proof.
case: o => [x y r e|x y w h e|x y a b r e|x y b h t e] //=.
- by case=> <- _; eexists; split.
- case=> <- _; eexists; split; first by []; congr Item; congr [:: _; _; _; _]; field.
- rewrite /draw_ellipse; destruct (Req_EM_T a 0) => //; destruct (Req_EM_T b 0) => // -[<-] _.
  by eexists; split.
Qed.

Lemma draw_all_listed d os d' : draw_all d os = Ok d' -> ~~ has (@is_parallelogram V) os ->
  exists its, islands d' = islands d ++ its /\ List.Forall2 (@listed V) os its.
Proof.
elim: os d => [|o os ih] d /=; first by case=> <- _; exists [::]; rewrite cats0.
case ho : (draw1 d o) => [d1|//]; cbn [bind] => h; rewrite negb_or => /andP [h1 h2].
have [it [e1 l1]] := draw1_listed ho h1; have [its [e2 l2]] := ih d1 h h2.
by exists (it :: its); rewrite e2 e1 -catA; split=> //; constructor.
Qed.

Lemma drawing_seen shape bg lat d os d' i j : mk_drawing shape bg lat = Ok d -> draw_all d os = Ok d' ->
  (has (@is_parallelogram V) os -> aligned (d_lattice d)) -> i < shape.1 -> j < shape.2 ->
  seen os bg (dX d i j) (dY d i j) (d_canvas d' i j) /\ same_frame d d'.
Proof.
rewrite /mk_drawing; case: ifP => // _ [<-] h hp hi hj.
by apply: (draw_all_seen (os0 := [::]) h) => //; right.
Qed.

Lemma disc_listed x y r (e : V) it X Y : listed (ODisc x y r e) it ->
  inside (ODisc x y r e) X Y <-> in_disc it (X + 1 / 2)%Re (Y + 1 / 2)%Re.
Proof.
move=> -> /=; have e1 : (X + 1 / 2 - (1 / 2 + x) = X - x)%Re by lra.
have e2 : (Y + 1 / 2 - (1 / 2 + y) = Y - y)%Re by lra.
split=> [h1|[c0 [c1 [q [[<- <- <-]]]]]]; last by rewrite e1 e2.
by exists (1 / 2 + x)%Re, (1 / 2 + y)%Re, r; rewrite e1 e2.
Qed.

Lemma rectangle_listed x y w h (e : V) it X Y : listed (ORectangle x y w h e) it ->
  inside (ORectangle x y w h e) X Y <-> in_bounds it (X + 1 / 2)%Re (Y + 1 / 2)%Re.
Proof.
move=> -> /=; split=> [h1|[x0 [y0 [x1 [y1 [[<- <- <- <-] h1]]]]]]; last lra.
by do 4 eexists; split; first by []; lra.
Qed.

(** * Witnesses *)
Variables (bg v : V).
Hypothesis ne : v != bg.

Lemma parallelogram_lost : exists d d', [/\ mk_drawing (3, 3) bg None = Ok d,
  draw_all d [:: OParallelogram 0 0 (1 / 2) (1 / 2) 0 v] = Ok d', d_canvas d' 1 1 = v & islands d' = [::]].
Proof.
do 2 eexists; split; [by []|by []| |by []].
pose d := Drawing (3, 3) square bg (fun _ _ => bg) [::]; pose o := OParallelogram 0 0 (1 / 2) (1 / 2) 0 v.
have ho : draw1 d o = Ok (draw_parallelogram d 0 0 (1 / 2) (1 / 2) 0 v) by [].
have [h _] := @draw1_canvas V d o _ 1 1 ho (fun _ => conj erefl Rlt_0_1) erefl erefl.
apply: h; rewrite /o /inside /dX /dY /linspace /= tan_0; lra.
Qed.

Lemma ellipse_lost J1 G s : (s <> 0)%Re -> exists d d' it, [/\ mk_drawing (3, 3) bg None = Ok d,
  draw_all d [:: OEllipse 0 0 (1 / 4) (1 / 8) 0 v] = Ok d', islands d' = [:: it], it_eps it = v &
  (do sh <- item_shape it; transform J1 sh G s) = Err AttributeError].
Proof.
move=> _; have e : exists d', draw_all (Drawing (3, 3) square bg (fun _ _ => bg) [::]) [:: OEllipse 0 0 (1 / 4) (1 / 8) 0 v] = Ok d'.
  by apply/draw_all_ok => o [<-|//] /= [|]; lra.
have [d' hd'] := e; have [its [e1 h]] := draw_all_listed hd' erefl.
inversion h; subst; inversion H3; subst; rewrite /= in H1.
by exists (Drawing (3, 3) square bg (fun _ _ => bg) [::]), d'; eexists; split=> //; rewrite ?e1 ?H1.
Qed.

(** The parallelogram is not where it should be. *)
Lemma parallelogram_moved : exists d d', [/\ mk_drawing (3, 3) bg None = Ok d,
  draw_all d [:: OParallelogram 0 (1 / 2) (1 / 2) (1 / 2) (PI / 4) v] = Ok d',
  dX d 1 2 = 0%Re /\ dY d 1 2 = (1 / 2)%Re & d_canvas d' 1 2 = bg].
Proof.
do 2 eexists; split; [by []|by []|by rewrite /dX /dY /linspace /=; lra|].
pose d := Drawing (3, 3) square bg (fun _ _ => bg) [::]; pose o := OParallelogram 0 (1 / 2) (1 / 2) (1 / 2) (PI / 4) v.
have ho : draw1 d o = Ok (draw_parallelogram d 0 (1 / 2) (1 / 2) (1 / 2) (PI / 4) v) by [].
have [_ h] := @draw1_canvas V d o _ 1 2 ho (fun _ => conj erefl Rlt_0_1) erefl erefl.
apply: h; rewrite /o /inside /dX /dY /linspace /= tan_PI4; lra.
Qed.

Lemma parallelogram_centred x y b h t X Y : (tan t * y = 0)%Re ->
  inside (OParallelogram x y b h t v) X Y <-> centred x y b h t X Y.
Proof. by move=> e; rewrite /inside /centred (_ : tan t * (Y - y) = tan t * Y)%Re // Rmult_minus_distr_l e; lra. Qed.

(** * Sampling *)
Lemma last_pixel shape lat d j : mk_drawing shape bg lat = Ok d -> 1 < shape.1 -> j < shape.2 ->
  same_site (d_lattice d) (dX d 0 j) (dY d 0 j) (dX d (shape.1 - 1) j) (dY d (shape.1 - 1) j).
Proof.
rewrite /mk_drawing; case: ifP => // _ [<-] h1 hj; exists (Zpos xH), Z0.
have p : (0 < INR (shape.1 - 1))%Re by apply: lt_0_INR; apply/ltP; rewrite subn_gt0.
have e : linspace shape.1 (shape.1 - 1) = (linspace shape.1 0 + 1)%Re.
  by rewrite /linspace (gtn_eqF h1) /=; field; lra.
by rewrite /dX /dY /= e; split; ring.
Qed.

Lemma two_pixels : exists d i i' j, [/\ mk_drawing (3, 3) bg None = Ok d, i < 3 /\ i' < 3, j < 3, i <> i' &
  same_site (d_lattice d) (dX d i j) (dY d i j) (dX d i' j) (dY d i' j)].
Proof. by eexists; exists 0, 2, 0; split=> //; apply: (@last_pixel (3, 3) None). Qed.

Lemma IZR_small z : (-1 < IZR z < 1)%Re -> z = Z0.
Proof. by move=> [h1 h2]; have := lt_IZR _ _ h2; have := lt_IZR (Zneg xH) z h1; lia. Qed.

Lemma linspace_diff n i i' z : i < n - 1 -> i' < n - 1 -> (linspace n i' = linspace n i + IZR z)%Re -> i = i'.
Proof.
move=> hi hi' h; have n1 : 1 < n by case: n hi {hi' h} => [|[|n]].
move: h; rewrite /linspace (gtn_eqF n1) => h.
have p : (0 < INR (n - 1))%Re by apply: lt_0_INR; apply/ltP; rewrite subn_gt0.
have q1 : (INR i < INR (n - 1))%Re by apply: lt_INR; apply/ltP.
have q2 : (INR i' < INR (n - 1))%Re by apply: lt_INR; apply/ltP.
have q3 := pos_INR i; have q4 := pos_INR i'.
have e1 : (INR i / INR (n - 1) * INR (n - 1) = INR i)%Re by field; lra.
have e2 : (INR i' / INR (n - 1) * INR (n - 1) = INR i')%Re by field; lra.
have ez : (IZR z * INR (n - 1) = INR i' - INR i)%Re.
  have -> : IZR z = (INR i' / INR (n - 1) - INR i / INR (n - 1))%Re by lra.
  by rewrite Rmult_minus_distr_r e1 e2.
have z0 : z = Z0 by apply: IZR_small; split; nra.
by apply: INR_eq; rewrite z0 /= in ez; lra.
Qed.

Lemma pixels_distinct shape lat d i j i' j' : mk_drawing shape bg lat = Ok d ->
  (l00 (d_lattice d) * l11 (d_lattice d) - l01 (d_lattice d) * l10 (d_lattice d) <> 0)%Re ->
  i < shape.1 - 1 -> i' < shape.1 - 1 -> j < shape.2 - 1 -> j' < shape.2 - 1 ->
  same_site (d_lattice d) (dX d i j) (dY d i j) (dX d i' j') (dY d i' j') -> i = i' /\ j = j'.
Proof.
rewrite /mk_drawing; case: ifP => // _ [<-] /=; set l := (if _ is Some l then l else _) => hdet h1 h2 h3 h4 [m [n []]].
rewrite /dX /dY /= -/l.
move: (l00 l) (l01 l) (l10 l) (l11 l) hdet => a b c e hdet.
set x := linspace _ i; set x' := linspace _ i'; set y := linspace _ j; set y' := linspace _ j' => e1 e2.
have ex : ((x' - x - IZR m) * (a * e - b * c) = 0)%Re.
  have -> : ((x' - x - IZR m) * (a * e - b * c) =
    e * (a * x' + c * y' - (a * x + c * y + IZR m * a + IZR n * c)) - c * (b * x' + e * y' - (b * x + e * y + IZR m * b + IZR n * e)))%Re by ring.
  by rewrite e1 e2; ring.
have ey : ((y' - y - IZR n) * (a * e - b * c) = 0)%Re.
  have -> : ((y' - y - IZR n) * (a * e - b * c) =
    a * (b * x' + e * y' - (b * x + e * y + IZR m * b + IZR n * e)) - b * (a * x' + c * y' - (a * x + c * y + IZR m * a + IZR n * c)))%Re by ring.
  by rewrite e1 e2; ring.
have kx : (x' - x - IZR m = 0)%Re by case: (Rmult_integral _ _ ex).
have ky : (y' - y - IZR n = 0)%Re by case: (Rmult_integral _ _ ey).
split; [apply: (linspace_diff (z := m) h1 h2)|apply: (linspace_diff (z := n) h3 h4)]; rewrite -/x -/x' -/y -/y'; lra.
Qed.

(** * Pictures *)
Variable le : rel V.
Lemma uniform_forgotten : exists d d', [/\ mk_drawing (2, 1) bg None = Ok d,
  from_numpy le d [:: 2; 1] [:: v; v] = Ok d', d_canvas d' 0 0 = bg & islands d' = [::]].
Proof.
do 2 eexists; split; first by [].
- rewrite /from_numpy [_ && _]/=; have -> : undup [:: v; v] = [:: v] by rewrite /= mem_head.
  have -> : sort le [:: v] = [:: v] by [].
  by [].
- by [].
by [].
Qed.

Lemma row_wrong : exists d d', [/\ mk_drawing (1, 2) bg None = Ok d, from_numpy le d [:: 1; 2] [:: bg; v] = Ok d' &
  d_canvas d' 0 1 = bg].
Proof.
pose X := [:: bg; v]; pose materials := sort le (undup X).
have mem z : (z \in materials) = (z \in X) by rewrite mem_sort mem_undup.
have iv : index v materials != index bg materials.
  apply/eqP => h; move/eqP: ne; apply.
  by rewrite -(nth_index bg (_ : v \in materials)) ?h ?nth_index // mem !inE eqxx ?orbT.
have hs : size materials == 1 = false.
  by rewrite size_sort /= inE [bg == v]eq_sym (negbTE ne).
have hscan : scan_all X bg materials (index bg materials) = [:: (1, 2, v)].
  rewrite /scan_all /= /scan_step /material_at /= iv /= eqxx /= iv nth_index // mem !inE eqxx orbT //.
pose d := Drawing (1, 2) square bg (fun _ _ => bg) [::].
exists d, (draw_interval 2 d (1, 2, v)); split=> //.
  rewrite /from_numpy [_ && _]/= -/materials hs [d_background _]/= mem inE eqxx /=.
  by rewrite hscan.
rewrite /draw_interval /draw_rectangle /=.
case: RlebQ => // h; exfalso; move: h; rewrite /dX /linspace /=; lra.
Qed.
End Draw.
