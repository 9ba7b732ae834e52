(** Drawings (khepri/draw.py). *)
From Coq Require Import Reals ZArith String.
From mathcomp Require Import all_ssreflect all_algebra.
From Coquelicot Require Import Complex.
From Verif Require Import Base CField CFun StringEq ModelFourier ModelDraw SpecDraw DrawProofs PictureProofs DrawTheorems.
Set Implicit Arguments. Unset Strict Implicit. Unset Printing Implicit Defensive.

(** C56: a picture of [L] values, two of them different and one of them the
    background, on a fresh drawing of [L] x [M] pixels. *)
Theorem C56_redrawn_partial (V : eqType) (le : rel V) (d : drawing V) L M (bg v1 : V) shape X :
  mk_drawing (L, M) bg None = Ok d ->
  ~~ ((1 < size shape) && (1 < nth 0 shape 0) && (1 < nth 0 shape 1)) ->
  size X = L -> bg \in X -> v1 \in X -> v1 != bg ->
  exists d' found, [/\ from_numpy le d shape X = Ok d', runs X bg bg L found,
    islands d' = [seq Item "rectangle" [:: (INR f.1.1 / INR L)%Re; 0%Re; (INR f.1.2 / INR L)%Re; 1%Re] f.2 | f <- found],
    same_frame d d' & forall i j, i < L -> j < M -> d_canvas d' i j = nth bg X i].
Proof. exact (@picture_drawn V le d L M bg v1 shape X). Qed.
Print Assumptions C56_redrawn_partial.

(** The rectangles fill the cell as the pixels do. *)
Theorem C56_tiled_partial (V : eqType) X (bg : V) L found i t y :
  size X = L -> runs X bg bg L found -> i < L -> in_pixel L i t -> (0 <= y <= 1)%Re ->
  let its := [seq Item "rectangle" [:: (INR f.1.1 / INR L)%Re; 0%Re; (INR f.1.2 / INR L)%Re; 1%Re] f.2 | f <- found] in
  (nth bg X i = bg -> forall it, List.In it its -> ~ in_bounds it t y) /\
  (nth bg X i <> bg -> (exists2 it, List.In it its & in_bounds it t y) /\
     forall it, List.In it its -> in_bounds it t y -> it_eps it = nth bg X i).
Proof. exact (@tiled V X bg L found i t y). Qed.
Print Assumptions C56_tiled_partial.

(** A uniform picture is forgotten. *)
Theorem C56_uniform_refuted (V : eqType) (bg v : V) (le : rel V) : v != bg ->
  exists d d', [/\ mk_drawing (2, 1) bg None = Ok d, from_numpy le d [:: 2; 1] [:: v; v] = Ok d',
    d_canvas d' 0 0 = bg & islands d' = [::]].
Proof. exact (fun _ => @uniform_forgotten V bg v le). Qed.
Print Assumptions C56_uniform_refuted.

(** A picture in one row is drawn along the other axis. *)
Theorem C56_row_refuted (V : eqType) (bg v : V) (le : rel V) : v != bg ->
  exists d d', [/\ mk_drawing (1, 2) bg None = Ok d, from_numpy le d [:: 1; 2] [:: bg; v] = Ok d' &
    d_canvas d' 0 1 = bg].
Proof. exact (fun h => @row_wrong V bg v h le). Qed.
Print Assumptions C56_row_refuted.

Example C56_example : exists d, mk_drawing (5, 2) 1 None = Ok d /\
  exists d' found, [/\ from_numpy leq d [:: 5; 1] [:: 4; 4; 1; 9; 4] = Ok d', runs [:: 4; 4; 1; 9; 4] 1 1 5 found,
    islands d' = [seq Item "rectangle" [:: (INR f.1.1 / INR 5)%Re; 0%Re; (INR f.1.2 / INR 5)%Re; 1%Re] f.2 | f <- found],
    same_frame d d' & forall i j, i < 5 -> j < 2 -> d_canvas d' i j = nth 1 [:: 4; 4; 1; 9; 4] i].
Proof. by eexists; split; [by []|exact: (@C56_redrawn_partial _ leq _ 5 2 1 4)]. Qed.

(** C57: the last shape wins.  Parallelograms are drawn row by row, which needs
    horizontal rows. *)
Theorem C57_last_wins (V : eqType) shape (bg : V) lat d os d' i j :
  mk_drawing shape bg lat = Ok d -> draw_all d os = Ok d' ->
  (has (@is_parallelogram V) os -> aligned (d_lattice d)) -> i < shape.1 -> j < shape.2 ->
  seen os bg (dX d i j) (dY d i j) (d_canvas d' i j) /\ same_frame d d'.
Proof. exact (@drawing_seen V shape bg lat d os d' i j). Qed.
Print Assumptions C57_last_wins.

Theorem C57_defined (V : eqType) (d : drawing V) os :
  (exists d', draw_all d os = Ok d') <-> forall o, List.In o os -> ~ flat o.
Proof. exact (@draw_all_ok V d os). Qed.
Print Assumptions C57_defined.

(** The description, in order, and what it describes. *)
Theorem C57_listed_partial (V : eqType) (d : drawing V) os d' :
  draw_all d os = Ok d' -> ~~ has (@is_parallelogram V) os ->
  exists its, islands d' = islands d ++ its /\ List.Forall2 (@listed V) os its.
Proof. exact (@draw_all_listed V d os d'). Qed.
Print Assumptions C57_listed_partial.

Theorem C57_rectangle_described (V : eqType) x y w h (e : V) it X Y : listed (ORectangle x y w h e) it ->
  inside (ORectangle x y w h e) X Y <-> in_bounds it (X + 1 / 2)%Re (Y + 1 / 2)%Re.
Proof. exact (@rectangle_listed V x y w h e it X Y). Qed.
Print Assumptions C57_rectangle_described.

Theorem C57_disc_described (V : eqType) x y r (e : V) it X Y : listed (ODisc x y r e) it ->
  inside (ODisc x y r e) X Y <-> in_disc it (X + 1 / 2)%Re (Y + 1 / 2)%Re.
Proof. exact (@disc_listed V x y r e it X Y). Qed.
Print Assumptions C57_disc_described.

(** Parallelograms are not in the description, ellipses have no transform. *)
Theorem C57_parallelogram_refuted (V : eqType) (bg v : V) : exists d d', [/\ mk_drawing (3, 3) bg None = Ok d,
  draw_all d [:: OParallelogram 0 0 (1 / 2) (1 / 2) 0 v] = Ok d', d_canvas d' 1 1 = v & islands d' = [::]].
Proof. exact (@parallelogram_lost V bg v). Qed.
Print Assumptions C57_parallelogram_refuted.

Theorem C57_ellipse_refuted (V : eqType) (bg v : V) J1 G s : (s <> 0)%Re ->
  exists d d' it, [/\ mk_drawing (3, 3) bg None = Ok d,
  draw_all d [:: OEllipse 0 0 (1 / 4) (1 / 8) 0 v] = Ok d', islands d' = [:: it], it_eps it = v &
  (do sh <- item_shape it; transform J1 sh G s) = Err AttributeError].
Proof. exact (@ellipse_lost V bg v J1 G s). Qed.
Print Assumptions C57_ellipse_refuted.

(** A disc under an ellipse under a parallelogram, on a square lattice. *)
Example C57_example : exists d d', [/\ mk_drawing (4, 4) 1 None = Ok d, aligned (d_lattice d) &
  draw_all d [:: ODisc 0 0 (1 / 3) 2; OEllipse 0 0 (1 / 4) (1 / 8) 1 3; OParallelogram 0 0 (1 / 2) (1 / 4) 1 4] = Ok d'].
Proof.
pose d := Drawing (4, 4) square 1 (fun _ _ => 1) [::].
have [d' h] : exists d', draw_all d [:: ODisc 0 0 (1 / 3) 2; OEllipse 0 0 (1 / 4) (1 / 8) 1 3; OParallelogram 0 0 (1 / 2) (1 / 4) 1 4] = Ok d'.
  by apply/C57_defined => o [<-|[<-|[<-|[]]]] //= [|]; Lra.lra.
by exists d, d'; split=> //; split=> //; exact: Rlt_0_1.
Qed.

(** C75: a parallelogram at the height of the x axis, or without tilt, is centred. *)
Theorem C75_centred_partial (V : eqType) (v : V) x y b h t X Y : (tan t * y = 0)%Re ->
  inside (OParallelogram x y b h t v) X Y <-> centred x y b h t X Y.
Proof. exact (@parallelogram_centred V v x y b h t X Y). Qed.
Print Assumptions C75_centred_partial.

(** Elsewhere it does not even contain its centre. *)
Theorem C75_moved_refuted (V : eqType) (bg v : V) : exists d d', [/\ mk_drawing (3, 3) bg None = Ok d,
  draw_all d [:: OParallelogram 0 (1 / 2) (1 / 2) (1 / 2) (PI / 4) v] = Ok d',
  dX d 1 2 = 0%Re /\ dY d 1 2 = (1 / 2)%Re & d_canvas d' 1 2 = bg].
Proof. exact (@parallelogram_moved V bg v). Qed.
Print Assumptions C75_moved_refuted.

(** C76: the pixels but the last row and the last column are different points of the
    crystal. *)
Theorem C76_distinct_partial (V : eqType) (bg : V) shape lat d i j i' j' : mk_drawing shape bg lat = Ok d ->
  (l00 (d_lattice d) * l11 (d_lattice d) - l01 (d_lattice d) * l10 (d_lattice d) <> 0)%Re ->
  i < shape.1 - 1 -> i' < shape.1 - 1 -> j < shape.2 - 1 -> j' < shape.2 - 1 ->
  same_site (d_lattice d) (dX d i j) (dY d i j) (dX d i' j') (dY d i' j') -> i = i' /\ j = j'.
Proof. exact (@pixels_distinct V bg shape lat d i j i' j'). Qed.
Print Assumptions C76_distinct_partial.

(** The last row of pixels is the first one, a lattice vector further. *)
Theorem C76_last_row (V : eqType) (bg : V) shape lat d j : mk_drawing shape bg lat = Ok d ->
  1 < shape.1 -> j < shape.2 ->
  same_site (d_lattice d) (dX d 0 j) (dY d 0 j) (dX d (shape.1 - 1) j) (dY d (shape.1 - 1) j).
Proof. exact (@last_pixel V bg shape lat d j). Qed.
Print Assumptions C76_last_row.

Theorem C76_twice_refuted (V : eqType) (bg : V) : exists d i i' j, [/\ mk_drawing (3, 3) bg None = Ok d,
  i < 3 /\ i' < 3, j < 3, i <> i' & same_site (d_lattice d) (dX d i j) (dY d i j) (dX d i' j) (dY d i' j)].
Proof. exact (@two_pixels V bg). Qed.
Print Assumptions C76_twice_refuted.

Example C76_example : exists d, mk_drawing (4, 4) 1 None = Ok d /\
  (l00 (d_lattice d) * l11 (d_lattice d) - l01 (d_lattice d) * l10 (d_lattice d) <> 0)%Re.
Proof. by eexists; split; [by []|rewrite /=; Lra.lra]. Qed.
