(** Property C109: islands given as pictures (T-matrix API). *)
From Coq Require Import Reals ZArith.
From mathcomp Require Import all_ssreflect all_algebra.
From Coquelicot Require Import Complex.
From Verif Require Import Base CField CFun ModelExpansion ModelFourier SpecFourier ModelTmat ModelLattice ModelPixmap SpecPixmap PixmapProofs.
Set Implicit Arguments. Unset Strict Implicit. Unset Printing Implicit Defensive.
Import GRing.Theory.
Local Open Scope ring_scope.

(** Without pictures this is the function of the other properties. *)
Theorem C109_shapes J1 n (expm : 'M[C]_((n + n) + (n + n)) -> 'M[C]_((n + n) + (n + n))) pw L islands host wl kp d pow :
  scattering_matrix_pictures J1 expm pw L [seq (inl s.1, s.2) | s <- islands] host wl kp d pow =
  scattering_matrix_islands J1 expm pw L islands host wl kp d pow.
Proof. exact (pictures_shapes J1 expm pw L islands host wl kp d pow). Qed.
Print Assumptions C109_shapes.

(** The table of a picture of any accepted size: the coefficients are multiplied by the
    number of pixels over the area of the cell, and the order (i, j) of the picture is
    stored where the order (i - q1 // 2, j - q2 // 2) is expected. *)
Theorem C109_table J1 q L map t eps host inverse T i j :
  island_table J1 q L (inr map) = Ok t -> epsilon_g q [:: (t, eps)] host inverse = Ok T ->
  a_at T i j = (if (i == q.1 %/ 2)%N && (j == q.2 %/ 2)%N then (if inverse then host^-1 else host) else 0) +
    (if inverse then eps^-1 - host^-1 else eps - host) *
    (RtoC (INR (a_rows map * a_cols map) / l_area L) * fourier_coef map (Z.of_nat i) (Z.of_nat j)).
Proof. exact (fun ht => @picture_table J1 q L map t ht eps host inverse T i j). Qed.
Print Assumptions C109_table.

(** Pictures of other sizes are refused. *)
Theorem C109_sizes J1 q L map t : island_table J1 q L (inr map) = Ok t ->
  (a_rows map = q.1 \/ a_rows map = 1%N) /\ (a_cols map = q.2 \/ a_cols map = 1%N).
Proof. exact (@picture_sizes J1 q L map t). Qed.
Print Assumptions C109_sizes.

(** A picture that fills the cell does not give the permittivity of the island: with
    3 x 3 orders, permittivity 4 and host 1 in a cell of area 1, the mean permittivity
    is 1 and the coefficient of the last order is 75. *)
Theorem C109_refuted J1 : exists L t T, [/\ mk_lattice (3, 3)%N (1%Re, 0%Re) (0%Re, 1%Re) (Float 1) (Float 1) = Ok L,
  island_table J1 (l_q L) L (inr (full (l_q L))) = Ok t,
  epsilon_g (l_q L) [:: (t, RtoC 4)] 1 false = Ok T, ~ right_table (l_q L) (full (l_q L)) (RtoC 4) 1 T &
  a_at T 2 2 = 1 /\ a_at T 0 0 = RtoC 75].
Proof. exact (pixmap_wrong J1). Qed.
Print Assumptions C109_refuted.

(** This is so for every size of window: the mean permittivity is that of the host. *)
Theorem C109_full J1 q L eps host t T : (1 < q.1)%N -> (1 < q.2)%N ->
  island_table J1 q L (inr (full q)) = Ok t -> epsilon_g q [:: (t, eps)] host false = Ok T ->
  a_at T (q.1 %/ 2) (q.2 %/ 2) = host /\ a_at T 0 0 = (eps - host) * RtoC (INR (q.1 * q.2) / l_area L).
Proof. exact (@full_table J1 q L eps host t T). Qed.
Print Assumptions C109_full.

(** The table is right for one order in a cell of area 1. *)
Theorem C109_one_order_partial J1 L map t eps host T : l_area L = 1%Re -> island_table J1 (1, 1)%N L (inr map) = Ok t ->
  epsilon_g (1, 1)%N [:: (t, eps)] host false = Ok T -> right_table (1, 1)%N map eps host T.
Proof. exact (@one_order_right J1 L map t eps host T). Qed.
Print Assumptions C109_one_order_partial.

(** A grey pixel. *)
Example C109_one_order_hypotheses_met J1 : exists L t T,
  [/\ mk_lattice (1, 1)%N (1%Re, 0%Re) (0%Re, 1%Re) (Float 1) (Float 1) = Ok L, l_area L = 1%Re,
      island_table J1 (1, 1)%N L (inr (Array2 1 1 (fun _ _ => RtoC (/ 2)))) = Ok t & epsilon_g (1, 1)%N [:: (t, RtoC 4)] 1 false = Ok T].
Proof. exact (one_order_example J1). Qed.
