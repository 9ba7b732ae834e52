(** Properties C24 to C26, C42 and C43: islands and direct Fourier sums. *)
From Coq Require Import Reals ZArith Lra.
From mathcomp Require Import all_ssreflect all_algebra.
From Coquelicot Require Import Complex.
From Verif Require Import Base CField CFun ModelExpansion SpecExpansion ModelFourier SpecTransform ModelDevice
  SpecSums TransformProofs IslandProofs SumProofs IslandTheorems.
Set Implicit Arguments. Unset Strict Implicit. Unset Printing Implicit Defensive.
Import GRing.Theory.
Local Open Scope ring_scope.

(** ** C24 Convolution matrix of an analytical layer *)

(** Missing: expansions with several orders in both directions, see below. *)
Theorem C24_one_dimensional_partial J1 Lx Ly pw e rects host n (M : 'M[C]_n) (i j : 'I_n) :
  (0 < Lx)%Re -> (0 < Ly)%Re -> mk_expansion pw (rect_lattice Lx Ly) = Ok e ->
  (forall p, List.In p rects -> rect_inside Lx Ly p.1) -> disjoint (regions rects) ->
  analytical_matrix J1 n e (islands_of rects) host = Ok M -> pw.1 = 1%N \/ pw.2 = 1%N ->
  exists w, fourier_integral Lx Ly (drawn (regions rects) host) (sub2 (gth e i) (gth e j)) w /\
    (Cmod (M i j - w)%R <= branch_error Lx Ly rects host)%Re /\
    (rects_clear rects (sub2 (gth e i) (gth e j)) -> M i j = w).
Proof. by move=> h1 h2 h3 h4 h5 h6; exact (proj1 (analytical_good h1 h2 h3 h4 h5 h6 i j)). Qed.
Print Assumptions C24_one_dimensional_partial.

(** For as many orders along x as along y, the matrix is the one of the structure
    with x and y exchanged. *)
Theorem C24_transposed_partial J1 L pw e rects host n (M : 'M[C]_n) (i j : 'I_n) :
  (0 < L)%Re -> mk_expansion pw (rect_lattice L L) = Ok e ->
  (forall p, List.In p rects -> rect_inside L L p.1) -> disjoint (regions rects) ->
  analytical_matrix J1 n e (islands_of rects) host = Ok M -> pw.1 = pw.2 ->
  exists w, fourier_integral L L (drawn (regions rects) host) (swap2 (sub2 (gth e i) (gth e j))) w /\
    (Cmod (M i j - w)%R <= branch_error L L rects host)%Re /\
    (rects_clear rects (swap2 (sub2 (gth e i) (gth e j))) -> M i j = w).
Proof. by move=> h1 h3 h4 h5 h6 h; exact (proj2 (analytical_good h1 h1 h3 h4 h5 h6 i j) h erefl). Qed.
Print Assumptions C24_transposed_partial.

(** 3 x 3 orders, half of the cell filled along x: an entry is 0 where the
    coefficient of the structure is larger than 1/5. *)
Theorem C24_axes_refuted (J1 : R -> R) : exists e (M : 'M[C]_(3 * 3)) (i j : 'I_(3 * 3)) w,
  [/\ mk_expansion (3, 3)%N (rect_lattice 1 1) = Ok e,
      analytical_matrix J1 (3 * 3) e (islands_of [:: half_rect]) 1 = Ok M,
      fourier_integral 1 1 (drawn (regions [:: half_rect]) 1) (sub2 (gth e i) (gth e j)) w,
      M i j = 0 & (1 / 5 < Cmod w)%Re].
Proof. exact (analytical_swapped J1). Qed.
Print Assumptions C24_axes_refuted.

(** A half-filled unit cell meets the hypotheses, with 3 x 1 and with 3 x 3 orders. *)
Example C24_hypotheses_met (J1 : R -> R) pw : pw = (3, 1)%N \/ pw = (3, 3)%N ->
  exists e, [/\ (forall p, List.In p [:: half_rect] -> rect_inside 1 1 p.1), disjoint (regions [:: half_rect]),
    mk_expansion pw (rect_lattice 1 1) = Ok e & is_ok (analytical_matrix J1 (pw.1 * pw.2) e (islands_of [:: half_rect]) 1)].
Proof.
move=> hpw; have [||e he] := @unit_expansion pw; [by case: hpw => -> |by case: hpw => -> |].
have l1 : (0 < 1)%Re by lra.
have n2 q : List.In q [:: half_rect] -> q.2 != 0.
  by case=> [<-|[]] /=; apply/eqP => /(congr1 fst) /=; lra.
exists e; split; [exact half_inside|exact half_disjoint|exact he|].
exact (@analytical_def J1 1 1 pw e [:: half_rect] 1 l1 l1 he ltac:(by []) (oner_neq0 _) n2).
Qed.

(** ** C25 Combination of islands *)

(** Rectangles, with the transforms the program uses. *)
Theorem C25_rectangles J1 Lx Ly pw e rects host mul ge data r k :
  (0 < Lx)%Re -> (0 < Ly)%Re -> mk_expansion pw (rect_lattice Lx Ly) = Ok e ->
  (forall p, List.In p rects -> rect_inside Lx Ly p.1) -> disjoint (regions rects) ->
  g_vectors_expanded e mul = Ok ge ->
  island_transforms J1 (islands_of rects) ge.1 (e_sigma e) = Ok data ->
  combine_fourier_masks data host false = Ok r -> (k < size ge.1)%N ->
  size r = size ge.1 /\ exists w, fourier_integral Lx Ly (drawn (regions rects) host) (nth (0%Re, 0%Re) ge.1 k) w /\
    (Cmod (nth 0 r k - w)%R <= branch_error Lx Ly rects host)%Re /\
    (rects_clear rects (nth (0%Re, 0%Re) ge.1 k) -> nth 0 r k = w).
Proof. by move=> h1 h2 h3 h4 h5; exact (@rects_combined J1 Lx Ly pw e rects host h1 h2 h3 h4 h5 mul ge data r k). Qed.
Print Assumptions C25_rectangles.

(** Disjoint islands of any shape, given their exact transforms. *)
Theorem C25_any_islands Lx Ly (isl : seq ((R -> R -> bool) * C)) (bfs : seq (seq C)) host r (G : vec2) (m n : Z) k :
  (0 < Lx)%Re -> (0 < Ly)%Re ->
  (G.1 * Lx = 2 * IZR m * PI)%Re -> (G.2 * Ly = 2 * IZR n * PI)%Re ->
  combine_fourier_masks [seq (q.2, q.1.2) | q <- zip isl bfs] host false = Ok r -> size bfs = size isl ->
  (k < size r)%N -> (k == ((size r - 1) %/ 2)%N) = (Z.eqb m Z0 && Z.eqb n Z0) ->
  disjoint isl ->
  (forall i, (i < size isl)%N ->
    fourier_integral Lx Ly (indicator (nth (fun _ _ => false, 0) isl i).1) G (nth 0 (nth [::] bfs i) k)) ->
  fourier_integral Lx Ly (drawn isl host) G (nth 0 r k).
Proof. exact (@any_islands Lx Ly isl bfs host r G m n k). Qed.
Print Assumptions C25_any_islands.

(** The coefficient of a map is unique, so that the two statements determine it. *)
Theorem C25_unique_coefficient Lx Ly f G v w : (0 < Lx)%Re -> (0 < Ly)%Re ->
  fourier_integral Lx Ly f G v -> fourier_integral Lx Ly f G w -> v = w.
Proof. exact (@coefficient_unique Lx Ly f G v w). Qed.
Print Assumptions C25_unique_coefficient.

(** Overlapping islands: the same rectangle drawn twice has mean 3/2, the program
    gets 2. *)
Theorem C25_overlap_refuted (J1 : R -> R) : exists e ge data r w,
  [/\ mk_expansion (1, 1)%N (rect_lattice 1 1) = Ok e, g_vectors_expanded e 3 = Ok ge,
      island_transforms J1 (islands_of twice) ge.1 (e_sigma e) = Ok data,
      combine_fourier_masks data 1 false = Ok r &
      nth (0%Re, 0%Re) ge.1 0 = (0%Re, 0%Re) /\
      fourier_integral 1 1 (drawn (regions twice) 1) (0%Re, 0%Re) w /\
      w = RtoC (3 / 2)%Re /\ nth 0 r 0 = RtoC 2].
Proof. exact (overlap_wrong J1). Qed.
Print Assumptions C25_overlap_refuted.

(** ** C26 Transform of a rectangle *)
Theorem C26_rectangle l0 l1 u0 u1 (G : vec2) s : s <> 0%Re ->
  exists I, (cint2 (planewave G) l0 u0 l1 u1 I /\ forall I', cint2 (planewave G) l0 u0 l1 u1 I' -> I' = I) /\
   (Cmod (transform_rectangle l0 l1 u0 u1 G.1 G.2 s - I / RtoC s)%R <=
    Rabs ((u0 - l0) * (u1 - l1) / s) * / 10 ^ 18)%Re /\
   (off_small_branch (G.1 * (u0 - l0))%Re -> off_small_branch (G.2 * (u1 - l1))%Re ->
    transform_rectangle l0 l1 u0 u1 G.1 G.2 s = I / RtoC s).
Proof. exact (@rectangle_integral_unique l0 l1 u0 u1 G s). Qed.
Print Assumptions C26_rectangle.

Theorem C26_filling_fraction l0 l1 u0 u1 s : s <> 0%Re ->
  transform_rectangle l0 l1 u0 u1 0 0 s = RtoC ((u0 - l0) * (u1 - l1) / s)%Re.
Proof. exact (@rectangle_zero l0 l1 u0 u1 s). Qed.
Print Assumptions C26_filling_fraction.

(** Both kinds of argument occur: the first order of a half cell is exact, and so
    is the mean. *)
Example C26_branches : off_small_branch (2 * PI * (1 / 2 - 0))%Re /\ off_small_branch (0 * (1 - 0))%Re /\
  ~ off_small_branch (1 / 200)%Re.
Proof.
have p := PI_RGT_0; have p3 := PI2_3_2; split; [right; rewrite Rabs_pos_eq; lra|split; first by left; ring].
by case=> [h|h]; [exfalso; lra|move: h; rewrite Rabs_pos_eq; lra].
Qed.

(** ** C42 Direct sums *)
Theorem C42_running_products A kx ky a v : dft A kx ky a = Ok v ->
  v = wave_sum2 A kx ky (a / INR (a_rows A))%Re.
Proof. exact (@dft_sum A kx ky a v). Qed.
Print Assumptions C42_running_products.

Theorem C42_defined A kx ky a : (0 < a_rows A)%N -> is_ok (dft A kx ky a).
Proof. exact (@dft_def A kx ky a). Qed.
Print Assumptions C42_defined.

(** dft then idft returns N^2 times the field; missing: the normalisation. *)
Theorem C42_round_trip_partial N a terms (coefs : seq C) :
  (0 < N)%N -> a <> 0%Re -> resolved N terms ->
  mapM (fun t => dft (sampled N a terms) (2 * PI * IZR t.2.1 / a)%Re (2 * PI * IZR t.2.2 / a)%Re a) terms = Ok coefs ->
  forall x y, idft [seq (q.1, (RtoC (2 * PI * IZR q.2.2.1 / a)%Re, RtoC (2 * PI * IZR q.2.2.2 / a)%Re)) | q <- zip coefs terms] x y =
    RtoC (INR (N * N)) * sample_at a terms x y.
Proof. exact (@round_trip N a terms coefs). Qed.
Print Assumptions C42_round_trip_partial.

Theorem C42_round_trip_refuted : exists N a terms coefs x y,
  [/\ resolved N terms,
   mapM (fun t => dft (sampled N a terms) (2 * PI * IZR t.2.1 / a)%Re (2 * PI * IZR t.2.2 / a)%Re a) terms = Ok coefs &
   idft [seq (q.1, (RtoC (2 * PI * IZR q.2.2.1 / a)%Re, RtoC (2 * PI * IZR q.2.2.2 / a)%Re)) | q <- zip coefs terms] x y
     <> sample_at a terms x y].
Proof. exact not_normalised. Qed.
Print Assumptions C42_round_trip_refuted.

(** Three orders sampled on 3 x 3 points. *)
Example C42_hypotheses_met : let terms := [:: (1, (Zneg xH, Z0)); (ci, (Z0, Zpos xH)); (1, (Zpos xH, Zneg xH))] in
  resolved 3 terms /\
  is_ok (mapM (fun t => dft (sampled 3 2 terms) (2 * PI * IZR t.2.1 / 2)%Re (2 * PI * IZR t.2.2 / 2)%Re 2) terms).
Proof.
split; last exact: round_trip_def.
by move=> [|[|[|i]]] [|[|[|j]]].
Qed.

(** ** C43 idft2 on a grid *)

(** idft2 returns the field on the grid of step (max-min)/n; missing: that grid is
    not the one of the points passed. *)
Theorem C43_grid_partial coefs xmin xmax ymin ymax rows cols k l :
  idft2 coefs xmin xmax ymin ymax rows cols k l =
  idft [seq (f.1, (RtoC f.2.1, RtoC f.2.2)) | f <- coefs]
    (xmin + INR k * ((xmax - xmin) / INR rows))%Re (ymin + INR l * ((ymax - ymin) / INR cols))%Re.
Proof. exact (@idft2E coefs xmin xmax ymin ymax rows cols k l). Qed.
Print Assumptions C43_grid_partial.

Theorem C43_grid_refuted : exists coefs xmin xmax ymin ymax rows cols k l,
  [/\ (k < rows)%N, (l < cols)%N &
   idft2 coefs xmin xmax ymin ymax rows cols k l <>
   idft [seq (f.1, (RtoC f.2.1, RtoC f.2.2)) | f <- coefs] (grid_point xmin xmax rows k) (grid_point ymin ymax cols l)].
Proof. exact idft2_wrong. Qed.
Print Assumptions C43_grid_refuted.
