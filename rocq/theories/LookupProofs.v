(** Proofs about the coefficients read by matrix_a and about homogeneous layers. *)
From Coq Require Import Reals ZArith Lra Lia.
From mathcomp Require Import all_ssreflect all_algebra.
From Coquelicot Require Import Complex.
From Verif Require Import Base CField CFun ModelRedheffer ModelExpansion ModelFourier Blk ModelTmat SpecTmat TmatProofs
  ModelLattice SpecLattice LatticeProofs.
Set Implicit Arguments. Unset Strict Implicit. Unset Printing Implicit Defensive.
Import GRing.Theory.
Local Open Scope ring_scope.

Lemma mapM_ok (A : eqType) B (f : A -> res B) (g : A -> B) l : (forall x, x \in l -> f x = Ok (g x)) ->
  mapM f l = Ok (map g l).
Proof.
elim: l => //= x l IH h; rewrite h ?mem_head //=; rewrite IH //= => y hy.
by apply: h; rewrite in_cons hy orbT.
Qed.
Lemma py_index_in k i : (i < k)%N -> py_index k (Z.of_nat i) = Ok i.
Proof.
move=> /leP h; rewrite /py_index; case: Z.leb_spec => h1; last by exfalso; lia.
by case: Z.ltb_spec => h2; [rewrite Nat2Z.id|exfalso; lia].
Qed.

Lemma coords_standard r c l :
  mapM (coords_from_index (r, c) (r %/ 2, c %/ 2)%N) (iota 0 (r * c)) = Ok l -> standard_orders r c l.
Proof.
rewrite (@mapM_ok _ _ _ (fun g => (Z.sub (Z.of_nat (g %% r)) (Z.of_nat (r %/ 2)),
                              Z.sub (Z.of_nat (g %/ r)) (Z.of_nat (c %/ 2))))); last first.
  by move=> g; rewrite mem_iota add0n /= /coords_from_index /= => ->.
case=> <-; split=> [|g h]; first by rewrite size_map size_iota.
by rewrite (nth_map 0%N) ?size_iota // nth_iota.
Qed.
Lemma coords_ok r c : is_ok (mapM (coords_from_index (r, c) (r %/ 2, c %/ 2)%N) (iota 0 (r * c))).
Proof.
rewrite (@mapM_ok _ _ _ (fun g => (Z.sub (Z.of_nat (g %% r)) (Z.of_nat (r %/ 2)),
                              Z.sub (Z.of_nat (g %/ r)) (Z.of_nat (c %/ 2))))); first by eexists.
by move=> g; rewrite mem_iota add0n /= /coords_from_index /= => ->.
Qed.
Lemma index_standard r c l g : standard_orders r c l -> (g < r * c)%N ->
  index_row l g = Ok (Z.sub (Z.of_nat (g %% r)) (Z.of_nat (r %/ 2)), Z.sub (Z.of_nat (g %/ r)) (Z.of_nat (c %/ 2))).
Proof. by move=> [hs hn] h; rewrite /index_row hs h hn. Qed.
Lemma coords_lt r c g : (g < r * c)%N -> [/\ (g %% r < r)%N, (g %/ r < c)%N & (0 < r)%N].
Proof.
move=> h; have r0 : (0 < r)%N by case: r h => //; rewrite mul0n.
by split=> //; [apply: ltn_pmod|rewrite ltn_divLR // mulnC].
Qed.

(** matrix_a_old and matrix_a. *)
Lemma order_gE w l g : standard_orders (w_rows w) (w_cols w) l -> (g < w_ng w)%N -> order_g w l g = Ok (w_flat w g).
Proof.
move=> hs h; rewrite /order_g (index_standard hs) //; cbn [bind fst snd].
have [h1 h2 _] := coords_lt h.
have e a b : Z.add (Z.sub (Z.of_nat a) (Z.of_nat b)) (Z.of_nat b) = Z.of_nat a by lia.
by rewrite !e !py_index_in.
Qed.
Lemma matrix_a_same n w l eps epsinv wl kp : standard_orders (w_rows w) (w_cols w) l ->
  matrix_a n l w eps epsinv wl kp = matrix_a_old n l w eps epsinv wl kp.
Proof.
move=> hs; rewrite /matrix_a /matrix_a_old; destruct (Req_EM_T wl 0) as [h|h] => //; case: eqP => // hn.
rewrite (@mapM_ok _ _ _ (w_flat w)); last by move=> g; rewrite mem_iota add0n hn /=; exact: order_gE.
cbn [bind]; case: (order_lookups _ _ _ n eps) => [e|//]; cbn [bind].
case: (order_lookups _ _ _ n epsinv) => [v|//]; cbn [bind]; congr Ok; apply: eq_quad.
have gs (g : 'I_n) : nth (0%Re, 0%Re) [seq w_flat w g0 | g0 <- iota 0 n] g = w_flat w g.
  by rewrite (nth_map 0%N) ?size_iota // nth_iota // add0n.
apply: below4; apply: below4 => //; apply/matrixP => i j; rewrite !mxE ?gs /=; case: (i =P j) => [e0|_]; rewrite ?e0 ?mulr1n ?mulr0n ?add0r ?sub0r ?mulrA ?mulNr ?mulrN //.
by rewrite mulrAC.
Qed.

(** The coefficients of a window. *)
Definition dif (p i j : nat) : nat := (i + 2 * (p %/ 2) - j)%N.
Lemma dif_lt p i j : (i < p)%N -> (j < p)%N -> (dif p i j < qof p)%N /\ Z.of_nat (dif p i j) = Z.add (Z.sub (Z.of_nat i) (Z.of_nat j)) (Z.of_nat (2 * (p %/ 2))).
Proof.
move=> hi hj; rewrite qofE /dif; have := divn_eq p 2; rewrite modn2.
have : (nat_of_bool (odd p) <= 1)%N by case: odd.
move: (p %/ 2)%N (nat_of_bool (odd p)) => h b hb e; split; nlia.
Qed.
Section Window.
Variables (p : nat * nat) (l : seq (Z * Z)).
Hypothesis hs : standard_orders p.1 p.2 l.
Definition entry (T : array2) (i j : nat) : C := a_at T (dif p.1 (i %% p.1) (j %% p.1)) (dif p.2 (i %/ p.1) (j %/ p.1)).
Lemma lookup_dif T i j : a_rows T = qof p.1 -> a_cols T = qof p.2 -> (i < p.1 * p.2)%N -> (j < p.1 * p.2)%N ->
  (do mj <- index_row l j; do mi <- index_row l i;
   lookup T (Z.add (Z.sub mi.1 mj.1) (Z.of_nat (2 * (p.1 %/ 2)))) (Z.add (Z.sub mi.2 mj.2) (Z.of_nat (2 * (p.2 %/ 2))))) =
  Ok (entry T i j).
Proof.
move=> hr hc hi hj; rewrite !(index_standard hs) //; cbn [bind fst snd].
have [i1 i2 _] := coords_lt hi; have [j1 j2 _] := coords_lt hj.
have [l1 e1] := dif_lt i1 j1; have [l2 e2] := dif_lt i2 j2.
have s3 a b c : Z.sub (Z.sub a c) (Z.sub b c) = Z.sub a b by lia.
by rewrite /lookup !s3 -e1 -e2 hr hc !py_index_in.
Qed.
Lemma order_lookupsE T n : a_rows T = qof p.1 -> a_cols T = qof p.2 -> n = (p.1 * p.2)%N -> exists2 s,
  order_lookups l (p.1 %/ 2) (p.2 %/ 2) n T = Ok s &
  forall i j, (i < n)%N -> (j < n)%N -> looked s i j = entry T i j.
Proof.
move=> hr hc hn; exists [seq [seq entry T i j | i <- iota 0 n] | j <- iota 0 n].
  rewrite /order_lookups; apply: mapM_ok => j; rewrite mem_iota add0n hn /= => hj.
  apply: mapM_ok => i; rewrite mem_iota add0n /= => hi; exact: lookup_dif.
by move=> i j hi hj; rewrite /looked (nth_map 0%N) ?size_iota // (nth_map 0%N) ?size_iota // !nth_iota // !add0n.
Qed.
End Window.

Lemma lookups_difference p a1 a2 ei ee L l T : mk_lattice p a1 a2 ei ee = Ok L -> window_fits p -> standard_orders p.1 p.2 l ->
  a_rows T = (l_q L).1 -> a_cols T = (l_q L).2 -> exists2 s,
  order_lookups l (w_rows (window L) %/ 2) (w_cols (window L) %/ 2) (l_ng L) T = Ok s &
  forall i j, (i < l_ng L)%N -> (j < l_ng L)%N -> exists a b,
    [/\ (a < a_rows T)%N, (b < a_cols T)%N, looked s i j = a_at T a b &
        w_at (l_G L) a b = minus2 (l_g L i) (l_g L j)].
Proof.
move=> hL hf hs; have [_ _ hq _ [_ _ _ _ hG]] := mk_latticeE hL; rewrite hq (window_rows hL).1 (window_cols hL hf) => hr hc.
have hn := window_ng hL hf.
have [s hsl hlk] := order_lookupsE hs hr hc hn; exists s => // i j hi hj.
rewrite hn in hi hj; have [i1 i2 _] := coords_lt hi; have [j1 j2 _] := coords_lt hj.
have [l1 e1] := dif_lt i1 j1; have [l2 e2] := dif_lt i2 j2.
exists (dif p.1 (i %% p.1) (j %% p.1)), (dif p.2 (i %/ p.1) (j %/ p.1)); rewrite hr hc; split=> //.
  by apply: hlk; rewrite hn.
rewrite hG e1 e2 /l_g /w_flat (window_rows hL).1 !(window_at hL) /minus2 /order_vector /=.
by rewrite !(minus_IZR, plus_IZR); congr (_, _); ring.
Qed.

(** Tables without contrast. *)
Definition centre_table (q1 q2 : nat) (z : C) : array2 :=
  Array2 q1 q2 (fun i j => if (i == q1 %/ 2)%N && (j == q2 %/ 2)%N then z else 0).
Lemma mask_val inverse x y : mask_trsf inverse x = Ok y -> y = if inverse then x^-1 else x.
Proof. by rewrite /mask_trsf; case: inverse; [case: eqP => // _|]; case=> <-. Qed.
Lemma add_tables_same inverse host isl acc T : map snd isl = nseq (size isl) host ->
  add_tables inverse host isl acc = Ok T ->
  [/\ a_rows T = a_rows acc, a_cols T = a_cols acc & forall i j, a_at T i j = a_at acc i j].
Proof.
elim: isl acc => [|[bf e] isl IH] acc /=; first by move=> _ [<-].
case=> -> /IH {IH} IH; case ht : (mask_trsf inverse host) => [th|//]; cbn [bind]; case: ifP => // _ /IH [-> -> h].
by split=> // i j; rewrite h /= subrr mul0r addr0.
Qed.
Lemma epsilon_g_same q isl host inverse T : map snd isl = nseq (size isl) host -> epsilon_g q isl host inverse = Ok T ->
  [/\ a_rows T = q.1, a_cols T = q.2 & forall i j, a_at T i j =
     if (i == q.1 %/ 2)%N && (j == q.2 %/ 2)%N then (if inverse then host^-1 else host) else 0].
Proof.
move=> hm; rewrite /epsilon_g; case ht : (mask_trsf inverse host) => [th|//]; cbn [bind].
by case: ifP => // _ /(add_tables_same hm) [-> -> h]; split=> // i j; rewrite h (mask_val ht).
Qed.
Lemma data_same J1 G area isl (data : seq (array2 * C)) :
  mapM (fun i : shape * C => do t <- grid_transform J1 i.1 G area; Ok (t, i.2)) isl = Ok data ->
  map snd data = map snd isl.
Proof.
elim: isl data => [|[s e] isl IH] data /=; first by case=> <-.
case: (grid_transform _ _ _ _) => [t|//]; cbn [bind]; case hd : (mapM _ _) => [d|//]; cbn [bind] => -[<-] /=.
by rewrite (IH _ hd).
Qed.

(** The eigenmodes of a homogeneous medium. *)
Section Uniform.
Variables (n : nat) (L : lattice) (wl : R) (kp : vec2) (e v : 'I_n -> 'I_n -> C).
Let eps := l_incid L.
Let ez := num_val eps.
Hypothesis w0 : wl <> 0%Re.
Hypothesis e0 : ez != 0.
Hypothesis tiny : forall g : 'I_n, let u := ((kp.1 + (l_g L g).1) ^ 2 + (kp.2 + (l_g L g).2) ^ 2)%Re in
    u = 0%Re \/ (/ 2 ^ 52 <= u)%Re.
Let ux (g : 'I_n) := RtoC (uvec kp (l_g L g)).1.
Let uy (g : 'I_n) := RtoC (uvec kp (l_g L g)).2.
Let k := wl.
Definition uniform_a : 'M[C]_((n + n) + (n + n)) :=
  quad (fun a b => dgf (match a, b with
    | 2%N, 0%N => fun g => - ismo k * (ux g * uy g)
    | 3%N, 0%N => fun g => - ismo k * uy g ^+ 2 + ieo k * ez
    | 2%N, 1%N => fun g => ismo k * ux g ^+ 2 - ieo k * ez
    | 3%N, 1%N => fun g => ismo k * (ux g * uy g)
    | 0%N, 2%N => fun g => iseo k * ux g / ez * uy g
    | 1%N, 2%N => fun g => - imo k + iseo k * uy g / ez * uy g
    | 0%N, 3%N => fun g => imo k - iseo k * ux g / ez * ux g
    | 1%N, 3%N => fun g => - (iseo k * uy g / ez * ux g)
    | _, _ => fun _ => 0
    end)).
Lemma direction (g : 'I_n) : exists r : R, [/\ (uvec kp (l_g L g)).1 = (r * (udir kp (l_g L g)).1)%Re,
  (uvec kp (l_g L g)).2 = (r * (udir kp (l_g L g)).2)%Re & (r * r = (uvec kp (l_g L g)).1 ^ 2 + (uvec kp (l_g L g)).2 ^ 2)%Re].
Proof.
exists (unorm kp (l_g L g)); have e2 := unorm2 kp (l_g L g).
have t := tiny g; rewrite /= -/(uvec kp (l_g L g)) in t.
have e3 : (unorm kp (l_g L g) * unorm kp (l_g L g) = (uvec kp (l_g L g)).1 ^ 2 + (uvec kp (l_g L g)).2 ^ 2)%Re by rewrite -e2; ring.
have p52 : (0 < / 2 ^ 52)%Re by apply: Rinv_0_lt_compat; apply: pow_lt; lra.
suff [h1 h2] : (uvec kp (l_g L g)).1 = (unorm kp (l_g L g) * (udir kp (l_g L g)).1)%Re /\
  (uvec kp (l_g L g)).2 = (unorm kp (l_g L g) * (udir kp (l_g L g)).2)%Re by [].
rewrite /udir; destruct (Rlt_dec (unorm kp (l_g L g) ^ 2) float_eps) as [h|h]; cbn [is_left].
  have z : ((uvec kp (l_g L g)).1 ^ 2 + (uvec kp (l_g L g)).2 ^ 2 = 0)%Re.
    case: (tiny g) => // h3; rewrite e2 /float_eps in h; exfalso; move: h3 h; rewrite /uvec /=; lra.
  have z1 : (uvec kp (l_g L g)).1 = 0%Re by nra.
  have z2 : (uvec kp (l_g L g)).2 = 0%Re by nra.
  have z3 : unorm kp (l_g L g) = 0%Re by rewrite z in e3; nra.
  by rewrite z1 z2 z3 /=; split; ring.
have nz : unorm kp (l_g L g) <> 0%Re.
  by move=> z; apply: h; rewrite z /float_eps /=; lra.
by split=> /=; field.
Qed.
Definition waves : 'M[C]_((n + n) + (n + n)) :=
  let f := fun g : 'I_n => ci * kzf L wl kp eps g in
  quad (fun a b => dgf (match a, b with
    | 0%N, 0%N | 1%N, 1%N => f
    | 2%N, 2%N | 3%N, 3%N => fun g => - f g
    | _, _ => fun _ => 0
    end)).
Lemma uniform_modes V : lattice_Vi n L wl kp = Ok V -> uniform_a *m V = V *m waves.
Proof.
case/lattice_VE => hn _ _; rewrite /matrix_v; case hs : (np_sqrt _) => [s|//]; cbn [bind] => -[<-].
rewrite (np_sqrtE hs) /uniform_a /waves !quadM; apply: eq_quad.
have n1 : RtoC mu0c <> 0 by move=> /(congr1 fst); exact: mu0c_neq0.
have n2 : RtoC wl <> 0 by move=> /(congr1 fst).
have n4 : cmath_sqrt eps <> 0 by apply/eqP; exact: cmath_sqrt_neq0.
have n5 : RtoC (twopi / wl) <> 0.
  move=> /(congr1 fst) /= h; have := PI_RGT_0; suff : twopi = 0%Re by rewrite /twopi; lra.
  by rewrite -[twopi]Rmult_1_r -(Rinv_r wl) // Rmult_comm Rmult_assoc [(/ wl * _)%Re]Rmult_comm; rewrite /Rdiv in h; rewrite h Rmult_0_r.
have e7 : cmath_sqrt eps * RtoC twopi / RtoC wl = cmath_sqrt eps * RtoC (twopi / wl).
  by rewrite -mulrA; congr (_ * _); toC; apply: C_ext => /=; field.
have e8 : ez = cmath_sqrt eps * cmath_sqrt eps by rewrite cmath_sqrt2.
rewrite /ismo /iseo /ieo /imo /k /ux /uy /muf e7 e8.
have modes (g : 'I_n) : exists r X Y K : C, [/\ (X * X = RtoC 1 - Y * Y)%C, (r * r = cmath_sqrt eps * cmath_sqrt eps * (RtoC (twopi / wl) * RtoC (twopi / wl)) - K * K)%C,
   RtoC (udir kp (l_g L g)).1 = X, RtoC (udir kp (l_g L g)).2 = Y &
   [/\ RtoC (etaf L kp g).1 = Y, RtoC (etaf L kp g).2 = - X, RtoC (uvec kp (l_g L g)).1 = r * X, RtoC (uvec kp (l_g L g)).2 = r * Y &
    compute_kz (l_incid L) wl kp (l_g L g) = K]].
  have [r [h1 h2 h3]] := direction g.
  exists (RtoC r), (RtoC (udir kp (l_g L g)).1), (RtoC (udir kp (l_g L g)).2), (compute_kz (l_incid L) wl kp (l_g L g)).
  split=> //; first by apply: C_ext => /=; have := udir_unit kp (l_g L g); lra.
    have := compute_kz2 eps wl kp (l_g L g); rewrite -cmath_sqrt2 => h4.
    have -> : (RtoC r * RtoC r)%C = RtoC ((kp.1 + (l_g L g).1) ^ 2 + (kp.2 + (l_g L g).2) ^ 2)%Re.
      by apply: C_ext => /=; [rewrite /= /uvec /= in h3; lra|ring].
    have -> : (RtoC (twopi / wl) * RtoC (twopi / wl))%C = RtoC ((2 * PI / wl) ^ 2)%Re.
      by apply: C_ext => /=; rewrite /twopi; ring.
    have h5 : (compute_kz (l_incid L) wl kp (l_g L g) * compute_kz (l_incid L) wl kp (l_g L g) =
      cmath_sqrt eps * cmath_sqrt eps * RtoC ((2 * PI / wl) ^ 2) - RtoC ((kp.1 + (l_g L g).1) ^ 2 + (kp.2 + (l_g L g).2) ^ 2))%C := h4.
    by rewrite h5; ring.
  by split=> //; [apply: C_ext => /=; ring|rewrite h1|rewrite h2]; apply: C_ext => /=; ring.
apply: below4; apply: below4; rewrite /= !dgfM !dgfD.
all: apply: eq_dgf => g; have [r [X [Y [K [h1 h2 hx hy [ex ey vx vy hk]]]]]] := modes g.
all: rewrite ?ex ?ey ?vx ?vy ?hx ?hy ?/kzf ?hk.
all: move: h1 h2 n1 n4 n5; clear; move: (RtoC mu0c) (RtoC (twopi / wl)) (cmath_sqrt eps) ci => M Q S I h1 h2 n1 n4 n5.
all: try by toC; field [h1 h2]; repeat split.
Qed.
End Uniform.

Lemma dif_centre p a b : (a < p)%N -> (b < p)%N -> (dif p a b == (qof p %/ 2)%N) = (a == b).
Proof.
move=> ha hb; rewrite /qof div4_2 /dif; have := divn_eq p 2; rewrite modn2.
have : (nat_of_bool (odd p) <= 1)%N by case: odd.
move: (p %/ 2)%N (nat_of_bool (odd p)) => h c hc e; apply/eqP/eqP; nlia.
Qed.
Lemma matrix_a_uniform p a1 a2 ei ee L n l isl host T Ti wl kp A : mk_lattice p a1 a2 ei ee = Ok L -> window_fits p ->
  standard_orders p.1 p.2 l -> map snd isl = nseq (size isl) host -> host = num_val (l_incid L) ->
  epsilon_g (l_q L) isl host false = Ok T -> epsilon_g (l_q L) isl host true = Ok Ti ->
  matrix_a n l (window L) T Ti wl kp = Ok A -> A = uniform_a n L wl kp.
Proof.
move=> hL hf hs hm hh hT hTi.
have [_ _ hq _ _] := mk_latticeE hL; rewrite hq in hT hTi.
have [r1 c1 t1] := epsilon_g_same hm hT; have [r2 c2 t2] := epsilon_g_same hm hTi.
have wng := window_ng hL hf.
rewrite /matrix_a (window_rows hL).1 (window_cols hL hf); destruct (Req_EM_T wl 0) as [h|h] => //; cbn [is_left].
case: eqP => // hn; have hn' : n = (p.1 * p.2)%N by rewrite hn -[w_ng _]/(l_ng L) wng.
have [s hsl lk] := order_lookupsE hs r1 c1 hn'; have [s' hsl' lk'] := order_lookupsE hs r2 c2 hn'.
rewrite hsl hsl'; cbn [bind] => -[<-].
have same (i j : 'I_n) : [/\ (i %% p.1 < p.1)%N, (i %/ p.1 < p.2)%N, (j %% p.1 < p.1)%N, (j %/ p.1 < p.2)%N & ((i %% p.1 == j %% p.1) && (i %/ p.1 == j %/ p.1))%N = (i == j)].
  have [i1 i2 _] := @coords_lt p.1 p.2 i ltac:(rewrite -hn'; exact: ltn_ord).
  have [j1 j2 _] := @coords_lt p.1 p.2 j ltac:(rewrite -hn'; exact: ltn_ord).
  split=> //; apply/andP/eqP => [[/eqP e1 /eqP e2]|-> //].
  by apply: val_inj; rewrite /= (divn_eq i p.1) (divn_eq j p.1) e1 e2.
have E (i j : 'I_n) : looked s i j = if i == j then host else 0.
  by have [h1 h2 h3 h4 h5] := same i j; rewrite lk // /entry t1 !dif_centre // h5.
have E' (i j : 'I_n) : looked s' i j = if i == j then host^-1 else 0.
  by have [h1 h2 h3 h4 h5] := same i j; rewrite lk' // /entry t2 !dif_centre // h5.
rewrite /uniform_a -hh; apply: eq_quad; apply: below4; apply: below4; rewrite -?dgf0 //; apply/matrixP => i j;
  rewrite !mxE ?E ?E'; case: (i =P j) => [ij|_]; rewrite -?ij ?mulr1n ?mulr0n ?(mulr0, mul0r, addr0, oppr0, subr0) //.
Qed.

(** each_order. *)
Lemma matrix_s_diag k (d1 d2 : 'rV[C]_k) : (forall i, d1 0 i != 0) ->
  matrix_s (diag_mx (row_mx d1 d2)) = Ok (diag_mx (row_mx (map_mx GRing.inv d1) d2)).
Proof.
move=> h; have e : diag_mx (row_mx d1 d2) = block_mx (diag_mx d1) 0 0 (diag_mx d2) by rewrite diag_mx_row.
have u : diag_mx d1 *m diag_mx (map_mx GRing.inv d1) = 1%:M.
  by rewrite mulmx_diag; apply/matrixP => i j; rewrite !mxE; case: eqP => // _; rewrite divff.
have [u1 u2] := mulmx1_unit u.
rewrite e /matrix_s; have [-> -> -> ->] := blockE (diag_mx d1) 0 0 (diag_mx d2); rewrite /inv u1; cbn [bind].
rewrite mulmx0 mul0mx mul0mx addr0 diag_mx_row; congr (Ok (block_mx _ _ _ _)).
by rewrite -[invmx _]mulmx1 -u mulmxA mulVmx // mul1mx.
Qed.
Definition waves_row (n : nat) (f : 'I_n -> C) : 'rV[C]_((n + n) + (n + n)) :=
  row_mx (row_mx (\row_g f g) (\row_g f g)) (row_mx (\row_g - f g) (\row_g - f g)).
Lemma wavesE n L wl kp : waves n L wl kp = diag_mx (waves_row (fun g : 'I_n => ci * kzf L wl kp (l_incid L) g)).
Proof.
rewrite /waves /quad /waves_row !diag_mx_row -!dgf0 -!block_mx0; congr (block_mx (block_mx _ _ _ _) _ _ (block_mx _ _ _ _)); apply/matrixP => i j; by rewrite !mxE.
Qed.
Lemma uniform_sliced n L expm wl kp U V d pow : exponential expm -> not_tiny L kp ->
  lattice_U n L wl kp = Ok U -> lattice_Vi n L wl kp = Ok V ->
  @sliced_layer C_fieldType (n + n) expm U (uniform_a n L wl kp) V (RtoC d) pow =
  Ok (each_order (fun g : 'I_n => cexp (ci * compute_kz (l_incid L) wl kp (l_g L g) * RtoC d))).
Proof.
move=> [hexp hdiag] tiny hU hV.
have [hn w0 e0 k0 _] := lattice_UE hU; have UV := lattice_UV hU hV; have VU := mulmx1C UV.
have AV : uniform_a n L wl kp *m V = V *m waves n L wl kp.
  by apply: uniform_modes => // g; apply: tiny; rewrite -hn.
set K := fun g : 'I_n => ci * kzf L wl kp (l_incid L) g in (AV).
have E s : expm (s *: - uniform_a n L wl kp) = V *m diag_mx (map_mx cexp (waves_row (fun g => - (s * K g)))) *m U.
  have -> : s *: - uniform_a n L wl kp = V *m (s *: - waves n L wl kp) *m U.
    by rewrite -scalemxAr -scalemxAl mulmxN mulNmx -AV -mulmxA VU mulmx1.
  rewrite hexp // -hdiag wavesE; congr (_ *m expm _ *m _); apply/matrixP => i j; rewrite !mxE.
  case: eqP => _; rewrite ?mulr0n ?oppr0 ?mulr0 // !mulr1n.
  by rewrite /waves_row; case: splitP => a _; rewrite !mxE; case: splitP => b _; rewrite !mxE ?mulrN ?opprK.
have T2 : (2%:R : C) != 0 by rewrite -[2%:R]/(1 + 1 : C); apply/eqP => /(congr1 fst) /=; lra.
have tr : translations (fun s => expm (s *: - uniform_a n L wl kp)).
  move=> s t; rewrite !E -!mulmxA; congr (_ *m _); rewrite ![in RHS]mulmxA; congr (_ *m _).
  rewrite -[diag_mx _ *m U *m V]mulmxA UV mulmx1 mulmx_diag; congr diag_mx; apply/matrixP => i j; rewrite !mxE.
  by rewrite /waves_row; case: splitP => a _; rewrite !mxE; case: splitP => b _; rewrite !mxE -cexpD mulrDl ?opprD ?opprK.
have MS s : matrix_s (U *m expm (s *: - uniform_a n L wl kp) *m V) = Ok (each_order (fun g => cexp (s * K g))).
  rewrite E !mulmxA UV mul1mx -mulmxA UV mulmx1 /waves_row map_row_mx.
  rewrite matrix_s_diag; last by move=> i; rewrite mxE; exact: cexp_neq0.
  by rewrite /each_order !map_row_mx; congr (Ok (diag_mx _)); congr row_mx; congr row_mx; apply/rowP => g; rewrite !mxE -?cexpN ?opprK.
have [S hS] : is_ok (@sliced_layer C_fieldType (n + n) expm U (uniform_a n L wl kp) V (RtoC d) pow).
  by apply/(sliced_defined UV T2 tr) => j _; rewrite MS; eexists.
rewrite hS; have := sliced_value UV T2 tr hS; rewrite MS => -[<-].
by congr Ok; rewrite /each_order; congr diag_mx; congr row_mx; congr row_mx; apply/rowP => g; rewrite !mxE mulrC.
Qed.
Lemma homogeneous_layer J1 p a1 a2 ei ee L n expm isl host wl kp d pow S :
  mk_lattice p a1 a2 ei ee = Ok L -> window_fits p -> exponential expm -> not_tiny L kp ->
  map snd isl = nseq (size isl) host -> host = num_val (l_incid L) ->
  @scattering_matrix_islands J1 n expm p L isl host wl kp d pow = Ok S ->
  S = each_order (fun g : 'I_n => cexp (ci * compute_kz (l_incid L) wl kp (l_g L g) * RtoC d)).
Proof.
move=> hL hf hexp tiny hm hh; rewrite /scattering_matrix_islands.
have [_ _ hq _ _] := mk_latticeE hL.
case hg : (grid_size _) => [nq|//]; cbn [bind]; have [_ e] := grid_sizeE hg; have {e} -> : nq.2 = l_q L by rewrite hq e.
case hd : (mapM _ _) => [data|//]; cbn [bind]; have md := data_same hd.
have {}md : map snd data = nseq (size data) host by rewrite md hm -(size_map snd data) md size_map.
case hT : (epsilon_g _ _ _ false) => [T|//]; cbn [bind]; case hTi : (epsilon_g _ _ _ true) => [Ti|//]; cbn [bind].
case hU : (lattice_U _ _ _ _) => [U|//]; cbn [bind]; case hV : (lattice_Vi _ _ _ _) => [V|//]; cbn [bind].
rewrite (window_rows hL).1 (window_cols hL hf).
case hl : (mapM _ _) => [l|//]; cbn [bind]; have sl := coords_standard hl.
case hA : (matrix_a _ _ _ _ _ _ _) => [A|//]; cbn [bind]; have {hA} -> := matrix_a_uniform hL hf sl md hh hT hTi hA.
by rewrite (uniform_sliced _ _ hexp tiny hU hV) => -[].
Qed.
(** The layer without islands is always defined. *)
Lemma homogeneous_layer_ok J1 p a1 a2 ei ee L n expm wl kp d pow :
  mk_lattice p a1 a2 ei ee = Ok L -> window_fits p -> exponential expm -> not_tiny L kp -> (0 < p.1)%N ->
  n = l_ng L -> wl <> 0%Re -> num_val (l_incid L) != 0 -> has_sqrt (l_incid L) -> no_anomaly L (l_incid L) wl kp ->
  is_ok (@scattering_matrix_islands J1 n expm p L [::] (num_val (l_incid L)) wl kp d pow).
Proof.
move=> hL hf hexp tiny p0 hn w0 e0 hs ha; rewrite /scattering_matrix_islands.
have [ho _ hq _ _] := mk_latticeE hL.
rewrite (grid_size_def ho); cbn [bind mapM snd fst].
have q0 : (qof p.1 %/ 2 < qof p.1)%N by apply: ltn_Pdiv => //; rewrite qofE addn_gt0 p0.
have q0' : (qof p.2 %/ 2 < qof p.2)%N by apply: ltn_Pdiv => //; rewrite qofE addn_gt0 (fits_pos hf p0).
have hT : epsilon_g (qof p.1, qof p.2) [::] (num_val (l_incid L)) false = Ok (centre_table (qof p.1) (qof p.2) (num_val (l_incid L))).
  by rewrite /epsilon_g /= q0 q0'.
have hTi : epsilon_g (qof p.1, qof p.2) [::] (num_val (l_incid L)) true = Ok (centre_table (qof p.1) (qof p.2) (num_val (l_incid L))^-1).
  by rewrite /epsilon_g /mask_trsf (negbTE e0) /= q0 q0'.
rewrite -/(qof p.1) -/(qof p.2) hT hTi; cbn [bind].
have [U hU] := lattice_U_def hn w0 e0 ha; have [V hV] := lattice_V_def kp hn w0 e0 hs.
rewrite hU; cbn [bind]; rewrite /lattice_Vi hV; cbn [bind].
have [l hl] := coords_ok p.1 p.2.
rewrite (window_rows hL).1 (window_cols hL hf) hl; cbn [bind].
have sl := coords_standard hl.
set T := centre_table _ _ _; set Ti := centre_table _ _ _.
have [A hA] : is_ok (matrix_a n l (window L) T Ti wl kp).
  rewrite /matrix_a (window_rows hL).1 (window_cols hL hf); destruct (Req_EM_T wl 0) as [h|h] => //; cbn [is_left].
  rewrite -[w_ng _]/(l_ng L) hn eqxx /=; have wng := window_ng hL hf.
  have [s -> _] := @order_lookupsE p l sl T (l_ng L) erefl erefl wng; cbn [bind].
  by have [s' -> _] := @order_lookupsE p l sl Ti (l_ng L) erefl erefl wng; cbn [bind]; eexists.
rewrite hA; cbn [bind].
have -> : A = uniform_a n L wl kp.
  apply: (@matrix_a_uniform p a1 a2 ei ee L n l [::] (num_val (l_incid L)) T Ti wl kp A) => //; by rewrite hq.
by rewrite (uniform_sliced _ _ hexp tiny hU hV); eexists.
Qed.

(** Tables with contrast. *)
Lemma add_tablesE inverse host isl acc T : add_tables inverse host isl acc = Ok T ->
  [/\ a_rows T = a_rows acc, a_cols T = a_cols acc & forall i j, a_at T i j = a_at acc i j +
    \sum_(s <- isl) (if inverse then s.2^-1 - host^-1 else s.2 - host) * a_at s.1 i j].
Proof.
elim: isl acc => [|[bf e] isl IH] acc /=; first by case=> <-; split=> // i j; rewrite big_nil addr0.
case ht : (mask_trsf inverse e) => [te|//]; cbn [bind]; case hh : (mask_trsf inverse host) => [th|//]; cbn [bind].
case: ifP => // _ /IH [-> -> h]; split=> // i j; rewrite h big_cons /= (mask_val ht) (mask_val hh) addrA.
by case: inverse {h IH ht hh}.
Qed.
Lemma epsilon_gE q isl host inverse T : epsilon_g q isl host inverse = Ok T ->
  [/\ a_rows T = q.1, a_cols T = q.2 & forall i j, a_at T i j =
     (if (i == q.1 %/ 2)%N && (j == q.2 %/ 2)%N then (if inverse then host^-1 else host) else 0) +
     \sum_(s <- isl) (if inverse then s.2^-1 - host^-1 else s.2 - host) * a_at s.1 i j].
Proof.
rewrite /epsilon_g; case ht : (mask_trsf inverse host) => [th|//]; cbn [bind].
by case: ifP => // _ /add_tablesE [-> -> h]; split=> // i j; rewrite h (mask_val ht).
Qed.
(** The centre of the table is the zero vector. *)
Lemma centre_zero pw a1 a2 ei ee L : mk_lattice pw a1 a2 ei ee = Ok L ->
  w_at (l_G L) ((l_q L).1 %/ 2) ((l_q L).2 %/ 2) = (0%Re, 0%Re).
Proof.
case/mk_latticeE => _ _ -> _ [_ _ _ _ ->]; rewrite /qof /= !div4_2 !Z.sub_diag /order_vector.
by congr (_, _); ring.
Qed.
Lemma fitting_window p a1 a2 ei ee L : mk_lattice p a1 a2 ei ee = Ok L -> window_fits p ->
  [/\ reciproc a1 a2 = Ok (l_b L), w_rows (window L) = p.1, w_cols (window L) = p.2,
      (forall i j, w_at (window L) i j = order_vector (l_b L)
         (Z.sub (Z.of_nat i) (Z.of_nat (p.1 %/ 2))) (Z.sub (Z.of_nat j) (Z.of_nat (p.2 %/ 2)))) &
      ((0 < p.1)%N -> (p.1 %/ 2 + p.1 * (p.2 %/ 2) < l_ng L)%N /\ l_g L (p.1 %/ 2 + p.1 * (p.2 %/ 2)) = (0%Re, 0%Re))].
Proof.
move=> hL hf; have [_ _ _ hb _] := mk_latticeE hL; split=> //.
- exact: (window_rows hL).1.
- exact: (window_cols hL hf).
- exact: (window_at hL).
- by move=> p0; split; [exact: (window_zero_lt hL hf p0)|exact: (window_zero hL p0)].
Qed.
