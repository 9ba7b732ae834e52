(** Proofs about the spectra of project files. *)
From Coq Require Import Reals ZArith String Lra Psatz Lia List FunctionalExtensionality.
From mathcomp Require Import all_ssreflect all_algebra.
From Coquelicot Require Import Complex.
From Verif Require Import SpecEnergy Base CField RField CFun StringEq ModelRedheffer RedhefferProofs ModelExpansion ModelFourier Blk ModelTmat SpecTmat TmatProofs ModelLattice SpecLattice LatticeProofs LookupProofs CurrentProofs FourierProofs SpecExp ExpProofs SpecExpansion AnalyticalProofs TmatTheorems TmatExamples ModelEz SpecEz EzProofs TmatEnergyProofs ModelSpectrum SpecSpectrum.
Set Implicit Arguments. Unset Strict Implicit. Unset Printing Implicit Defensive.
Import GRing.Theory.
Local Open Scope ring_scope.

(** * Properties kept by piles *)
Section Kept.
Variables (F : fieldType) (k : nat) (Q : 'M[F]_(k + k) -> Prop).
Hypothesis kept : forall A B T, Q A -> Q B -> multS A B = Ok T -> Q T.
Variables (p : stackings) (req : string -> option 'M[F]_(k + k)).
Hypothesis all : forall name A, req name = Some A -> Q A.
Let Qo (x : option 'M[F]_(k + k)) := if x is Some A then Q A else True.
Lemma at_op_kept x y z : Qo x -> Qo y -> at_op x y = Ok z -> Qo z.
Proof. by move=> hx hy /at_op_ok [a [b [c [? ? -> h]]]]; subst x y; exact: kept hx hy h. Qed.
Lemma repeats_kept m x y z : Qo x -> Qo y -> repeats m x y = Ok z -> Qo z.
Proof.
elim: m x => [|m ih] x hx hy /=; first by case=> <-.
by case ha : (at_op _ _) => [a|//] /=; apply: ih => //; exact: at_op_kept ha.
Qed.
Lemma stack_kept d name z : stack_s p req d name = Ok z -> Qo z.
Proof.
elim: d name z => [//|d ih] name z /=; case hr : (req name) => [A|]; first by case=> <-; exact: all hr.
case: (look p name) => [[ls rep]|]; last by case=> <-.
case: ls => [//|l0 rest]; case h0 : (stack_s _ _ _ l0) => [S0|//]; cbn [bind].
set go := (X in bind (X S0 rest) _); have hgo ls acc w : Qo acc -> go acc ls = Ok w -> Qo w.
  elim: ls acc => [|s ls ih2] acc hacc /=; first by case=> <-.
  case hs : (stack_s _ _ _ s) => [T|//]; cbn [bind]; case ha : (at_op _ _) => [a|//]; cbn [bind].
  by apply: ih2; apply: at_op_kept ha => //; exact: ih hs.
case h1 : (go _ _) => [S1|//]; cbn [bind]; have q1 := hgo _ _ _ (ih _ _ h0) h1.
case: (Z.ltb _ _); last by case=> <-.
by case: S1 q1 {h1} => [A|//] q1; apply: repeats_kept.
Qed.
End Kept.

Lemma look_mapM {A B : Type} (f : A -> res B) (names : seq A) (key : A -> string) l name (v : B) :
  mapM (fun x => do y <- f x; Ok (key x, y)) names = Ok l -> look l name = Some v -> exists x, f x = Ok v.
Proof.
elim: names l => [|x names ih] l /=; first by case=> <-.
case hf : (f x) => [y|//]; cbn [bind]; case hm : (mapM _ _) => [l'|//]; cbn [bind]; case=> <- /=.
by case: eqP => _; [case=> <-; exists x|exact: ih hm].
Qed.

(** * One row *)
Lemma np_sqrt_pos r z : np_sqrt (Float r) = Ok z -> num_val (Float r) != 0 -> (0 < r)%Re.
Proof.
rewrite /np_sqrt; destruct (Rlt_dec r 0) as [h|h] => //= _ /eqP nz.
have : r <> 0%Re by move=> e; apply: nz; rewrite e.
lra.
Qed.
Lemma lattice_V_pos n L r wl kp V : lattice_V n L (Float r) wl kp = Ok V -> (0 < r)%Re.
Proof.
rewrite /lattice_V; case: eqP => // hn; destruct (Req_EM_T wl 0) as [h|h] => //; cbn [is_left].
rewrite /window_mu; case: eqP => // nz; cbn [bind]; rewrite /matrix_v; case hs : (np_sqrt _) => [z|//] _.
by apply: (np_sqrt_pos hs); apply/eqP.
Qed.

Lemma kp_angle0 ei wl phi kp : kp_angle ei wl 0 phi = Ok kp -> kp = (0%Re, 0%Re).
Proof.
rewrite /kp_angle /compute_kplanar; destruct (Req_EM_T wl 0) as [h|h] => //; cbn [is_left bind fst snd].
have -> : deg2rad 0 = 0%Re by rewrite /deg2rad; field.
by rewrite sin_0 !mulr0; case: ifP => // _ [<-].
Qed.
(** A spectrum only exists for windows of the requested shape. *)
Lemma spectrum_window n p a1 a2 ei ee L wl kp U : mk_lattice p a1 a2 ei ee = Ok L -> n = (p.1 * p.2)%N -> (0 < n)%N ->
  lattice_U n L wl kp = Ok U -> window_fits p.
Proof.
move=> hL hn n0 /lattice_UE [e _ _ _ _]; move: n0; rewrite {1}hn muln_gt0 => /andP [p1 p2].
apply/(window_cols_iff hL p1 p2); move: e; rewrite hn; rewrite /l_ng /w_ng (window_rows hL).1 => /eqP.
by rewrite eqn_pmul2l // => /eqP ->.
Qed.
Lemma incident_from_left n p a1 a2 r ee L wl pp sp pin : mk_lattice p a1 a2 (Float r) ee = Ok L -> (0 < r)%Re -> (0 < wl)%Re ->
  @tmat_incident n p 1 pp sp = Ok pin -> dsubmx pin = 0 /\ forall g : 'I_n, snd (compute_kz (l_incid L) wl (0%Re, 0%Re) (l_g L g)) = 0%Re \/
     (quarter_of pin 0 g 0 = 0 /\ quarter_of pin 1 g 0 = 0).
Proof.
move=> hL r0 w0; rewrite /tmat_incident; case: eqP => // hn; case: ltnP => // lt [<-]; split; first by rewrite col_mxKd col_mx0.
move=> g; case: (eqVneq (g : nat) (p.1 %/ 2 + p.1 * (p.2 %/ 2))%N) => [e|ne]; last first.
  by right; rewrite /quarter_of !(col_mxKu, col_mxKd) !mxE (negbTE ne).
left; have p0 : (0 < p.1)%N by move: lt; rewrite hn; case: p.1.
have [_ _ _ _ [-> _ _ _ _]] := mk_latticeE hL; have pi0 := PI_RGT_0.
rewrite e (window_zero hL p0) (@kz_value (Float r) r wl (0%Re, 0%Re) (0%Re, 0%Re) (sqrt r * (2 * PI / wl))%Re) //=.
- by apply: Rmult_le_pos; [exact: sqrt_pos|apply/Rlt_le; apply: Rdiv_lt_0_compat; lra].
- rewrite -{1}(sqrt_sqrt r); last lra.
  by field; lra.
Qed.
Section Point.
Variables (J1 : R -> R) (n : nat) (expm : 'M[C]_((n + n) + (n + n)) -> 'M[C]_((n + n) + (n + n))).
Hypothesis hexp : is_expm expm.
Lemma layer_lossless P L a1 a2 ei ee wl kp name S : mk_lattice (p_pw P) a1 a2 ei ee = Ok L -> window_fits (p_pw P) ->
  layer_matrix J1 expm P L wl kp name = Ok S -> lossless L wl kp S.
Proof.
move=> hL hf; rewrite /layer_matrix; case: (look _ _) => [c|//]; case: (material _ _) => [host|//]; cbn [bind].
case hi : (mapM _ _) => [isl|//]; cbn [bind]; apply: (layer_conserves hL hf hexp) => // s e /(mapM_In hi) [[i m] _ /=].
by case: (material _ _) => [x|//]; cbn [bind]; case: (island_shape _ _) => [y|//] /= [_ <-].
Qed.
Lemma point_balance P d device L pin pp sp req a1 a2 ei ee phi freq f :
  mk_lattice (p_pw P) a1 a2 (Float ei) (Float ee) = Ok L -> @tmat_incident n (p_pw P) 1 pp sp = Ok pin ->
  (0 < p_size P)%Re -> (0 < freq)%Re ->
  clear_orders L (Float ei) (p_size P / freq) (0%Re, 0%Re) -> clear_orders L (Float ee) (p_size P / freq) (0%Re, 0%Re) ->
  spectrum_point J1 expm P d device L pin req ei phi 0 freq = Ok f -> (f.1.1 + f.1.2 = 1)%Re /\ f.2 = 0%Re.
Proof.
move=> hL hin a0 f0 ci ce; rewrite /spectrum_point; destruct (Req_EM_T freq 0) as [h|h0]; first lra.
cbn [is_left]; set wl := (p_size P / freq)%Re; have w0 : (0 < wl)%Re by apply: Rdiv_lt_0_compat.
case hk : (kp_angle _ _ _ _) => [kp|//]; cbn [bind]; have ek := kp_angle0 hk; subst kp.
case hm : (mapM _ _) => [mats|//]; cbn [bind]; case hs : (stack_s _ _ _ _) => [Sd|//]; cbn [bind].
case hi : (scattering_interface _ _ _ _) => [Si|//]; cbn [bind].
have li := interface_lossless hi; have [U [Ve [_ [hU hVe _ _]]]] := li.
have [mi me] : l_incid L = Float ei /\ l_emerg L = Float ee by have [_ _ _ _ [-> -> _ _ _]] := mk_latticeE hL.
have hn : n = ((p_pw P).1 * (p_pw P).2)%N by move: hin; rewrite /tmat_incident; case: eqP.
have n0 : (0 < n)%N by move: hin; rewrite /tmat_incident; case: eqP => // _; case: ltnP => // lt _; exact: leq_ltn_trans lt.
have hf := spectrum_window hL hn n0 hU.
have e0 : (0 < ee)%Re by move: hVe; rewrite /lattice_Ve me; exact: lattice_V_pos.
case ha : (at_op _ _) => [St|//]; cbn [bind]; have [A [B [T [eA [eB] eT hmul]]]] := at_op_ok ha; subst Sd B St.
have lA : lossless L wl (0%Re, 0%Re) A.
  apply: (@stack_kept C_fieldType (n + n) (lossless L wl (0%Re, 0%Re)) (@losslessM n L wl _) _ _ _ _ _ _ hs) => name M /= hl.
  have [x hx] := look_mapM hm hl; exact: layer_lossless hL hf hx.
have lT := lossless_ontoM lA li hmul.
have r0 : (0 < ei)%Re.
  by have [_ [V [_ [_ hV _ _]]]] := lA; move: hV; rewrite /lattice_Vi mi; exact: lattice_V_pos.
have [z0 z1] := incident_from_left hL r0 w0 hin.
apply: (pile_fluxes lT w0 (r := ei) (r' := ee)) => //; rewrite ?mi ?me //.
Qed.
End Point.

(** * Spectra *)
Section Rows.
Variables (J1 : R -> R) (n : nat) (expm : 'M[C]_((n + n) + (n + n)) -> 'M[C]_((n + n) + (n + n))).
Lemma spectrumE P d device sp pp r rows : compute_spectrum J1 expm P d device sp pp r = Ok rows ->
  exists ei ee L pin req, [/\ project_lattice P ei ee L, tmat_incident n (p_pw P) 1 pp sp = Ok pin &
    mapM (fun c => do f <- spectrum_point J1 expm P d device L pin req ei c.1 c.2.1 c.2.2;
                 Ok (Row c.1 c.2.1 c.2.2 (p_size P / c.2.2)%Re f.1.1 f.1.2 f.2))
    [seq (phi, tf) | phi <- json_range (r_phi r),
                     tf <- [seq (theta, freq) | theta <- json_range (r_theta r), freq <- json_range (r_freq r)]] = Ok rows].
Proof.
rewrite /compute_spectrum /project_lattice /material.
case: (look _ (p_incident P)) => [ei|//]; cbn [bind]; case: (look _ (p_substrate P)) => [ee|//]; cbn [bind].
case hL : (mk_lattice _ _ _ _ _) => [L|//]; cbn [bind]; case hp : (tmat_incident _ _ _ _ _) => [pin|//]; cbn [bind].
case: (gather_s _ _ _ _ _) => [req|//]; cbn [bind]; case: req => [//|r0 req] h.
by exists ei, ee, L, pin, (r0 :: req).
Qed.
Lemma spectrum_balance P d device sp pp r rows w : is_expm expm ->
  compute_spectrum J1 expm P d device sp pp r = Ok rows -> (0 < p_size P)%Re ->
  List.In w rows -> w_theta w = 0%Re -> (0 < w_freq w)%Re -> clear_project P (w_wl w) ->
  (w_R w + w_T w = 1)%Re /\ w_A w = 0%Re.
Proof.
move=> hexp /spectrumE [ei [ee [L [pin [req [hP hin hm]]]]]] a0 /(mapM_In hm) [[phi [theta freq]] _ /=].
case hf : (spectrum_point _ _ _ _ _ _ _ _ _ _ _) => [f|//]; cbn [bind] => -[<-] /= e f0 clear; subst theta.
have [ci ce] := clear _ _ _ hP; have [_ _ hL] := hP.
exact: (point_balance hexp hL hin a0 f0 ci ce hf).
Qed.
Lemma mapM_rows A B (f : A -> res B) l r : mapM f l = Ok r -> size r = size l /\ forall i x0 y0, (i < size l)%N -> f (nth x0 l i) = Ok (nth y0 r i).
Proof.
elim: l r => [|x l ih] r /=; first by case=> <-.
case hx : (f x) => [y|//]; cbn [bind]; case hm : (mapM f l) => [r'|//]; cbn [bind] => -[<-].
have [e h] := ih _ hm; split=> [/=|]; first by rewrite e.
by case=> [|i] x0 y0 //= lt; exact: h.
Qed.
Lemma json_linspaceE lo hi k i x0 : (i < k)%N -> nth x0 (json_linspace lo hi k) i = (lo + INR i * ((hi - lo) / INR (k - 1)))%Re.
Proof.
move=> lt; rewrite /json_linspace (nth_map 0%N) ?size_iota // nth_iota // add0n.
case: eqP => // e; move: lt; rewrite e; case: i => // _ /=; ring.
Qed.
Lemma spectrum_rows P d device sp pp r rows : compute_spectrum J1 expm P d device sp pp r = Ok rows ->
  let: (Np, Nt, Nf) := ((r_phi r).2, (r_theta r).2, (r_freq r).2) in
  size rows = (Np * (Nt * Nf))%N /\
  forall i j l w0, (i < Np)%N -> (j < Nt)%N -> (l < Nf)%N -> let w := nth w0 rows (i * (Nt * Nf) + (j * Nf + l))%N in
    let at_ (q : R * R * nat) (k : nat) := (q.1.1 + INR k * ((q.1.2 - q.1.1) / INR (q.2 - 1)))%Re in
    [/\ w_phi w = at_ (r_phi r) i, w_theta w = at_ (r_theta r) j, w_freq w = at_ (r_freq r) l & w_wl w = (p_size P / w_freq w)%Re].
Proof.
move=> /spectrumE [ei [ee [L [pin [req [hP hin /mapM_rows]]]]]].
set S2 := [seq (theta, freq) | theta <- json_range (r_theta r), freq <- json_range (r_freq r)]; set S3 := [seq (phi, tf) | phi <- json_range (r_phi r), tf <- S2].
have sr q : size (json_range q) = q.2 by rewrite /json_range /json_linspace size_map size_iota.
have s2 : size S2 = ((r_theta r).2 * (r_freq r).2)%N by rewrite size_allpairs !sr.
have s3 : size S3 = ((r_phi r).2 * ((r_theta r).2 * (r_freq r).2))%N by rewrite size_allpairs s2 sr.
move=> [e h]; rewrite e s3; split=> // i j l w0 li lj ll.
have x : R := 0%Re.
have lt2 : (j * (r_freq r).2 + l < size S2)%N.
  rewrite s2; apply: leq_trans (_ : (j.+1 * (r_freq r).2 <= _)%N); first by rewrite mulSn addnC ltn_add2r.
  by rewrite leq_mul2r lj orbT.
have lt3 : (i * (size S2) + (j * (r_freq r).2 + l) < size S3)%N.
  rewrite s3 -s2; apply: leq_trans (_ : (i.+1 * size S2 <= _)%N); first by rewrite mulSn addnC ltn_add2r.
  by rewrite leq_mul2r li orbT.
rewrite -s2; have := h _ (x, (x, x)) w0 lt3.
have pair (A B D : Type) (f : A -> B -> D) (s : seq A) (t : seq B) a0 b0 d0 (a b : nat) : (a < size s)%N -> (b < size t)%N ->
    nth d0 [seq f y z | y <- s, z <- t] (a * size t + b) = f (nth a0 s a) (nth b0 t b).
  elim: s a => [//|y s ih] a /= la lb; rewrite nth_cat size_map; case: a la => [|a] la.
    by rewrite mul0n add0n lb (nth_map b0).
  by rewrite mulSn -addnA ltnNge leq_addr /= addKn; exact: ih.
have -> : nth (x, (x, x)) S3 (i * size S2 + (j * (r_freq r).2 + l)) =
    (nth x (json_range (r_phi r)) i, (nth x (json_range (r_theta r)) j, nth x (json_range (r_freq r)) l)).
  rewrite (pair _ _ _ _ _ _ x (x, x)) ?sr //; congr (_, _).
  by rewrite -{1}(sr (r_freq r)) (pair _ _ _ _ _ _ x x) ?sr.
by case: (spectrum_point _ _ _ _ _ _ _ _ _ _ _) => [f|//] /= [<-] /=; rewrite /json_range !json_linspaceE.
Qed.
End Rows.

(** * Examples *)
Lemma each_order1 n : each_order (fun _ : 'I_n => 1) = 1%:M.
Proof.
rewrite /each_order; have -> : (\row_(g < n) (1 : C)) = const_mx 1 by apply/rowP => g; rewrite !mxE.
by rewrite !row_mx_const diag_const_mx.
Qed.
Lemma kp_angle_air theta : kp_angle 1 (2 * PI) theta 0 = Ok (sin (deg2rad theta), 0%Re).
Proof.
have p0 := PI_RGT_0; rewrite /kp_angle /compute_kplanar; destruct (Req_EM_T (2 * PI) 0) as [h|h]; first lra.
cbn [is_left bind fst snd]; rewrite csqrt_nonneg; last lra.
have -> : deg2rad 0 = 0%Re by rewrite /deg2rad; field.
rewrite sqrt_1 cos_0 sin_0; set s := sin _.
have e (c : R) : RtoC c * RtoC 1 * 2%:R * RtoC PI / RtoC (2 * PI) * RtoC s = RtoC (c * s).
  toC; apply: C_ext => /=; field; repeat split => //; try lra; try nra.
by rewrite !e /= !eqxx /=; congr (Ok (_, _)); ring.
Qed.
Lemma sheet_point J1 (expm : 'M[C]_((1 + 1) + (1 + 1)) -> 'M[C]_((1 + 1) + (1 + 1))) d theta s L m : is_expm expm ->
  mk_lattice (1, 1)%N (1%Re, 0%Re) (0%Re, 1%Re) (Float 1) (Float (16 / 9)) = Ok L ->
  let kp := (sin (deg2rad theta), 0%Re) in
  (1 - kp.1 ^ 2 = s * s)%Re -> (0 < s)%Re -> (s * d = 2 * PI * INR m)%Re -> (kp.1 = 0 \/ / 2 ^ 52 <= kp.1 ^ 2)%Re ->
  spectrum_point J1 expm (sheet d) 5 "device" L unit_wave [:: "sheet"%string] 1 0 theta (/ (2 * PI)) =
  do Si <- scattering_interface 1 L (2 * PI) kp; compute_fluxes L (2 * PI) unit_wave (Si *m unit_wave) kp.
Proof.
move=> hexp hL kp hs s0 hd tiny; have p0 := PI_RGT_0; rewrite /spectrum_point.
have w0 : (/ (2 * PI) <> 0)%Re by apply: Rinv_neq_0_compat; lra.
destruct (Req_EM_T (/ (2 * PI)) 0) as [h|h] => //; cbn [is_left].
have -> : (p_size (sheet d) / / (2 * PI) = 2 * PI)%Re by rewrite /sheet /=; field; lra.
rewrite kp_angle_air; cbn [bind]; rewrite -/kp.
have hl : layer_matrix J1 expm (sheet d) L (2 * PI) kp "sheet" = Ok 1%:M.
  rewrite /layer_matrix /material /=.
  have mi := (one_media hL).1.
  have fits : window_fits (1, 1)%N by left.
  have nt : not_tiny L kp.
    move=> g; rewrite (one_ng hL); case: g => // _; rewrite (one_g hL) /=; move: tiny => /= [->|t]; [left; ring|right].
    by rewrite !Rplus_0_r Rmult_0_l Rplus_0_r.
  have kz g : compute_kz (l_incid L) (2 * PI) kp (l_g L (g : 'I_1)) = RtoC s.
    rewrite (ord1 g) (one_g hL) mi (@kz_value _ 1%Re _ _ _ s) //=; first lra.
    rewrite -hs /=; field; lra.
  have hh : RtoC 1 = num_val (l_incid L) by rewrite mi.
  have [A hA] : is_ok (@scattering_matrix_islands J1 1 expm (1, 1)%N L [::] (RtoC 1) (2 * PI) kp (d * 1)%Re 3).
    rewrite hh; apply: (@homogeneous_layer_ok J1 _ _ _ _ _ L 1 expm (2 * PI) kp (d * 1) 3 hL fits (expm_exponential hexp) nt) => //.
    + by rewrite (one_ng hL).
    + lra.
    + by rewrite mi /=; apply/eqP => /(congr1 fst) /=; lra.
    + by rewrite mi /=; lra.
    + apply: (one_no_anomaly hL (r := 1%Re)); rewrite ?mi //.
      have -> : (2 * PI / (2 * PI) = 1)%Re by field; lra.
      by rewrite /kp /=; move: hs; rewrite /=; nra.
  rewrite hA; congr Ok.
  rewrite (@homogeneous_layer J1 _ _ _ _ _ L 1 expm [::] (RtoC 1) (2 * PI) kp (d * 1) 3 A hL fits (expm_exponential hexp) nt erefl hh hA) -each_order1; congr each_order.
  apply: functional_extensionality => g; rewrite kz Rmult_1_r.
  have -> : ci * RtoC s * RtoC d = ci * RtoC (2 * PI * INR m) by rewrite -hd; apply: C_ext => /=; ring.
  rewrite -(cexp_2kPI (- Z.of_nat m)); congr cexp; apply: C_ext => /=; rewrite opp_IZR -INR_IZR_INZ; ring.
rewrite /= hl; cbn [bind look]; rewrite /= ?eqxx /=.
case: (scattering_interface _ _ _ _) => [Si|//] /=.
by rewrite multS_1l.
Qed.
Lemma sheet_lattice d L ei ee : project_lattice (sheet d) ei ee L ->
  [/\ ei = 1%Re, ee = (16 / 9)%Re & mk_lattice (1, 1)%N (1%Re, 0%Re) (0%Re, 1%Re) (Float 1) (Float (16 / 9)) = Ok L].
Proof. by case=> [[<-] [<-] /=]; rewrite !Rmult_1_r. Qed.
Lemma sheet_spectrum J1 (expm : 'M[C]_((1 + 1) + (1 + 1)) -> 'M[C]_((1 + 1) + (1 + 1))) d theta L s m : is_expm expm ->
  mk_lattice (1, 1)%N (1%Re, 0%Re) (0%Re, 1%Re) (Float 1) (Float (16 / 9)) = Ok L ->
  let kp := (sin (deg2rad theta), 0%Re) in
  (1 - kp.1 ^ 2 = s * s)%Re -> (0 < s)%Re -> (s * d = 2 * PI * INR m)%Re -> (kp.1 = 0 \/ / 2 ^ 52 <= kp.1 ^ 2)%Re ->
  compute_spectrum J1 expm (sheet d) 5 "device" 1 0 (one_angle theta) =
  do f <- (do Si <- scattering_interface 1 L (2 * PI) kp; compute_fluxes L (2 * PI) unit_wave (Si *m unit_wave) kp);
  Ok [:: Row 0 theta (/ (2 * PI)) (2 * PI) f.1.1 f.1.2 f.2].
Proof.
move=> hexp hL kp hs s0 hd tiny; rewrite /compute_spectrum /material.
have -> : look (p_materials (sheet d)) (p_incident (sheet d)) = Some 1%Re by [].
have -> : look (p_materials (sheet d)) (p_substrate (sheet d)) = Some (16 / 9)%Re by [].
cbn [bind]; rewrite [p_pw _]/= [p_a1 _]/= [p_a2 _]/= [p_size _]/= [fst _]/= [snd _]/= !Rmult_1_r hL; cbn [bind].
rewrite unit_wave_incident; cbn [bind].
have -> : gather_s (p_stacking (sheet d)) [seq i.1 | i <- p_layers (sheet d)] 5 "device" [::] = Ok [:: "sheet"%string] by [].
cbn [bind]; rewrite (_ : flatten _ = [:: (0%Re, (theta, (/ (2 * PI))%Re))]); last by [].
cbn [mapM fst snd].
rewrite (sheet_point J1 hexp hL hs s0 hd tiny) -/kp; case: (scattering_interface _ _ _ _) => [Si|//]; cbn [bind]; case: (compute_fluxes _ _ _ _ _) => [f|//]; cbn [bind].
have p0 := PI_RGT_0; have -> // : (p_size (sheet d) / / (2 * PI) = 2 * PI)%Re by rewrite /=; field; lra.
Qed.
Lemma oblique_absorbs J1 : exists P theta rows w,
  [/\ @compute_spectrum J1 1 (@mexp _) P 5 "device" 1 0 (one_angle theta) = Ok rows, List.In w rows & w_A w = (144 / 625)%Re].
Proof.
have [L [S [pin [f [[hL hS hp hf] hA]]]]] := angle_ignored.
have ep : pin = unit_wave by move: hp; rewrite unit_wave_incident => -[].
have p0 := PI_RGT_0.
pose theta := (asin (4 / 5) * 180 / PI)%Re; pose d := (10 * PI / 3)%Re.
have es : sin (deg2rad theta) = (4 / 5)%Re.
  have -> : deg2rad theta = asin (4 / 5) by rewrite /deg2rad /theta; field; lra.
  by apply: sin_asin; lra.
have hc : @compute_spectrum J1 1 (@mexp _) (sheet d) 5 "device" 1 0 (one_angle theta) = Ok [:: Row 0 theta (/ (2 * PI)) (2 * PI) f.1.1 f.1.2 f.2].
  rewrite (@sheet_spectrum J1 (@mexp _) d theta L (3 / 5) 1 (@mexpP _) hL).
  - by rewrite es hS; cbn [bind]; rewrite -ep hf.
  - by rewrite es /=; field.
  - lra.
  - by rewrite /d /=; field.
  - right; rewrite es /=; have := Rinv_0_lt_compat (2 ^ 52)%Re; have : (/ 2 ^ 52 <= / 2 ^ 1)%Re by apply: Rinv_le_contravar; simpl; lra.
    simpl; lra.
by exists (sheet d), theta, [:: Row 0 theta (/ (2 * PI)) (2 * PI) f.1.1 f.1.2 f.2], (Row 0 theta (/ (2 * PI)) (2 * PI) f.1.1 f.1.2 f.2); split=> //; left.
Qed.
Lemma normal_spectrum J1 : exists rows w, let P := sheet (2 * PI) in
  [/\ @compute_spectrum J1 1 (@mexp _) P 5 "device" 1 0 (one_angle 0) = Ok rows, List.In w rows, w_theta w = 0%Re, (0 < w_freq w)%Re &
      (0 < p_size P)%Re /\ clear_project P (w_wl w)].
Proof.
have p0 := PI_RGT_0.
have [L [S /= [hL hS hw [ci ce _ [f hf]]]]] := @glass_interface (0%Re, 0%Re) 1%Re (4 / 3)%Re ltac:(simpl; lra) ltac:(lra) ltac:(simpl; lra) ltac:(lra).
have d0 : deg2rad 0 = 0%Re by rewrite /deg2rad; field.
have hc : @compute_spectrum J1 1 (@mexp _) (sheet (2 * PI)) 5 "device" 1 0 (one_angle 0) = Ok [:: Row 0 0 (/ (2 * PI)) (2 * PI) f.1.1 f.1.2 f.2].
  rewrite (@sheet_spectrum J1 (@mexp _) (2 * PI) 0 L 1 1 (@mexpP _) hL); rewrite ?d0 ?sin_0.
  - by rewrite hS; cbn [bind]; rewrite hf.
  - by rewrite /=; ring.
  - lra.
  - by rewrite /=; ring.
  - by left.
eexists; exists (Row 0 0 (/ (2 * PI)) (2 * PI) f.1.1 f.1.2 f.2); split; [exact: hc|by left|by []| |split] => /=.
- by apply: Rinv_0_lt_compat; lra.
- lra.
- move=> ei ee L' /sheet_lattice [-> ->]; rewrite hL => -[<-].
  by have [mi me] := one_media hL; rewrite mi in ci; rewrite me in ce.
Qed.

(** * Piles at any angle *)
Lemma pile_balance J1 n (expm : 'M[C]_((n + n) + (n + n)) -> 'M[C]_((n + n) + (n + n))) p a1 a2 ei ee L wl kp r r'
    (stacking : stackings) (req : string -> option 'M[C]_((n + n) + (n + n))) d name A Si S (pin : 'cV[C]_((n + n) + (n + n))) j1p j1m j3p :
  is_expm expm -> mk_lattice p a1 a2 ei ee = Ok L -> window_fits p -> (0 < wl)%Re ->
  num_val ei = RtoC r -> (0 < r)%Re -> num_val ee = RtoC r' ->
  (forall nm M, req nm = Some M -> exists isl host dp pow, [/\ snd host = 0%Re, (forall s e, List.In (s, e) isl -> snd e = 0%Re) &
     scattering_matrix_islands J1 expm p L isl host wl kp dp pow = Ok M]) ->
  @stack_s C_fieldType (n + n) stacking req d name = Ok (Some A) -> scattering_interface n L wl kp = Ok Si -> multS A Si = Ok S ->
  from_left L wl kp pin -> clear_orders L (l_incid L) wl kp -> clear_orders L (l_emerg L) wl kp ->
  compute_currents pin (S *m pin) L wl kp = Ok (j1p, j1m, j3p) ->
  \sum_g j1p g = \sum_g j1m g + \sum_g j3p g.
Proof.
move=> hexp hL hf w0 hi r0 he hreq hs hSi hm [hd hp] ci ce hj.
have [mi me] : l_incid L = ei /\ l_emerg L = ee by have [_ _ _ _ [-> -> _ _ _]] := mk_latticeE hL.
have lA : lossless L wl kp A.
  apply: (@stack_kept C_fieldType (n + n) (lossless L wl kp) (@losslessM n L wl _) _ _ _ _ _ _ hs) => nm M /hreq [isl [host [dp [pow [h1 h2 h3]]]]].
  exact: (layer_conserves hL hf hexp h1 h2 h3).
have lT := lossless_ontoM lA (interface_lossless hSi) hm.
rewrite -mi in hi; rewrite -me in he.
have [q [a [b [c [-> -> -> -> _]]]]] := @pile_currents n L wl kp S lT w0 r r' hi he r0 pin hd hp ci ce _ hj.
by apply: C_ext => /=; ring.
Qed.
