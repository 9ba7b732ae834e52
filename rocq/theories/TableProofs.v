(** Lemmas for C99-C102: the convolution matrix of a layer of islands, entry by entry. *)
From Coq Require Import Reals ZArith Lra Lia String.
From mathcomp Require Import all_ssreflect all_fingroup all_algebra.
From Coquelicot Require Import Complex Rbar.
From Verif Require Import Base CField CFun ModelExpansion SpecExpansion ModelFourier SpecFourier FourierProofs ModelDevice
  ExpansionProofs ModelExtension SpecTransform IslandProofs DeviceProofs ScaleProofs SpecScale SymDevice.
Set Implicit Arguments. Unset Strict Implicit. Unset Printing Implicit Defensive.
Import GRing.Theory.
Local Open Scope ring_scope.

Definition good_shape (sh : shape) : Prop := match sh with Disc _ _ r => r <> 0%Re | OtherShape => False | _ => True end.
Definition shape_value (J1 : R -> R) (sh : shape) (sigma : R) (g : vec2) : C :=
  match sh with
  | Rectangle x0 y0 x1 y1 => transform_rectangle x0 y0 x1 y1 g.1 g.2 sigma
  | Disc x y r => transform_disc J1 x y r g.1 g.2 sigma
  | _ => 0
  end.
Definition gof (b : vec2 * vec2) (m : Z * Z) : vec2 :=
  ((IZR m.1 * b.1.1 + IZR m.2 * b.2.1)%Re, (IZR m.1 * b.1.2 + IZR m.2 * b.2.2)%Re).
Definition island_value J1 (e : expansion) (isl : seq (shape * C)) (host : C) (m : Z * Z) : C :=
  (if Z.eqb m.1 BinNums.Z0 && Z.eqb m.2 BinNums.Z0 then host else 0) +
  \sum_(p <- isl) (p.2 - host) * shape_value J1 p.1 (e_sigma e) (gof (e_reciprocal e) m).

Lemma transform_good J1 sh G sigma : sigma <> 0%Re -> good_shape sh ->
  transform J1 sh G sigma = Ok (map (shape_value J1 sh sigma) G).
Proof.
move=> s0; rewrite /transform; case: (Req_EM_T sigma 0) => [//|hz].
by case: sh => [x0 y0 x1 y1|x y r|//|//] //= hr; case: (Req_EM_T r 0).
Qed.
Lemma transform_ok J1 sh G sigma t : transform J1 sh G sigma = Ok t -> sigma <> 0%Re /\ good_shape sh.
Proof.
rewrite /transform; case: (Req_EM_T sigma 0) => [//|hz] h; split=> //.
by move: h; case: sh => //= x y r; case: (Req_EM_T r 0).
Qed.
Definition tables J1 (isl : seq (shape * C)) G sigma : seq (seq C * C) := [seq (map (shape_value J1 i.1 sigma) G, i.2) | i <- isl].
Lemma tables_ok J1 isl G sigma data : island_transforms J1 isl G sigma = Ok data ->
  data = tables J1 isl G sigma /\ forall i, List.In i isl -> sigma <> 0%Re /\ good_shape i.1.
Proof.
rewrite /island_transforms; elim: isl data => [|[sh x] isl IH] data /=; first by case=> <-.
case ht : (transform J1 sh G sigma) => [t|//]; cbn [bind fst snd].
case hm : (mapM _ isl) => [r|//] [<-]; have [-> h2] := IH _ hm; have [s0 gs] := transform_ok ht.
by move: ht; rewrite transform_good // => -[<-]; split=> // i [<-|] //; exact: h2.
Qed.
Lemma tables_def J1 isl G sigma : sigma <> 0%Re -> (forall i, List.In i isl -> good_shape i.1) ->
  island_transforms J1 isl G sigma = Ok (tables J1 isl G sigma).
Proof.
move=> s0; rewrite /island_transforms; elim: isl => [//|[sh x] isl IH] h /=.
by rewrite transform_good //; [cbn [bind fst snd]; rewrite IH // => i hi; apply: h; right | exact: (h (sh, x) (or_introl erefl))].
Qed.

Lemma masks_ok host isl acc r : add_masks true host isl acc = Ok r -> isl <> [::] -> host != 0 /\ forall p, List.In p isl -> p.2 != 0.
Proof.
elim: isl acc => [//|[bf x] isl IH] acc; cbn [add_masks mask_trsf] => h _.
unb h ti h1; unb h th h2; move: h1 h2; case: eqP => // x0 _; case: eqP => // h0 _; move: h; case: ifP => // _ h.
split; first exact/eqP.
move=> p [<-|hp]; first exact/eqP.
by case: isl IH h hp => [//|q isl] IH h hp; have [] := IH _ h => // _; apply.
Qed.

Section Table.
Variables (J1 : R -> R) (n : nat) (e : expansion) (isl : seq (shape * C)) (host : C).
Hypotheses (o1 : odd (e_pw e).1) (o2 : odd (e_pw e).2) (hn : ((e_pw e).1 * (e_pw e).2)%N = n).
Notation P := (e_pw e).1. Notation Q := (e_pw e).2.

Definition diff (x y : nat) : Z := Z.sub (Z.of_nat x) (Z.of_nat y).
Definition table_index (i j : nat) : Z * Z :=
  let u := Z.to_nat (Z.add (Z.of_nat ((expanded P - 1) %/ 2)) (diff (i %% P) (j %% P))) in
  let v := Z.to_nat (Z.add (Z.of_nat ((expanded Q - 1) %/ 2)) (diff (i %/ P) (j %/ P))) in
  let k := (u * expanded Q + v)%N in
  (diff (k %% expanded P) ((expanded P - 1) %/ 2), diff (k %/ expanded P) ((expanded Q - 1) %/ 2)).

Lemma odd_expanded x : odd x -> odd (expanded x).
Proof. by move=> ox; rewrite /expanded; case: ifP => // _; rewrite oddM ox. Qed.

Lemma analytical_value M : analytical_matrix J1 n e isl host = Ok M ->
  forall i j : 'I_n, M i j = island_value J1 e isl host (table_index i j).
Proof.
move=> hM i j; have [ge [data [r [h1 h2 h3 [_ [sz h4]]]]]] := analytical_parts hM.
move: h1; rewrite /g_vectors_expanded -/(expanded P) -/(expanded Q).
have [idx hi] := @indices_def (expanded P, expanded Q) (odd_expanded o1) (odd_expanded o2).
rewrite hi; cbn [bind] => -[eg]; have si := indices_size hi; rewrite -eg in sz h2 h4; cbn [fst snd] in sz, h2, h4, si.
have [u [v [hu hv eM]]] := h4 i j.
have [p0 q0] : (0 < P)%N /\ (0 < Q)%N by split; exact: odd_gt0.
have lt (k : 'I_n) : (k %/ P < Q)%N by rewrite ltn_divLR // mulnC hn.
have lx (k : 'I_n) : (k %% P < P)%N by rewrite ltn_pmod.
have [u' [hu' ltu eu]] := expanded_index o1 (lx i) (lx j).
have [v' [hv' ltv ev]] := expanded_index o2 (lt i) (lt j).
move: hu hv; rewrite hu' hv' => -[e1] [e2]; subst u' v'.
have hk : (u * expanded Q + v < expanded P * expanded Q)%N.
  apply: (@leq_trans (u.+1 * expanded Q)); first by rewrite mulSn addnC ltn_add2r.
  by rewrite leq_mul2r ltu orbT.
have et : table_index i j = nth (Z0, Z0) idx (u * expanded Q + v).
  by rewrite (indices_nth hi) // /table_index /diff -eu -ev !Nat2Z.id.
have [ed _] := tables_ok h2; rewrite eM et.
have sr : size r = size idx by rewrite sz si.
have [|_ ->] := combine_nth (k := (u * expanded Q + v)%N) h3; first by rewrite sz.
rewrite sr (centre_order hi) ?si // /island_value; congr (_ + _); rewrite ed big_map; apply: eq_bigr => p _.
by congr (_ * _); rewrite (nth_map (0%Re, 0%Re)) ?size_gvecs ?si // nth_gvecs ?si.
Qed.

Lemma analytical_iff : is_ok (analytical_matrix J1 n e isl host) <->
  [/\ e_sigma e <> 0%Re, isl <> [::], host <> 0 & forall i, List.In i isl -> good_shape i.1 /\ i.2 <> 0].
Proof.
split.
  case=> M; rewrite /analytical_matrix => h; unb h gx h1; unb h data h2; unb h r h3; unb h T h4; unb h M5 h5; unb h w h6.
  have [ed hg] := tables_ok h2.
  have i0 : isl <> [::] by move=> z; move: h3; rewrite ed z.
  have d0 : data <> [::] by rewrite ed; case: (isl) i0.
  have [hh hx] : host != 0 /\ forall p, List.In p data -> p.2 != 0.
    move: h6 d0; rewrite /combine_fourier_masks; case: (data) => [//|[bf x] rest]; case: ifP => // _ h6 d0; unb h6 th h7.
    exact: (masks_ok h6).
  split=> //; [|exact/eqP|].
    case: (isl) i0 hg => [//|i l] _ hg; by have [] := hg i (or_introl erefl).
  move=> i hi; have [_ gs] := hg _ hi; split=> //; apply/eqP.
  apply: (hx (map (shape_value J1 i.1 (e_sigma e)) gx.1, i.2)); rewrite ed.
  by apply/List.in_map_iff; exists i.
case=> s0 i0 h0 hg; rewrite /analytical_matrix /g_vectors_expanded -/(expanded P) -/(expanded Q).
have [idx hi] := @indices_def (expanded P, expanded Q) (odd_expanded o1) (odd_expanded o2).
have si := indices_size hi; rewrite hi; cbn [bind fst snd]; cbn [fst snd] in si.
set G := gvecs _ _; rewrite -/(island_transforms J1 isl G (e_sigma e)) (tables_def _ _ s0); last by move=> i /hg [].
cbn [bind]; set data := tables _ _ _ _.
have sG : size G = (expanded P * expanded Q)%N by rewrite size_gvecs si.
have G0 : (0 < size G)%N by rewrite sG muln_gt0 !odd_gt0 // odd_expanded.
have hdat p : List.In p data -> p.2 != 0 /\ size p.1 = size G.
  by move/List.in_map_iff => [q [<- hq]]; rewrite size_map; split=> //; apply/eqP; have [] := hg _ hq.
have d0 : data <> [::] by rewrite /data /tables; case: (isl) i0.
have h0' : host != 0 by exact/eqP.
move: data hdat d0 => data hdat d0.
have cm inverse : exists r, combine_fourier_masks data host inverse = Ok r /\ (inverse = false -> size r = size G).
  have [r hr] : is_ok (combine_fourier_masks data host inverse).
    case: (data) d0 hdat => [//|[bf eps] rest] _ hdat.
    have [_ /= sz] := hdat (bf, eps) (or_introl erefl).
    have th : mask_trsf inverse host = Ok (if inverse then host^-1 else host).
      by rewrite /mask_trsf; case: inverse => //; rewrite (negbTE h0').
    have : is_ok (add_masks inverse host ((bf, eps) :: rest)
        (mkseq (fun i => if i == ((size bf - 1) %/ 2)%N then if inverse then host^-1 else host else 0) (size bf))).
      by apply: add_masks_def => // p; rewrite size_mkseq sz; exact: hdat.
    rewrite -[is_ok (if _ then _ else _)]/(is_ok (combine_fourier_masks ((bf, eps) :: rest) host inverse)).
    suff -> : combine_fourier_masks ((bf, eps) :: rest) host inverse = add_masks inverse host ((bf, eps) :: rest)
        (mkseq (fun i => if i == ((size bf - 1) %/ 2)%N then if inverse then host^-1 else host else 0) (size bf)) by [].
    by rewrite {1}/combine_fourier_masks {1}sz (gtn_eqF G0) {1}th.
  exists r; split=> // ei; rewrite ei in hr; move: hr.
  case: data d0 hdat => [//|[bf eps] rest] _ hdat /combine_size ->.
  by have [] := hdat (bf, eps) (or_introl erefl).
have [r [-> sr]] := cm false; cbn [bind]; rewrite /reshape sr // sG eqxx; cbn [negb bind fst snd].
rewrite /convolution_matrix_fourier hn eqxx; cbn [negb fst snd].
case: ifP => [_|/negP h]; last first.
  case: h; apply/forallP => i; apply/forallP => j.
  have [p0 q0] : (0 < P)%N /\ (0 < Q)%N by split; exact: odd_gt0.
  have lt (k : 'I_n) : (k %/ P < Q)%N by rewrite ltn_divLR // mulnC hn.
  have lx (k : 'I_n) : (k %% P < P)%N by rewrite ltn_pmod.
  have [u' [hu' _ _]] := expanded_index o1 (lx i) (lx j).
  have [v' [hv' _ _]] := expanded_index o2 (lt i) (lt j).
  by rewrite /conv_entry_at; cbn [a_rows a_cols a_at fst snd]; rewrite hu' hv'.
by cbn [bind]; have [r' [-> _]] := cm true; eexists; reflexivity.
Qed.
End Table.

(** The orders read: for one-dimensional windows the difference of the orders, for
    square windows the same with the axes exchanged. *)
Lemma table_line pw i j : odd pw.1 -> odd pw.2 -> (i < pw.1 * pw.2)%N -> (j < pw.1 * pw.2)%N -> pw.1 = 1%N \/ pw.2 = 1%N ->
  forall e, e_pw e = pw -> table_index e i j = (diff (i %% pw.1) (j %% pw.1), diff (i %/ pw.1) (j %/ pw.1)).
Proof.
move=> o1 o2 hi hj hl e he; have [p0 q0] : (0 < pw.1)%N /\ (0 < pw.2)%N by split; exact: odd_gt0.
have lt k : (k < pw.1 * pw.2)%N -> (k %/ pw.1 < pw.2)%N by rewrite ltn_divLR // mulnC.
have [u [_ ltu eu]] := expanded_index o1 (ltn_pmod i p0) (ltn_pmod j p0).
have [v [_ ltv ev]] := expanded_index o2 (lt _ hi) (lt _ hj).
rewrite /table_index he /diff -eu -ev !Nat2Z.id; case: hl => o.
  have x1 : expanded pw.1 = 1%N by rewrite o.
  have u0 : u = 0%N by move: ltu; rewrite x1; case: (u).
  rewrite x1 u0 mul0n add0n modn1 divn1; congr pair; last by lia.
  have := eu; rewrite u0 x1 /=; lia.
have x1 : expanded pw.2 = 1%N by rewrite o.
have v0 : v = 0%N by move: ltv; rewrite x1; case: (v).
rewrite x1 v0 muln1 addn0 (modn_small ltu) (divn_small ltu) /=; congr pair; first by lia.
have := ev; rewrite v0 x1 /=; lia.
Qed.
Lemma table_square pw i j : odd pw.1 -> (i < pw.1 * pw.2)%N -> (j < pw.1 * pw.2)%N -> pw.1 = pw.2 ->
  forall e, e_pw e = pw -> table_index e i j = (diff (i %/ pw.1) (j %/ pw.1), diff (i %% pw.1) (j %% pw.1)).
Proof.
move=> o1 hi hj o e he; have o2 : odd pw.2 by rewrite -o.
have [p0 q0] : (0 < pw.1)%N /\ (0 < pw.2)%N by split; exact: odd_gt0.
have lt k : (k < pw.1 * pw.2)%N -> (k %/ pw.1 < pw.2)%N by rewrite ltn_divLR // mulnC.
have [u [_ ltu eu]] := expanded_index o1 (ltn_pmod i p0) (ltn_pmod j p0).
have [v [_ ltv ev]] := expanded_index o2 (lt _ hi) (lt _ hj).
rewrite /table_index he /diff -eu -ev !Nat2Z.id -o; rewrite -o in ltv ev.
rewrite modnMDl (modn_small ltv) divnMDl; last by apply: leq_ltn_trans ltv.
rewrite (divn_small ltv) addn0.
by congr pair; lia.
Qed.

(** Two layers of islands. *)
Lemma island_rel J1 n (ph : 'I_n -> C) (p : {perm 'I_n}) e e' (isl isl' : seq (shape * C)) (host : C) :
  odd (e_pw e).1 -> odd (e_pw e).2 -> ((e_pw e).1 * (e_pw e).2)%N = n ->
  odd (e_pw e').1 -> odd (e_pw e').2 -> ((e_pw e').1 * (e_pw e').2)%N = n ->
  (e_sigma e <> 0 -> e_sigma e' <> 0)%Re -> (isl <> [::] -> isl' <> [::]) ->
  ((forall i, List.In i isl -> good_shape i.1 /\ i.2 <> 0) -> forall i, List.In i isl' -> good_shape i.1 /\ i.2 <> 0) ->
  (forall i j : 'I_n, island_value J1 e' isl' host (table_index e' i j) =
     ph i * island_value J1 e isl host (table_index e (p i) (p j)) / ph j) ->
  frel ph p e e' J1 (ANALYTICAL isl host) (ANALYTICAL isl' host).
Proof.
move=> o1 o2 hn o1' o2' hn' hs h0 hg hv; split=> // M; rewrite /form_matrix => hM.
have [s0 i0 x0 g0] : [/\ e_sigma e <> 0%Re, isl <> [::], host <> 0 & forall i, List.In i isl -> good_shape i.1 /\ i.2 <> 0].
  by apply/(analytical_iff J1 _ _ o1 o2 hn); exists M.
have [M' hM'] : is_ok (analytical_matrix J1 n e' isl' host).
  by apply/(analytical_iff J1 _ _ o1' o2' hn'); split=> //; [exact: hs | exact: h0 | exact: hg].
rewrite hM'; congr Ok; apply/matrixP => i j.
by rewrite (analytical_value o1' o2' hn' hM') hv mxE (analytical_value o1 o2 hn hM).
Qed.
