(** Lemmas about analytical layers: real islands give Hermitian operators. *)
From Coq Require Import Reals ZArith Lra Lia.
From mathcomp Require Import all_ssreflect all_algebra.
From Coquelicot Require Import Complex.
From Verif Require Import Base ZmodTac CField CFun ModelRedheffer ModelExpansion SpecExpansion ExpansionProofs
  SpecEnergy EnergyAlg SpecFlux FluxProofs
  ModelFourier SpecFourier FourierProofs ModelExtension ModelDevice.
Set Implicit Arguments. Unset Strict Implicit. Unset Printing Implicit Defensive.
Import GRing.Theory.
Local Open Scope ring_scope.

(** Opposite positions hold conjugate numbers. *)
Definition csym (l : seq C) : Prop :=
  forall i, (i < size l)%N -> nth 0 l (size l - 1 - i) = Cconj (nth 0 l i).

Lemma Cmod_conj (z : C) : Cmod (Cconj z) = Cmod z.
Proof. by rewrite /Cmod /=; congr sqrt; ring. Qed.
Lemma fexpz_conj z : fexpz (Cconj z) = Cconj (fexpz z).
Proof.
rewrite /fexpz Cmod_conj; case: Rlt_dec => _ /=.
  by rewrite conjCM conjCV conjCD conjCN conjC1 cexp_conj.
have r m : Cconj (m%:R) = m%:R by rewrite rmorph_nat.
have q m w : Cconj (w / m%:R) = Cconj w / m%:R by rewrite conjCM conjCV r.
by rewrite !(conjCD, conjCM, conjCV, r, conjC1).
Qed.
Lemma rectangle_conj a b c d x y s :
  transform_rectangle a b c d (- x)%Re (- y)%Re s = Cconj (transform_rectangle a b c d x y s).
Proof.
rewrite /transform_rectangle !conjCM !conjC_R -!fexpz_conj cexp_conj.
congr (_ * fexpz _ * fexpz _ * cexp _); apply: C_ext => /=; ring.
Qed.
Lemma isclose0N x : isclose0 (- x) = isclose0 x.
Proof. by rewrite /isclose0 Rabs_Ropp. Qed.
Lemma disc_conj J1 a b r x y s :
  transform_disc J1 a b r (- x)%Re (- y)%Re s = Cconj (transform_disc J1 a b r x y s).
Proof.
rewrite /transform_disc !isclose0N; case: ifP => _; first by rewrite conjC_R.
rewrite !conjCM !conjC_R cexp_conj.
have -> : (- x * - x + - y * - y = x * x + y * y)%Re by ring.
congr (_ * cexp _ * _); apply: C_ext => /=; ring.
Qed.

(** G-vectors at opposite positions are opposite. *)
Definition gsym (G : seq vec2) : Prop := forall i, (i < size G)%N ->
  nth (0%Re, 0%Re) G (size G - 1 - i) = opp2 (nth (0%Re, 0%Re) G i).
Lemma gvecs_sym b pw idx : generate_expansion_indices pw = Ok idx -> gsym (gvecs b idx).
Proof.
move=> h i; rewrite size_gvecs => hi.
have hi' : (size idx - 1 - i < size idx)%N.
  by case: (size idx) hi => // m _; rewrite subn1 /= ltnS leq_subr.
rewrite !nth_gvecs // (indices_opposite h hi) /= /opp2 /= !opp_IZR; congr pair; ring.
Qed.
Lemma transform_sym J1 s G sigma t : gsym G -> transform J1 s G sigma = Ok t -> csym t /\ size t = size G.
Proof.
rewrite /transform => hG; destruct (Req_EM_T sigma 0) as [h|h] => //.
have key (f : vec2 -> C) : (forall g, f (opp2 g) = Cconj (f g)) -> csym [seq f g | g <- G].
  move=> hf i; rewrite size_map => hi.
  have hi' : (size G - 1 - i < size G)%N.
    by case: (size G) hi => // m _; rewrite subn1 /= ltnS leq_subr.
  by rewrite !(nth_map (0%Re, 0%Re)) // hG // hf.
case: s => [a b c d|a b r||] //.
- by case=> <-; rewrite size_map; split=> //; apply: key => g; exact: rectangle_conj.
- destruct (Req_EM_T r 0) as [h'|h'] => // -[<-]; rewrite size_map; split=> //; apply: key => g; exact: disc_conj.
- by case=> <-; rewrite size_map; split=> //; apply: (key (fun=> 0)) => g; rewrite conjC0.
Qed.

Lemma masks_sym host (isl : seq (seq C * C)) acc r : snd host = 0%Re ->
  List.Forall (fun p => csym p.1 /\ snd p.2 = 0%Re) isl -> csym acc ->
  add_masks false host isl acc = Ok r -> csym r /\ size r = size acc.
Proof.
move=> hh; elim: isl acc => [|[bf eps] isl IH] acc hf hacc /=; first by case=> <-.
case: eqP => //= hs h; have [/= hbf heps] : csym bf /\ snd eps = 0%Re by inversion hf.
have sz : size [seq p.1 + (eps - host) * p.2 | p <- zip acc bf] = size acc.
  by rewrite size_map size_zip hs minnn.
have hf' : List.Forall (fun p => csym p.1 /\ snd p.2 = 0%Re) isl by inversion hf.
suff c2 : csym [seq p.1 + (eps - host) * p.2 | p <- zip acc bf].
  by have [h1 h2] := IH _ hf' c2 h; rewrite h2 sz.
move=> i; rewrite sz => hi.
have hi' : (size acc - 1 - i < size acc)%N.
  by case: (size acc) hi => // m _; rewrite subn1 /= ltnS leq_subr.
have nz k : (k < size acc)%N -> nth (0, 0) (zip acc bf) k = (nth 0 acc k, nth 0 bf k) by rewrite nth_zip.
rewrite !(nth_map (0, 0)) ?size_zip ?hs ?minnn // !nz // hacc //=.
have -> : nth 0 bf (size acc - 1 - i) = Cconj (nth 0 bf i) by rewrite -hs hbf // hs.
have r0 : snd (eps - host) = 0%Re by rewrite /= heps hh; apply: Rplus_opp_r.
by rewrite conjCD conjCM (conjC_real r0).
Qed.
Lemma combine_sym isl host r : snd host = 0%Re -> List.Forall (fun p => csym p.1 /\ snd p.2 = 0%Re) isl ->
  (forall p, List.In p isl -> odd (size p.1)) ->
  combine_fourier_masks isl host false = Ok r -> csym r.
Proof.
case: isl => [//|[bf eps] isl] hh hf ho /=; case: ifP => // n0 h.
have hodd : odd (size bf) by apply: (ho (bf, eps)); left.
have [] := masks_sym hh hf _ h => //.
move=> i; rewrite size_mkseq => hi.
have hi' : (size bf - 1 - i < size bf)%N.
  by case: (size bf) hi => // m _; rewrite subn1 /= ltnS leq_subr.
rewrite !nth_mkseq //.
have -> : (size bf - 1 - i == (size bf - 1) %/ 2)%N = (i == (size bf - 1) %/ 2)%N; last first.
  by case: ifP => _; rewrite ?conjC0 // conjC_real.
have e := odd_halves hodd; move: e hi; move: ((size bf - 1) %/ 2)%N => m e; rewrite e => /ltP hi.
move: hi; rewrite -addnn -addn1 addnK -!plusE => hi.
by apply/eqP/eqP; rewrite -!minusE => hh'; lia.
Qed.

(** Entries of a table symmetric about its centre. *)
Definition table_sym (A : array2) : Prop := forall i j, (i < a_rows A)%N -> (j < a_cols A)%N ->
  a_at A (a_rows A - 1 - i) (a_cols A - 1 - j) = Cconj (a_at A i j).
Lemma reshape_sym l rc A : csym l -> reshape l rc = Ok A -> table_sym A /\ (a_rows A, a_cols A) = rc.
Proof.
case: rc => r c; rewrite /reshape; case: eqP => //= sz hl [<-]; split=> // i j; rewrite /a_rows /a_cols /a_at => hi hj.
have hk : (i * c + j < size l)%N.
  rewrite sz; apply: (@leq_trans (i * c + c)); first by rewrite ltn_add2l.
  by rewrite -mulSnr leq_mul2r hi orbT.
rewrite -hl // sz; congr (nth _ _ _).
rewrite -(subnK hi); move: (r - i.+1)%N => a {sz hk hi}.
have -> : (a + i.+1 - 1 - i = a)%N by rewrite -addnBA // subn1 addnK.
move/ltP: hj => hj; rewrite !mulnDl mulSn -!multE -!plusE -!minusE; nia.
Qed.

Lemma fourier_lossless n A (pw : nat * nat) M : table_sym A -> odd (a_rows A) -> odd (a_cols A) ->
  (pw.1 <= a_rows A %/ 2 + 1)%N -> (pw.2 <= a_cols A %/ 2 + 1)%N ->
  convolution_matrix_fourier n A pw = Ok M -> lossless_op M.
Proof.
case: pw => P Q /= hs o1 o2 l1 l2; rewrite /convolution_matrix_fourier /=; case: eqP => //= hn.
case: ifP => // _ [<-]; apply/matrixP => i j; rewrite /adj !mxE.
have idx N p (a b : nat) : odd N -> (p <= N %/ 2 + 1)%N -> (a < p)%N -> (b < p)%N ->
  exists u, [/\ py_index N (Z.add (Z.of_nat (N %/ 2)) (Z.sub (Z.of_nat a) (Z.of_nat b))) = Ok u, (u < N)%N &
             py_index N (Z.add (Z.of_nat (N %/ 2)) (Z.sub (Z.of_nat b) (Z.of_nat a))) = Ok (N - 1 - u)%N].
  move=> oN hp ha hb; have eN := odd_halves oN.
  have eh : (N %/ 2 = (N - 1) %/ 2)%N by rewrite {1}eN divn2 /= uphalf_double.
  rewrite eh in hp *; move: ((N - 1) %/ 2)%N eN hp => h eN hp.
  rewrite -addnn -addn1 in eN.
  move/leP: hp => hp; move/ltP: ha => ha; move/ltP: hb => hb; rewrite -!plusE in eN hp.
  eexists; split; first by (apply: py_index_in; lia).
    by apply/ltP; lia.
  rewrite py_index_in; [congr Ok; rewrite -!minusE; lia|lia|lia].
have [p0 q0] : (0 < P)%N /\ (0 < Q)%N.
  by apply/andP; rewrite -muln_gt0 hn; apply: leq_ltn_trans (ltn_ord i).
have lt (k : 'I_n) : (k %/ P < Q)%N by rewrite ltn_divLR // mulnC hn.
have lx (k : 'I_n) : (k %% P < P)%N by rewrite ltn_pmod.
have [u [hu ltu hu']] := idx _ _ _ _ o1 l1 (lx i) (lx j).
have [v [hv ltv hv']] := idx _ _ _ _ o2 l2 (lt i) (lt j).
by rewrite /conv_entry_at hu hv hu' hv' /= hs // conjCK.
Qed.

Lemma analytical_lossless J1 n e isl host M : snd host = 0%Re ->
  (forall i, (i < size isl)%N -> snd (nth (OtherShape, 0) isl i).2 = 0%Re) ->
  analytical_matrix J1 n e isl host = Ok M -> lossless_op M.
Proof.
move=> hh hi; rewrite /analytical_matrix /g_vectors_expanded.
case hidx : (generate_expansion_indices _) => [idx|//] /=.
have [o1 o2] := indices_odd hidx; have sz := indices_size hidx; rewrite /= in o1 o2 sz.
case hd : (mapM _ isl) => [data|//] /=.
have hdata : List.Forall (fun p => csym p.1 /\ snd p.2 = 0%Re) data /\ (forall p, List.In p data -> odd (size p.1)).
  elim: isl data hi hd => [|[s eps] isl IH] data hi /=; first by case=> <-; split.
  case ht : (transform _ _ _ _) => [t|//] /=.
  case hd : (mapM _ isl) => [data'|//] [<-].
  have hi2 : forall i, (i < size isl)%N -> snd (nth (OtherShape, 0) isl i).2 = 0%Re by move=> i lti; apply: (hi i.+1).
  have [h1 h2] := IH data' hi2 hd.
  have [t1 t2] := transform_sym (@gvecs_sym (e_reciprocal e) _ _ hidx) ht; split.
    by constructor=> //=; split=> //; exact: (hi 0%N).
  move=> p /= [<-|]; last exact: h2.
  by rewrite /= t2 size_gvecs sz oddM o1 o2.
case hc : (combine_fourier_masks _ _ _) => [f|//] /=.
have hf := combine_sym hh hdata.1 hdata.2 hc.
case hr : (reshape _ _) => [A|//] /=; have [hA [eA1 eA2]] := reshape_sym hf hr.
case hM : (convolution_matrix_fourier _ _ _) => [M'|//] /=.
case: (combine_fourier_masks _ _ _) => [u|//] /= [<-].
have half p : (p <= (if (1 < p)%N then p * 3 else 1) %/ 2 + 1)%N.
  case: ltnP => [h|]; last by move=> h; rewrite divn_small // add0n.
  have e3 := divn_eq (p * 3) 2; have l3 : (p * 3 %% 2 < 2)%N by rewrite ltn_mod.
  move: e3 l3; move: (_ %/ _)%N (_ %% _)%N => q r; rewrite -!multE -!plusE => e3 /ltP l3; apply/leP; lia.
apply: (fourier_lossless hA _ _ _ _ hM); rewrite ?eA1 ?eA2 //; exact: half.
Qed.
