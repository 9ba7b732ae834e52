(** Proofs about joining the matrices of sub-lattices. *)
From Coq Require Import Lia ArithRing.
From mathcomp Require Import all_ssreflect all_algebra.
From Verif Require Import Base ModelRedheffer SpecScatter ModelExtension SpecExtension.
Set Implicit Arguments. Unset Strict Implicit. Unset Printing Implicit Defensive.
Import GRing.Theory.
Local Open Scope ring_scope.

Ltac natring := rewrite -?plusE -?multE; nia.

(** * Index arithmetic *)
Lemma place_lt kind N m r : (m < N)%N -> (r < N)%N -> (place kind N m r < N * N)%N.
Proof.
have h x y : (x < N)%N -> (y < N)%N -> (x * N + y < N * N)%N.
  by move=> hx hy; rewrite (@leq_trans (x.+1 * N)) // ?leq_mul2r ?hx ?orbT // mulSn addnC ltn_add2r.
by rewrite /place; case: eqP => _ hm hr; apply: h.
Qed.
Lemma place_inj kind N m r m' r' : (m < N)%N -> (r < N)%N -> (m' < N)%N -> (r' < N)%N ->
  place kind N m r = place kind N m' r' -> m = m' /\ r = r'.
Proof.
have h x y x' y' : (y < N)%N -> (y' < N)%N -> (x * N + y = x' * N + y')%N -> x = x' /\ y = y'.
  move=> hy hy' e; have N0 : (0 < N)%N by case: N hy {hy' e}.
  have := congr1 (fun k => (k %/ N)%N) e; have := congr1 (fun k => (k %% N)%N) e.
  by rewrite /= !modnMDl !divnMDl // !modn_small // !divn_small // !addn0.
by rewrite /place; case: eqP => _ h1 h2 h3 h4 e; have [] := h _ _ _ _ _ _ e.
Qed.
Lemma spot_lt kind N a m r : (a < 2)%N -> (m < N)%N -> (r < N)%N -> (spot kind N a m r < N * N + N * N)%N.
Proof.
move=> ha hm hr; have h := place_lt kind hm hr; rewrite /spot.
by case: a ha => [|[|]] // _; rewrite ?mul1n ?mul0n ?ltn_add2l // ?add0n (leq_trans h) // leq_addr.
Qed.
Lemma spot_inj kind N a m r a' m' r' : (m < N)%N -> (r < N)%N -> (m' < N)%N -> (r' < N)%N ->
  spot kind N a m r = spot kind N a' m' r' -> [/\ a = a', m = m' & r = r'].
Proof.
move=> hm hr hm' hr'; rewrite /spot => e; have h := place_lt kind hm hr; have h' := place_lt kind hm' hr'.
have N0 : (0 < N * N)%N by case: (N * N)%N h.
have := congr1 (fun k => (k %/ (N * N))%N) e; have := congr1 (fun k => (k %% (N * N))%N) e.
rewrite /= !modnMDl !divnMDl // !modn_small // !divn_small // !addn0 => e1 ->.
by have [-> ->] := place_inj hm hr hm' hr' e1.
Qed.
Lemma spot_surj kind N i : (i < N * N + N * N)%N -> exists a m r,
  [/\ (a < 2)%N, (m < N)%N, (r < N)%N & i = spot kind N a m r].
Proof.
move=> hi; have N0 : (0 < N)%N by case: N hi.
have NN0 : (0 < N * N)%N by rewrite muln_gt0 N0.
have hq : (i %/ (N * N) < 2)%N by rewrite ltn_divLR // mul2n -addnn.
have h1 : ((i %% (N * N)) %/ N < N)%N by rewrite ltn_divLR // ltn_mod.
have h2 : ((i %% (N * N)) %% N < N)%N by rewrite ltn_mod.
have e := divn_eq i (N * N); have e' := divn_eq (i %% (N * N)) N.
case: (eqVneq kind 0%N) => hk.
  exists (i %/ (N * N))%N, ((i %% (N * N)) %/ N)%N, ((i %% (N * N)) %% N)%N; split=> //.
  by rewrite /spot /place hk eqxx -e' -e.
exists (i %/ (N * N))%N, ((i %% (N * N)) %% N)%N, ((i %% (N * N)) %/ N)%N; split=> //.
by rewrite /spot /place (negbTE hk) -e' -e.
Qed.
Lemma off_viewE kind N a b m r c : (kind <= 1)%N ->
  off_view kind N a b m r c = (spot kind N a m r * (2 * N ^ 2) + spot kind N b m c)%N.
Proof.
by case: kind => [|[|]] // _; rewrite /off_view /spot /place /= !expnS expn0; natring.
Qed.
Lemma off_subE N a b r c : off_sub N a b r c = ((a * N + r) * (N + N) + (b * N + c))%N.
Proof. by rewrite /off_sub !expnS expn0; natring. Qed.
Lemma inner_lt N a r : (a < 2)%N -> (r < N)%N -> (a * N + r < N + N)%N.
Proof. by case: a => [|[|]] // _ h; rewrite ?mul0n ?mul1n ?ltn_add2l // ?add0n ?(leq_trans h) // leq_addr. Qed.
Lemma row_col_inj w x y x' y' : (y < w)%N -> (y' < w)%N -> (x * w + y = x' * w + y')%N -> x = x' /\ y = y'.
Proof.
move=> hy hy' e; have N0 : (0 < w)%N by case: w hy {hy' e}.
have := congr1 (fun k => (k %/ w)%N) e; have := congr1 (fun k => (k %% w)%N) e.
by rewrite /= !modnMDl !divnMDl // !modn_small // !divn_small // !addn0.
Qed.
Lemma row_col_lt w h x y : (x < h)%N -> (y < w)%N -> (x * w + y < h * w)%N.
Proof. by move=> hx hy; rewrite (@leq_trans (x.+1 * w)) // ?leq_mul2r ?hx ?orbT // mulSn addnC ltn_add2r. Qed.
Lemma twoN2 N : (2 * N ^ 2 = N * N + N * N)%N.
Proof. by rewrite !expnS expn0; natring. Qed.

(** * Buffers *)
Section Buffers.
Variable F : fieldType.
Implicit Types (buf s : buffer F).

Lemma in_moves kind N i d e : (d, e) \in moves kind N i ->
  exists a b r c, [/\ (a < 2)%N, (b < 2)%N, (r < N)%N & (c < N)%N] /\
    d = off_view kind N a b i r c /\ e = off_sub N a b r c.
Proof.
case/flatten_mapP => a; rewrite mem_iota => /andP [_ ha] /flatten_mapP [b]; rewrite mem_iota => /andP [_ hb].
case/flatten_mapP => r; rewrite mem_iota => /andP [_ hr] /mapP [c]; rewrite mem_iota => /andP [_ hc] [-> ->].
by exists a, b, r, c.
Qed.
Lemma moves_in kind N i a b r c : (a < 2)%N -> (b < 2)%N -> (r < N)%N -> (c < N)%N ->
  (off_view kind N a b i r c, off_sub N a b r c) \in moves kind N i.
Proof.
move=> ha hb hr hc; apply/flatten_mapP; exists a; first by rewrite mem_iota.
apply/flatten_mapP; exists b; first by rewrite mem_iota.
apply/flatten_mapP; exists r; first by rewrite mem_iota.
by apply/mapP; exists c; rewrite ?mem_iota.
Qed.
Lemma foldl_write_out s l buf k : (forall d e, (d, e) \in l -> d <> k) -> foldl (write s) buf l k = buf k.
Proof.
elim: l buf => //= -[d e] l ih buf h; rewrite ih => [|d' e' h']; last by apply: (h d' e'); rewrite inE h' orbT.
by rewrite /write; case: eqP => //= ek; case: (h d e); rewrite ?inE ?eqxx.
Qed.
Lemma foldl_write_in s l buf k e : (k, e) \in l -> (forall e', (k, e') \in l -> e' = e) ->
  foldl (write s) buf l k = s e.
Proof.
elim/last_ind: l => // l [d' e'] ih; rewrite mem_rcons inE => h1 h2.
rewrite -cats1 foldl_cat /= /write; case: eqP => /= ek.
  by congr s; apply: h2; rewrite mem_rcons inE ek eqxx.
apply: ih; first by case/orP: h1 => // /eqP [e1 _]; case: ek.
by move=> e1 h; apply: h2; rewrite mem_rcons inE h orbT.
Qed.

Lemma joint_loopE kind N i subs buf buf' : (kind <= 1)%N -> joint_loop kind N i subs buf = Ok buf' ->
  (size subs = 0 \/ i + size subs <= N)%N /\
  forall a b m m' r c, (a < 2)%N -> (b < 2)%N -> (m < N)%N -> (m' < N)%N -> (r < N)%N -> (c < N)%N ->
  buf' (spot kind N a m r * (2 * N ^ 2) + spot kind N b m' c)%N =
  if (m == m') && (i <= m)%N && (m < i + size subs)%N then nth (fun _ => 0) subs (m - i) (off_sub N a b r c)
  else buf (spot kind N a m r * (2 * N ^ 2) + spot kind N b m' c)%N.
Proof.
move=> hk; elim: subs i buf => [|s subs ih] i buf /=.
  case=> <-; split=> [|a b m m' r c _ _ _ _ _ _]; first by left.
  by rewrite addn0 ltnNge; case: (_ == _); case: (_ <= _)%N.
case: ifP => // hi /ih [h1 h2]; split; first by right; case: h1 => [->|]; rewrite ?addn1 // addSnnS.
move=> a b m m' r c ha hb hm hm' hr hc; rewrite h2 //.
have key d e a' b' r' c' : (a' < 2)%N -> (b' < 2)%N -> (r' < N)%N -> (c' < N)%N ->
    d = off_view kind N a' b' i r' c' -> e = off_sub N a' b' r' c' ->
    d = (spot kind N a m r * (2 * N ^ 2) + spot kind N b m' c)%N ->
    [/\ m = i, m' = i & e = off_sub N a b r c].
  move=> ha' hb' hr' hc' -> ->; rewrite off_viewE // => e2.
  have [] := row_col_inj _ _ e2; rewrite ?twoN2 ?spot_lt // => /spot_inj [] // e3 e4 e5 /spot_inj [] // e6 e7 e8.
  by rewrite -e3 -e4 -e5 -e6 -e7 -e8.
case: (eqVneq m m') => [emm|nmm] /=; last first.
  apply: foldl_write_out => d e /in_moves [a' [b' [r' [c' [[ha' hb' hr' hc'] [e1 e2]]]]]] e3.
  by have [e4 e5 _] := key _ _ _ _ _ _ ha' hb' hr' hc' e1 e2 e3; rewrite e4 e5 eqxx in nmm.
subst m'; case: (ltngtP i m) => him /=.
- rewrite addSnnS; case: ifP => // _; first by rewrite -(subnSK him).
  apply: foldl_write_out => d e /in_moves [a' [b' [r' [c' [[ha' hb' hr' hc'] [e1 e2]]]]]] e3.
  by have [e4 _ _] := key _ _ _ _ _ _ ha' hb' hr' hc' e1 e2 e3; rewrite e4 ltnn in him.
- apply: foldl_write_out => d e /in_moves [a' [b' [r' [c' [[ha' hb' hr' hc'] [e1 e2]]]]]] e3.
  by have [e4 _ _] := key _ _ _ _ _ _ ha' hb' hr' hc' e1 e2 e3; rewrite e4 ltnn in him.
- subst m; rewrite -addSnnS leq_addr subnn /= -off_viewE //; apply: foldl_write_in; first exact: moves_in.
  move=> e /in_moves [a' [b' [r' [c' [[ha' hb' hr' hc'] [e1 e2]]]]]].
  by have [] := key _ _ _ _ _ _ ha' hb' hr' hc' e1 e2 (off_viewE N a b i r c hk).
Qed.
Lemma joint_loop_ok kind N i subs buf : (i + size subs <= N)%N -> is_ok (joint_loop kind N i subs buf).
Proof.
elim: subs i buf => [|s subs ih] i buf /= h; first by eexists.
by rewrite ifT; [apply: ih; rewrite addSnnS|rewrite (leq_trans _ h) // addnS ltnS leq_addr].
Qed.

Lemma flatE N (M : 'M[F]_(N + N)) a b r c (x y : 'I_(N + N)) : x = (a * N + r)%N :> nat -> y = (b * N + c)%N :> nat ->
  flat M (off_sub N a b r c) = M x y.
Proof.
move=> hx hy; rewrite off_subE -hx -hy /flat; have w0 : (0 < N + N)%N by rewrite (leq_ltn_trans (leq0n x)).
by rewrite divnMDl // modnMDl modn_small // divn_small // addn0 !valK.
Qed.

Lemma joint_subspace1E N n (subs : seq 'M[F]_(N + N)) kind M : joint_subspace1 n subs kind = Ok M ->
  [/\ (0 < size subs <= N)%N, (kind <= 1)%N, n = (N * N)%N & joins kind subs M].
Proof.
rewrite /joint_subspace1 size_eq0; case: ifP => // hs; case: ltnP => // hk; case: eqP => // hn.
case hl : (joint_loop _ _ _ _ _) => [buf|//]; cbn [bind] => -[<-].
have [h1 h2] := joint_loopE hk hl; rewrite size_map add0n in h1 h2.
split=> //.
  by case: h1 => [/eqP|]; rewrite ?size_eq0 ?hs // lt0n size_eq0 hs.
move=> i j a b m m' r c ha hb hm hm' hr hc hi hj; rewrite !mxE hi hj h2 //= subn0.
case: eqP => //= _; case: ifP => hms; last first.
  rewrite nth_default; last by rewrite leqNgt hms.
  by case: insub => // x; case: insub => // y; rewrite mxE.
rewrite (nth_map 0) // insubT; first exact: inner_lt.
by move=> hx; rewrite insubT; [exact: inner_lt|move=> hy; apply: flatE].
Qed.
Lemma joint_subspace1_ok N n (subs : seq 'M[F]_(N + N)) kind :
  is_ok (joint_subspace1 n subs kind) <-> [/\ (0 < size subs <= N)%N, (kind <= 1)%N & n = (N * N)%N].
Proof.
split=> [[M /joint_subspace1E []]|[/andP [h1 h2] h3 h4]] //.
rewrite /joint_subspace1 (negbTE (lt0n_neq0 h1)) ltnNge h3 /= h4 eqxx /=.
have [buf ->] := @joint_loop_ok kind N 0 (map (@flat F _) subs) (fun _ => 0) ltac:(by rewrite size_map).
by cbn [bind]; eexists.
Qed.
End Buffers.

(** * Joining as a map of algebras *)
Section Algebra.
Variables (F : fieldType) (N kind : nat).
Local Notation n := (N * N)%N.
Implicit Types (f g : nat -> 'M[F]_(N + N)).

(** The pair and the polarisation of an index. *)
Definition copy_of (i : nat) : nat := if kind == 0%N then ((i %% n) %/ N)%N else ((i %% n) %% N)%N.
Definition own_of (i : nat) : nat := ((i %/ n) * N + if kind == 0%N then ((i %% n) %% N) else ((i %% n) %/ N))%N.
Lemma copy_spot a m r : (m < N)%N -> (r < N)%N -> copy_of (spot kind N a m r) = m.
Proof.
move=> hm hr; have h := place_lt kind hm hr; have N0 : (0 < N)%N by case: N hm.
rewrite /copy_of /spot !modnMDl (modn_small h) /place; case: eqP => _.
  by rewrite divnMDl // divn_small // addn0.
by rewrite modnMDl modn_small.
Qed.
Lemma own_spot a m r : (m < N)%N -> (r < N)%N -> own_of (spot kind N a m r) = (a * N + r)%N.
Proof.
move=> hm hr; have h := place_lt kind hm hr; have N0 : (0 < N)%N by case: N hm.
have NN : (0 < n)%N by rewrite muln_gt0 N0.
rewrite /own_of /spot !modnMDl (modn_small h) divnMDl // (divn_small h) addn0 /place.
by congr addn; case: eqP => _; [rewrite modnMDl modn_small|rewrite divnMDl // divn_small // addn0].
Qed.
Lemma copy_lt (i : 'I_(n + n)) : (copy_of i < N)%N.
Proof. by have [a [m [r [ha hm hr ->]]]] := spot_surj kind (ltn_ord i); rewrite copy_spot. Qed.
Lemma own_lt (i : 'I_(n + n)) : (own_of i < N + N)%N.
Proof. by have [a [m [r [ha hm hr ->]]]] := spot_surj kind (ltn_ord i); rewrite own_spot // inner_lt. Qed.
Definition copy (i : 'I_(n + n)) : 'I_N := Ordinal (copy_lt i).
Definition own (i : 'I_(n + n)) : 'I_(N + N) := Ordinal (own_lt i).
Definition key (i : 'I_(n + n)) : 'I_N * 'I_(N + N) := (copy i, own i).
Lemma key_inj : injective key.
Proof.
move=> i j [hc ho]; apply: val_inj => /=; move: hc ho.
have [a [m [r [ha hm hr e]]]] := spot_surj kind (ltn_ord i); have [a' [m' [r' [ha' hm' hr' e']]]] := spot_surj kind (ltn_ord j).
rewrite e e' !copy_spot // !own_spot // => -> /row_col_inj [] // -> ->.
by [].
Qed.
Lemma key_bij : bijective key.
Proof.
apply: inj_card_bij key_inj _; rewrite card_prod !card_ord; apply: eq_leq.
by rewrite mulnDr.
Qed.

Lemma unkey kinv : cancel kinv key -> forall m x, copy (kinv (m, x)) = m /\ own (kinv (m, x)) = x.
Proof. by move=> k2 m x; have := k2 (m, x); rewrite /key => e; split; [move/(congr1 fst): e|move/(congr1 snd): e]. Qed.

Definition join f : 'M[F]_(n + n) := \matrix_(i, j) if copy i == copy j then f (copy i) (own i) (own j) else 0.

Lemma eq_join f g : (forall m, (m < N)%N -> f m = g m) -> join f = join g.
Proof. by move=> h; apply/matrixP => i j; rewrite !mxE; case: eqP => // _; rewrite h. Qed.
Lemma joinM f g : join f *m join g = join (fun m => f m *m g m).
Proof.
apply/matrixP => i j; rewrite !mxE; have [kinv k1 k2] := key_bij.
rewrite (reindex kinv) /=; last by apply: onW_bij; exists key.
rewrite (eq_bigr (fun p => join f i (kinv (p.1, p.2)) * join g (kinv (p.1, p.2)) j)); last by case.
rewrite -(pair_bigA _ (fun m x => join f i (kinv (m, x)) * join g (kinv (m, x)) j)) /=.
rewrite (bigD1 (copy i)) //= [X in _ + X]big1 ?addr0 => [|m hm]; last first.
  rewrite big1 // => x _; have [e _] := unkey k2 (m) x.
  by rewrite !mxE e eq_sym (negbTE hm) mul0r.
case: (eqVneq (copy i) (copy j)) => hij; last first.
  rewrite big1 // => x _; have [e _] := unkey k2 (copy i) x.
  by rewrite !mxE e eqxx (negbTE hij) mulr0.
apply: eq_bigr => x _; have [e1 e2] := unkey k2 (copy i) x.
by rewrite !mxE e1 e2 eqxx -hij eqxx.
Qed.
Lemma join1 : join (fun _ => 1%:M) = 1%:M.
Proof.
apply/matrixP => i j; rewrite !mxE; have -> : (i == j) = (copy i == copy j) && (own i == own j).
  by rewrite -(inj_eq key_inj) /key xpair_eqE.
by case: (_ == _).
Qed.
Lemma join0 : join (fun _ => 0) = 0.
Proof. by apply/matrixP => i j; rewrite !mxE; case: eqP. Qed.
Lemma joinD f g : join f + join g = join (fun m => f m + g m).
Proof. by apply/matrixP => i j; rewrite !mxE; case: eqP => // _; rewrite ?mxE ?addr0. Qed.
Lemma joinN f : - join f = join (fun m => - f m).
Proof. by apply/matrixP => i j; rewrite !mxE; case: eqP => // _; rewrite ?mxE ?oppr0. Qed.
Lemma joinB f g : join f - join g = join (fun m => f m - g m).
Proof. by rewrite joinN joinD. Qed.
Lemma join_inj f g : join f = join g -> forall m, (m < N)%N -> f m = g m.
Proof.
move=> e m hm; apply/matrixP => x y; have [kinv k1 k2] := key_bij.
have := congr1 (fun M : 'M[F]_(n + n) => M (kinv (Ordinal hm, x)) (kinv (Ordinal hm, y))) e.
have [e1 e2] := unkey k2 (Ordinal hm) x.
have [e3 e4] := unkey k2 (Ordinal hm) y.
by rewrite !mxE e1 e3 eqxx e2 e4.
Qed.
Lemma join_unit f : join f \in unitmx <-> forall m, (m < N)%N -> f m \in unitmx.
Proof.
split=> [h m hm|h]; last first.
  apply: (@proj1 _ True); have := @mulmx1_unit _ _ (join f) (join (fun m => invmx (f m))).
  by rewrite joinM -join1 => /(_ (eq_join _)) [] // m hm; rewrite mulmxV // h.
pose X := invmx (join f); have hX : join f *m X = 1%:M by rewrite mulmxV.
have [kinv k1 k2] := key_bij; pose m0 := Ordinal hm.
pose Y : 'M[F]_(N + N) := \matrix_(x, y) X (kinv (m0, x)) (kinv (m0, y)).
suff h1 : f m *m Y = 1%:M by case: (mulmx1_unit h1).
apply/matrixP => x y; have := congr1 (fun M : 'M[F]_(n + n) => M (kinv (m0, x)) (kinv (m0, y))) hX.
have [e1 e2] := unkey k2 (m0) x.
rewrite !mxE (inj_eq (can_inj k2)) xpair_eqE eqxx /= => <-.
rewrite (reindex kinv) /=; last by apply: onW_bij; exists key.
rewrite (eq_bigr (fun p => join f (kinv (m0, x)) (kinv (p.1, p.2)) * X (kinv (p.1, p.2)) (kinv (m0, y)))); last by case.
rewrite -(pair_bigA _ (fun m x' => join f (kinv (m0, x)) (kinv (m, x')) * X (kinv (m, x')) (kinv (m0, y)))) /=.
rewrite (bigD1 m0) //= [X in _ = _ + X]big1 ?addr0 => [|m' hm']; last first.
  rewrite big1 // => x' _; have [e _] := unkey k2 (m') x'.
  by rewrite !mxE e e1 eq_sym (negbTE hm') mul0r.
apply: eq_bigr => x' _; have [e3 e4] := unkey k2 (m0) x'.
by rewrite !mxE e1 e2 e3 e4 eqxx.
Qed.
Lemma join_inv f : (forall m, (m < N)%N -> f m \in unitmx) -> invmx (join f) = join (fun m => invmx (f m)).
Proof.
move=> h; have hu := (join_unit f).2 h; rewrite -[RHS]mul1mx -(mulVmx hu) -mulmxA joinM -[LHS]mulmx1 -join1.
by congr (_ *m _); apply: eq_join => m hm; rewrite mulmxV // h.
Qed.

Lemma joins_join (subs : seq 'M[F]_(N + N)) (M : 'M[F]_(n + n)) : joins kind subs M <-> M = join (nth 0 subs).
Proof.
split=> [h|->].
  apply/matrixP => i j; rewrite mxE; have [a [m [r [ha hm hr e]]]] := spot_surj kind (ltn_ord i).
  have [b [m' [c [hb hm' hc e']]]] := spot_surj kind (ltn_ord j).
  rewrite (h i j a b m m' r c) // -!val_eqE /= !{1}e {1}e' !copy_spot //; case: eqP => // emm.
  rewrite insubT; first exact: inner_lt.
  move=> hx; rewrite insubT; first exact: inner_lt.
  by move=> hy; congr (nth 0 subs m _ _); apply: val_inj; rewrite /= ?e ?e' own_spot.
move=> i j a b m m' r c ha hb hm hm' hr hc e e'; rewrite mxE -!val_eqE /= !{1}e {1}e' !copy_spot //; case: eqP => // emm.
rewrite insubT; first exact: inner_lt.
move=> hx; rewrite insubT; first exact: inner_lt.
by move=> hy; congr (nth 0 subs m _ _); apply: val_inj; rewrite /= ?e ?e' own_spot.
Qed.
End Algebra.
