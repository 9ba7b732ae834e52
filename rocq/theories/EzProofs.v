(** Proofs about project files. *)
From Coq Require Import Reals ZArith String Lia.
From mathcomp Require Import all_ssreflect all_algebra.
From Verif Require Import Base StringEq ModelRedheffer ModelExpansion ModelFourier ModelTmat SpecTmat TmatProofs ModelEz SpecEz.
Set Implicit Arguments. Unset Strict Implicit. Unset Printing Implicit Defensive.
Import GRing.Theory.
Local Open Scope ring_scope.

Section Chain.
Variables (F : fieldType) (k : nat).
Notation M := 'M[F]_(k + k).
Implicit Types (S : M) (lp lm rp rm : 'cV[F]_k).

Lemma chain1 S lp lm rp rm : chain [:: S] lp lm rp rm <-> tscatters S lp lm rp rm.
Proof. by split=> [[gp [gm [h [<- <-]]]]|h] //; exists rp, rm. Qed.

Lemma chain_cat (l1 l2 : seq M) lp lm rp rm :
  chain (l1 ++ l2) lp lm rp rm <-> exists gp gm, chain l1 lp lm gp gm /\ chain l2 gp gm rp rm.
Proof.
elim: l1 lp lm => [|S l1 ih] lp lm /=.
  by split=> [h|[gp [gm [[-> ->] h]]]] //; exists lp, lm.
split.
  by move=> [gp [gm [h /ih [gp' [gm' [h1 h2]]]]]]; exists gp', gm'; split=> //; exists gp, gm.
by move=> [gp' [gm' [[gp [gm [h h1]]] h2]]]; exists gp, gm; split=> //; apply/ih; exists gp', gm'.
Qed.

(** Without incoming waves there are no waves in the gaps of the pile. *)
Definition still (ls : seq M) := forall l1 l2 gp gm lm rp, ls = l1 ++ l2 ->
  chain l1 0 lm gp gm -> chain l2 gp gm rp 0 -> gp = 0 /\ gm = 0.
(** [T] is the matrix of the pile [ls]. *)
Definition is_pile (T : M) (ls : seq M) :=
  (forall lp lm rp rm, tscatters T lp lm rp rm <-> chain ls lp lm rp rm) /\ still ls.

Lemma cat_split (T : Type) (a b c d : seq T) : a ++ b = c ++ d ->
  (exists m, a = c ++ m /\ d = m ++ b) \/ (exists m, c = a ++ m /\ b = m ++ d).
Proof.
elim: a c => [|x a ih] [|y c] /=; first by move=> ->; left; exists [::].
- by move=> ->; right; exists (y :: c).
- by move=> <-; left; exists (x :: a).
by case=> -> /ih [[m [-> ->]]|[m [-> ->]]]; [left|right]; exists m.
Qed.
Lemma pile_mul T1 T2 T l1 l2 : multS T1 T2 = Ok T -> is_pile T1 l1 -> is_pile T2 l2 -> is_pile T (l1 ++ l2).
Proof.
move=> h [h1 s1] [h2 s2]; split=> [lp lm rp rm|a b gp gm lm rp e ha hb].
  rewrite chain_cat -((multS_joined h).2 lp lm rp rm).
  by split=> [[gp [gm [a b]]]|[gp [gm [a b]]]]; exists gp, gm; split; first [exact/h1|exact/h2].
have quiet hp hm l r : chain l1 0 l hp hm -> chain l2 hp hm r 0 -> hp = 0 /\ hm = 0.
  move=> /h1 c1 /h2 c2; have [g [_ hg]] := (multS_joined h).1 0 0.
  have e1 := hg (hp, hm) (ex_intro _ l (ex_intro _ r (conj c1 c2))).
  have z (S : M) : tscatters S 0 0 0 0 by rewrite /tscatters col_mx0 mulmx0.
  by have := hg (0, 0) (ex_intro _ 0 (ex_intro _ 0 (conj (z T1) (z T2)))); rewrite e1; case.
case: (cat_split e) => -[m [e1 e2]].
  move: hb; rewrite e2 => /chain_cat [hp [hm [c1 c2]]].
  have [e3 e4] : hp = 0 /\ hm = 0 by apply: quiet c2; rewrite e1; apply/chain_cat; exists gp, gm; split; [exact: ha|exact: c1].
  by subst hp hm; exact: s1 e1 ha c1.
move: ha; rewrite e1 => /chain_cat [hp [hm [c1 c2]]].
have [e3 e4] : hp = 0 /\ hm = 0 by apply: (quiet _ _ _ _ c1); rewrite e2; apply/chain_cat; exists gp, gm; split; [exact: c2|exact: hb].
by subst hp hm; exact: s2 e2 c2 hb.
Qed.
Lemma pile1 S : is_pile S [:: S].
Proof.
split=> [lp lm rp rm|]; first by symmetry; exact: chain1.
case=> [|x [|y l]] l2 gp gm lm rp //= e.
  case=> <- _; rewrite -{}e => /chain1; rewrite /tscatters col_mx0 mulmx0 -col_mx0 => /eq_col_mx [_ ->] //.
case: e => <- <- /chain1 h1 [e1 e2]; subst gm gp; move: h1.
by rewrite /tscatters col_mx0 mulmx0 -col_mx0 => /eq_col_mx [-> _].
Qed.

Lemma at_op_ok (x y z : option M) : at_op x y = Ok z -> exists a b c, [/\ x = Some a, y = Some b, z = Some c & multS a b = Ok c].
Proof.
case: x => [a|//]; case: y => [b|//] /=; case hb : (multS a b) => [c|//] /=; case=> <-.
by exists a, b, c.
Qed.

Lemma repeats_pile n acc T z ls l0 : repeats n (Some acc) (Some T) = Ok z -> is_pile acc ls -> is_pile T l0 ->
  exists U, z = Some U /\ is_pile U (ls ++ flatten (nseq n l0)).
Proof.
elim: n acc ls => [|n ih] acc ls /=; first by case=> <- h _; exists acc; rewrite cats0.
case hb : (multS acc T) => [c|//] /=; move=> h h1 h2.
have [U [-> hU]] := ih _ _ h (pile_mul hb h1 h2) h2; exists U; split=> //.
by rewrite catA.
Qed.

Section Project.
Variables (p : stackings) (required : string -> option M).
Variable pos : positive_repeats p.
(** Only layers are computed (khepri/ez.py:96-100). *)
Variable leaves : forall name, required name -> look p name = None.

Notation mats ls := (pmap required ls).

Lemma unrolled_all_cat n1 n2 l1 l2 : unrolled_all p n1 l1 -> unrolled_all p n2 l2 -> unrolled_all p (n1 ++ n2) (l1 ++ l2).
Proof.
move=> h; elim: h => [//|name names l ls h1 h2 ih h3] /=; rewrite -catA.
by apply: unrolled_cons => //; exact: ih.
Qed.
Lemma unrolled_all1 name l : unrolled p name l -> unrolled_all p [:: name] l.
Proof. by move=> h; rewrite -[l]cats0; apply: unrolled_cons => //; constructor. Qed.

Lemma copies_pos name names rep : look p name = Some (names, rep) ->
  copies rep = (Z.to_nat (Z.sub (if rep is Some r then r else Zpos xH) (Zpos xH))).+1.
Proof. case: rep => [z|//] h /=; have := pos h; lia. Qed.

Lemma stack_pile depth name T : stack_s p required depth name = Ok (Some T) ->
  exists ls, [/\ unrolled p name ls, all (fun l => required l : bool) ls & is_pile T (mats ls)].
Proof.
elim: depth name T => [//|d ih] name T; cbn [stack_s].
case hr : (required name) => [Si|].
  case=> <-; exists [:: name]; split; first by constructor; apply: leaves; rewrite hr.
    by rewrite /= hr.
  by rewrite /= hr /=; exact: pile1.
case hl : (look p name) => [[[|l0 rest] rep]|//] //=.
case h0 : (stack_s p required d l0) => [S0|//] /=.
set go := (X in bind (X S0 rest)).
have main : forall ls acc names l Z, go (Some acc) ls = Ok Z -> unrolled_all p names l ->
    all (fun x => required x : bool) l -> is_pile acc (mats l) ->
    exists U l', [/\ Z = Some U, unrolled_all p (names ++ ls) l', all (fun x => required x : bool) l' & is_pile U (mats l')].
  elim=> [|s ls ihs] acc names l Z; cbn [go].
    by case=> <- h1 h2 h3; exists acc, l; rewrite cats0.
  case hs : (stack_s p required d s) => [V|//]; cbn [bind].
  case ha : (at_op (Some acc) V) => [W|//]; cbn [bind] => hgo h1 h2 h3.
  have [a [b [c [[ea] eb ec hm]]]] := at_op_ok ha; rewrite -{}ea in hm.
  rewrite {}eb in hs; rewrite {}ec in hgo.
  have [l1 [u1 r1 p1]] := ih _ _ hs.
  have r2 : all (fun x => required x : bool) (l ++ l1) by rewrite all_cat h2 r1.
  have p2 : is_pile c (mats (l ++ l1)) by rewrite pmap_cat; exact: (pile_mul hm h3 p1).
  have [U [l' [-> u' r' p']]] := ihs c (names ++ [:: s]) (l ++ l1) Z hgo (unrolled_all_cat h1 (unrolled_all1 u1)) r2 p2.
  by exists U, l'; rewrite -catA in u'.
case: S0 h0 => [S0|] h0; last first.
  case hg : (go None rest) => [S1|//]; cbn [bind].
  have hn : S1 = None /\ rest = [::].
    case: (rest) hg => [[<-] //|s r]; rewrite /go /=; case: (stack_s p required d s) => [V|//] /=; by [].
  by case: hn => -> _; case: Z.ltb.
have [l1 [u1 r1 p1]] := ih _ _ h0.
case hg : (go (Some S0) rest) => [S1|//]; cbn [bind].
have [U [l' [eS u' r' p']]] := main _ _ _ _ _ hg (unrolled_all1 u1) r1 p1; rewrite {}eS.
have hun : unrolled p name (flatten (nseq (copies rep) l')) by apply: unrolled_stack hl _.
have hreq n : all (fun x => required x : bool) (flatten (nseq n l')) by elim: n => [//|n ihn] /=; rewrite all_cat r'.
move=> h; exists (flatten (nseq (copies rep) l')); split=> //.
have hp n : mats (flatten (nseq n l')) = flatten (nseq n (mats l')) by elim: n => [//|n ihn] /=; rewrite pmap_cat ihn.
rewrite {}hp (copies_pos hl) /=.
move: h; case: Z.ltb_spec0 => hz h.
  by have [V [[->] hV]] := repeats_pile h p' p'.
have -> : Z.to_nat (Z.sub (if rep is Some r then r else Zpos xH) (Zpos xH)) = 0%N by lia.
by rewrite cats0; case: h => <-.
Qed.
End Project.
End Chain.

Section Names.
Variables (p : stackings).

Scheme unrolled_ind2 := Induction for unrolled Sort Prop
  with unrolled_all_ind2 := Induction for unrolled_all Sort Prop.
Combined Scheme unrolled_mut from unrolled_ind2, unrolled_all_ind2.

Lemma unrolled_unique name l1 l2 : unrolled p name l1 -> unrolled p name l2 -> l1 = l2.
Proof.
move=> h; move: l2.
apply: (@unrolled_ind2 p (fun name l1 _ => forall l2, unrolled p name l2 -> l1 = l2)
  (fun names l1 _ => forall l2, unrolled_all p names l2 -> l1 = l2) _ _ _ _ name l1 h).
- by move=> n hn l2 h2; case: h2 hn => // n' names rep ls ->.
- move=> n names rep ls hn _ ih l2 h2; case: h2 hn ih => [n' ->//|n' names' rep' ls' -> hu [<- <-] ih].
  by rewrite (ih _ hu).
- by move=> l2 h2; inversion h2.
- move=> n ns l ls _ ih1 _ ih2 l2 h2; inversion h2; subst.
  by rewrite (ih1 _ H1) (ih2 _ H3).
Qed.

Lemma unrolled_all_inv n ns l : unrolled_all p (n :: ns) l ->
  exists l1 l2, [/\ l = l1 ++ l2, unrolled p n l1 & unrolled_all p ns l2].
Proof. by move=> h; inversion h; subst; eexists; eexists; split. Qed.

Variable pos : positive_repeats p.
Lemma mem_copies name names rep (ls : seq string) : look p name = Some (names, rep) ->
  flatten (nseq (copies rep) ls) =i ls.
Proof.
move=> h; have -> : copies rep = (copies rep).-1.+1.
  by case: rep h => [z|//] h /=; have := pos h; lia.
move: (copies rep).-1 => n x; elim: n => [|n ih] /=; first by rewrite cats0.
by rewrite mem_cat ih orbb.
Qed.

Lemma nested_unrolled n name : nested_within p n name -> exists ls, unrolled p name ls.
Proof.
elim: n name => [//|n ih] name; cbn [nested_within].
case hl : (look p name) => [[names rep]|]; last by move=> _; exists [:: name]; constructor.
move=> hf; have [ls hls] : exists ls, unrolled_all p names ls.
  elim: hf => [|x xs hx _ [ls ihs]]; first by exists [::]; constructor.
  by have [l h] := ih _ hx; exists (l ++ ls); constructor.
by exists (flatten (nseq (copies rep) ls)); apply: unrolled_stack hl _.
Qed.

Variable layers : seq string.
Lemma gather_uniq depth name req r : gather_s p layers depth name req = Ok r -> uniq req -> uniq r.
Proof.
elim: depth name req r => [//|d ih] name req r; cbn [gather_s].
case hl : (look p name) => [[names rep]|]; last first.
  case=> <- hu; case: ifP => // /andP [_ hn].
  by rewrite rcons_uniq hn.
set go := (X in X names req).
elim: names req r {hl rep} @go => [|n ns ihn] req r; cbn [bind]; first by case=> <-.
case hg : (gather_s p layers d n req) => [r1|//]; cbn [bind] => h2 hu.
exact: (ihn _ _ h2 (ih _ _ _ hg hu)).
Qed.

Lemma gather_names depth name req r : gather_s p layers depth name req = Ok r ->
  exists2 ls, unrolled p name ls & forall x, (x \in r) = (x \in req) || (x \in ls) && (x \in layers).
Proof.
elim: depth name req r => [//|d ih] name req r; cbn [gather_s].
case hl : (look p name) => [[names rep]|]; last first.
  case=> <-; exists [:: name]; first by constructor.
  move=> x; rewrite inE; case: eqP => [->|ne] /=.
    case: (name \in layers) => /=; last by rewrite orbF.
    by case hn : (name \in req) => //=; rewrite mem_rcons inE eqxx.
  case: ifP => _; last by rewrite orbF.
  by rewrite mem_rcons inE orbF; case: eqP.
set go := (X in X names req).
have main : forall ns req r, go ns req = Ok r ->
    exists2 ls, unrolled_all p ns ls & forall x, (x \in r) = (x \in req) || (x \in ls) && (x \in layers).
  elim=> [|n ns ihn] {}req {}r; cbn [go].
    by case=> <-; exists [::]; [constructor|move=> x; rewrite orbF].
  case hg : (gather_s p layers d n req) => [r1|//]; cbn [bind] => h2.
  have [l1 u1 m1] := ih _ _ _ hg; have [l2 u2 m2] := ihn _ _ h2.
  exists (l1 ++ l2); first by constructor.
  by move=> x; rewrite m2 m1 mem_cat andb_orl orbA.
move=> /main [ls hu hm]; exists (flatten (nseq (copies rep) ls)); first by apply: unrolled_stack hl _.
by move=> x; rewrite hm (mem_copies _ hl).
Qed.

Lemma gather_defined n name req : nested_within p n name -> exists r, gather_s p layers n name req = Ok r.
Proof.
elim: n name req => [//|n ih] name req; cbn [nested_within gather_s].
case hl : (look p name) => [[names rep]|]; last by move=> _; eexists.
move=> hf; elim: hf req => [|x xs hx _ ihs] req; first by eexists.
by have [r1 ->] := ih x req hx; cbn [bind]; apply: ihs.
Qed.

Lemma gather_leaf depth name req r x : gather_s p layers depth name req = Ok r ->
  (forall y, y \in req -> look p y = None) -> x \in r -> look p x = None.
Proof.
elim: depth name req r x => [//|d ih] name req r x; cbn [gather_s].
case hl : (look p name) => [[names rep]|]; last first.
  case=> <- h; case: ifP => _; last exact: h.
  by rewrite mem_rcons inE => /orP [/eqP -> //|]; apply: h.
elim: names req {hl} => [|n ns ihn] req; first by case=> <- h; apply: h.
case hg : (gather_s p layers d n req) => [r1|//]; cbn [bind] => h2 hq.
by apply: (ihn r1 h2) => y hy; apply: (ih _ _ _ _ hg).
Qed.

Section Defined.
Variables (F : fieldType) (k : nat) (required : string -> option 'M[F]_(k + k)).
Hypothesis full : nonempty_stackings p.


Lemma repeats_defined n (a b : 'M[F]_(k + k)) :
  (exists T, repeats n (Some a) (Some b) = Ok (Some T)) \/ repeats n (Some a) (Some b) = Err LinAlgError.
Proof.
elim: n a => [|n ih] a /=; first by left; eexists.
case hm : (multS a b) => [c|e] /=; first exact: ih.
by right; have [-> _] := multS_err hm.
Qed.

Lemma stack_defined n name ls : nested_within p n name -> unrolled p name ls ->
  (forall x, x \in ls -> required x) ->
  (exists T, stack_s p required n name = Ok (Some T)) \/ stack_s p required n name = Err LinAlgError.
Proof.
elim: n name ls => [//|n ih] name ls; cbn [nested_within stack_s].
case hr : (required name) => [Si|]; first by move=> *; left; eexists.
case hl : (look p name) => [[names rep]|]; last first.
  move=> _ hu hreq; case: hu hl hr hreq => [n' _|n' ? ? ? -> //] _ hr hreq.
  by have := hreq n'; rewrite hr inE eqxx => /(_ isT).
move=> hf hu hreq.
have [l' hu' hm] : exists2 l', unrolled_all p names l' & forall x, x \in l' -> required x.
  case: hu hl hreq => [n' ->//|n' ns rp l h1 h2] hl hreq.
  rewrite h1 in hl; case: hl => ? ?; subst; exists l => // x hx; apply: hreq.
  by rewrite (mem_copies _ h1).
case: names hl hf hu' => [|l0 rest] hl hf hu'; first by case: (full hl).
have {hf} [hf0 hfr] : nested_within p n l0 /\ List.Forall (nested_within p n) rest by inversion hf.
have [l [ls0 [e H1 H3]]] := unrolled_all_inv hu'; subst.
have hm1 x : x \in l -> required x by move=> hx; apply: hm; rewrite mem_cat hx.
have hm2 x : x \in ls0 -> required x by move=> hx; apply: hm; rewrite mem_cat hx orbT.
case: (ih _ _ hf0 H1 hm1) => [[S0 ->]|->]; cbn [bind]; last by right.
set go := (X in bind (X (Some S0) rest)).
have main : forall ns acc l2, List.Forall (nested_within p n) ns -> unrolled_all p ns l2 ->
    (forall x, x \in l2 -> required x) ->
    (exists T, go (Some acc) ns = Ok (Some T)) \/ go (Some acc) ns = Err LinAlgError.
  elim=> [|s ns ihs] acc l2 hf2 hu2 hr2; first by left; eexists.
  have [l1 [ls1 [e H7 H8]]] := unrolled_all_inv hu2; subst.
  have [H2 H4] : nested_within p n s /\ List.Forall (nested_within p n) ns by inversion hf2.
  have q1 x : x \in l1 -> required x by move=> hx; apply: hr2; rewrite mem_cat hx.
  have q2 x : x \in ls1 -> required x by move=> hx; apply: hr2; rewrite mem_cat hx orbT.
  rewrite /go -/go; case: (ih _ _ H2 H7 q1) => [[V ->]|->]; cbn [bind]; last by right.
  rewrite /at_op; case hmul : (multS acc V) => [c|e]; cbn [bind]; first exact: (ihs c ls1).
  by right; have [-> _] := multS_err hmul.
case: (main _ S0 _ hfr H3 hm2) => [[U ->]|->]; cbn [bind]; last by right.
by case: Z.ltb; [exact: repeats_defined|left; eexists].
Qed.
End Defined.
End Names.

Section Total.
Variables (F : fieldType) (k : nat) (p : stackings) (layers : seq string) (mat : string -> 'M[F]_(k + k)).
Hypothesis pos : positive_repeats p.

Lemma computed_leaf depth name req : gather_s p layers depth name [::] = Ok req ->
  forall x, computed req mat x -> look p x = None.
Proof. by move=> h x; rewrite /computed; case: ifP => // hx _; apply: (gather_leaf h). Qed.

Lemma pmap_computed req ls : all (fun l => computed req mat l : bool) ls ->
  pmap (computed req mat) ls = map mat ls /\ {subset ls <= req}.
Proof.
elim: ls => [//|l ls ih] /= /andP [h1 /ih [-> h2]].
move: h1; rewrite /computed; case: ifP => // h _; split=> // x; rewrite inE => /orP [/eqP -> //|]; exact: h2.
Qed.

Lemma project_product d d' name req T : gather_s p layers d name [::] = Ok req ->
  stack_s p (computed req mat) d' name = Ok (Some T) ->
  exists ls, [/\ unrolled p name ls, {subset ls <= layers} &
    forall lp lm rp rm, tscatters T lp lm rp rm <-> chain (map mat ls) lp lm rp rm].
Proof.
move=> hg hs; have [ls [hu ha [hp _]]] := stack_pile pos (computed_leaf hg) hs.
have [he hsub] := pmap_computed ha; exists ls; split=> //; last by rewrite -he.
have [ls' hu' hm] := gather_names pos hg.
by move=> x hx; move: (hsub x hx); rewrite hm /= => /andP [].
Qed.

Lemma project_defined n name ls : nonempty_stackings p -> nested_within p n name -> unrolled p name ls ->
  {subset ls <= layers} ->
  exists req, [/\ gather_s p layers n name [::] = Ok req, req =i ls, uniq req &
    (exists T, stack_s p (computed req mat) n name = Ok (Some T)) \/
    stack_s p (computed req mat) n name = Err LinAlgError].
Proof.
move=> full hn hu hsub; have [req hg] := gather_defined layers [::] hn.
have [ls' hu' hm] := gather_names pos hg; rewrite (unrolled_unique hu' hu) in hm.
have e : req =i ls.
  by move=> x; rewrite hm /=; case hx : (x \in ls) => //=; rewrite hsub.
exists req; split=> //; first exact: (gather_uniq hg).
apply: (stack_defined pos full hn hu).
by move=> x hx; rewrite /computed e hx.
Qed.
End Total.
