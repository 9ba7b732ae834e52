(** Lemmas about the grid of the Brillouin zone. *)
From Coq Require Import Reals ZArith Lra Lia.
From mathcomp Require Import all_ssreflect all_algebra.
From Coquelicot Require Import Complex.
From Verif Require Import Base CField CFun RField ModelExpansion ModelBeams SpecBeams.
Set Implicit Arguments. Unset Strict Implicit. Unset Printing Implicit Defensive.
Import GRing.Theory.
Local Open Scope ring_scope.

Lemma ceil_spec x (z : Z) : (IZR z - 1 < x <= IZR z)%Re -> ceil x = z.
Proof.
move=> h; rewrite /ceil.
have [h1 h2] := base_Int_part (- x)%Re.
have : (- IZR z - 1 < IZR (Int_part (- x)) < - IZR z + 1)%Re by lra.
rewrite -opp_IZR -minus_IZR -plus_IZR => -[/lt_IZR a /lt_IZR b]; lia.
Qed.
Lemma arange_zone (z : Z) : z <> Z0 ->
  arange (- (1 / 2) + 1 / IZR z / 2)%Re (1 / 2) (1 / IZR z) = [seq middle (Z.to_nat z) i | i <- iota 0 (Z.to_nat z)].
Proof.
move=> z0; have hz : IZR z <> 0%Re by apply: not_0_IZR.
rewrite /arange.
have -> : ((1 / 2 - (- (1 / 2) + 1 / IZR z / 2)) / (1 / IZR z) = IZR z - 1 / 2)%Re by field.
rewrite (@ceil_spec _ z); last by lra.
apply/eq_in_map => k; rewrite mem_iota /= add0n => /ltP hk.
have e : INR (Z.to_nat z) = IZR z by rewrite INR_IZR_INZ Z2Nat.id //; lia.
by rewrite /middle e; field.
Qed.
Lemma gridE shape a reciproc :
  gen_bzi_grid shape a reciproc =
  if (reciproc == None :> option (vec2 * vec2)) && (if Req_EM_T a 0 then true else false) then Err ZeroDivisionError
  else if Z.eqb shape.1 Z0 || Z.eqb shape.2 Z0 then Err ZeroDivisionError
  else Ok [seq in_basis (basis_of a reciproc) (middle (Z.to_nat shape.1) i) (middle (Z.to_nat shape.2) j)
          | i <- iota 0 (Z.to_nat shape.1), j <- iota 0 (Z.to_nat shape.2)].
Proof.
have key bb : (if Z.eqb shape.1 Z0 || Z.eqb shape.2 Z0 then Err ZeroDivisionError else
  let si := (1 / IZR shape.1)%Re in let sj := (1 / IZR shape.2)%Re in
  Ok [seq ((bb.1.1 * i + bb.2.1 * j)%Re, (bb.1.2 * i + bb.2.2 * j)%Re)
     | i <- arange (- (1 / 2) + si / 2)%Re (1 / 2) si, j <- arange (- (1 / 2) + sj / 2)%Re (1 / 2) sj]) =
  if Z.eqb shape.1 Z0 || Z.eqb shape.2 Z0 then Err ZeroDivisionError
  else Ok [seq in_basis bb (middle (Z.to_nat shape.1) i) (middle (Z.to_nat shape.2) j)
          | i <- iota 0 (Z.to_nat shape.1), j <- iota 0 (Z.to_nat shape.2)].
  case: Z.eqb_spec => //= h1; case: Z.eqb_spec => //= h2.
  by rewrite !arange_zone //= allpairs_mapl allpairs_mapr.
rewrite /gen_bzi_grid; case: reciproc => [bb|]; first exact: key.
by destruct (Req_EM_T a 0) as [h|h]; [|exact: key].
Qed.

Lemma middle_in n i : (i < n)%N -> (Rabs (middle n i) < 1 / 2)%Re.
Proof.
move=> h; have n0 : (0 < INR n)%Re by apply: lt_0_INR; apply/ltP; apply: leq_ltn_trans h.
have hi : (INR i + 1 <= INR n)%Re by rewrite -S_INR; apply: le_INR; apply/leP.
have i0 := pos_INR i.
rewrite /middle; apply: Rabs_def1.
  suff : ((INR i + 1 / 2) / INR n < 1)%Re by lra.
  apply: (Rmult_lt_reg_r (INR n)) => //; rewrite /Rdiv Rmult_assoc Rinv_l; lra.
suff : (0 < (INR i + 1 / 2) / INR n)%Re by lra.
by apply: Rdiv_lt_0_compat; lra.
Qed.
Lemma middle_opp n i : (i < n)%N -> middle n (n - 1 - i) = (- middle n i)%Re.
Proof.
move=> h; have n0 : (0 < INR n)%Re by apply: lt_0_INR; apply/ltP; apply: leq_ltn_trans h.
have e : INR (n - 1 - i) = (INR n - 1 - INR i)%Re.
  rewrite -!minusE !minus_INR //=; move/ltP: h; lia.
by rewrite /middle e; field; lra.
Qed.

Lemma nth_pairs (T : Type) (x0 : T) (f : nat -> nat -> T) n m i j : (i < n)%N -> (j < m)%N ->
  nth x0 [seq f i j | i <- iota 0 n, j <- iota 0 m] (i * m + j) = f i j.
Proof.
move=> hi hj.
suff key s k : (k < n)%N -> nth x0 [seq f i j | i <- iota s n, j <- iota 0 m] (k * m + j) = f (s + k)%N j by rewrite key.
elim: n {i hi} s k => // p IH s [|k] hk /=; rewrite nth_cat size_map size_iota.
  by rewrite mul0n add0n hj (nth_map 0%N) ?size_iota // nth_iota // addn0.
by rewrite mulSn -addnA ltnNge leq_addr /= addKn IH // addSnnS.
Qed.

(** The theorems. *)
Section Grid.
Variables (shape : Z * Z) (a : R) (reciproc : option (vec2 * vec2)) (g : seq vec2).
Hypothesis made : gen_bzi_grid shape a reciproc = Ok g.
Let n := Z.to_nat shape.1.
Let m := Z.to_nat shape.2.
Let bb := basis_of a reciproc.
Lemma grid_list : g = [seq in_basis bb (middle n i) (middle m j) | i <- iota 0 n, j <- iota 0 m].
Proof. by move: made; rewrite gridE; case: ifP => // _; case: ifP => // _ [<-]. Qed.
Lemma grid_size : size g = (n * m)%N.
Proof. by rewrite grid_list size_allpairs !size_iota. Qed.
Lemma grid_nth i j : (i < n)%N -> (j < m)%N -> nth (0%Re, 0%Re) g (i * m + j) = in_basis bb (middle n i) (middle m j).
Proof. by move=> hi hj; rewrite grid_list (nth_pairs _ (fun i j => in_basis bb (middle n i) (middle m j))). Qed.
Lemma grid_mem p : p \in g -> exists i j, [/\ (i < n)%N, (j < m)%N & p = in_basis bb (middle n i) (middle m j)].
Proof.
rewrite grid_list => /allpairsP [[i j] /= [hi hj ->]]; exists i, j.
by move: hi hj; rewrite !mem_iota.
Qed.
Lemma grid_mem_of i j : (i < n)%N -> (j < m)%N -> in_basis bb (middle n i) (middle m j) \in g.
Proof. by move=> hi hj; rewrite grid_list; apply/allpairsP; exists (i, j); rewrite !mem_iota. Qed.
Lemma grid_inside p : p \in g -> exists u v, [/\ p = in_basis bb u v, (Rabs u < 1 / 2)%Re & (Rabs v < 1 / 2)%Re].
Proof. by move=> /grid_mem [i [j [hi hj ->]]]; exists (middle n i), (middle m j); split => //; apply: middle_in. Qed.
Lemma in_basis_opp u v : in_basis bb (- u)%Re (- v)%Re = opposite (in_basis bb u v).
Proof. by rewrite /in_basis /opposite /=; congr pair; ring. Qed.
Lemma grid_opposite p : p \in g -> opposite p \in g.
Proof.
move=> /grid_mem [i [j [hi hj ->]]]; rewrite -in_basis_opp -!middle_opp //; apply: grid_mem_of.
  by move: hi; case: (n) => // k hk; rewrite subn1 /= ltnS leq_subr.
by move: hj; case: (m) => // k hk; rewrite subn1 /= ltnS leq_subr.
Qed.
Lemma middle_inj k i j : (0 < k)%N -> middle k i = middle k j -> i = j.
Proof.
move=> k0; have hk : (0 < INR k)%Re by apply: lt_0_INR; apply/ltP.
rewrite /middle => e; apply: INR_eq.
have : ((INR i + 1 / 2) / INR k * INR k = (INR j + 1 / 2) / INR k * INR k)%Re by congr Rmult; lra.
by rewrite /Rdiv !Rmult_assoc Rinv_l; lra.
Qed.
Lemma in_basis_inj u v u' v' : independent bb -> in_basis bb u v = in_basis bb u' v' -> u = u' /\ v = v'.
Proof.
rewrite /independent /in_basis; move: bb => [[p q] [r s]] /= d [e1 e2].
have h1 : ((p * s - q * r) * (u - u') = 0)%Re.
  by transitivity (s * (p * u + r * v - (p * u' + r * v')) - r * (q * u + s * v - (q * u' + s * v')))%Re; [ring|rewrite e1 e2; ring].
have h2 : ((p * s - q * r) * (v - v') = 0)%Re.
  by transitivity (p * (q * u + s * v - (q * u' + s * v')) - q * (p * u + r * v - (p * u' + r * v')))%Re; [ring|rewrite e1 e2; ring].
by case: (Rmult_integral _ _ h1) => // h3; case: (Rmult_integral _ _ h2) => // h4; split; lra.
Qed.
Lemma grid_uniq : independent bb -> uniq g.
Proof.
move=> ib; rewrite grid_list; apply: (allpairs_uniq (f := fun i j => in_basis bb (middle n i) (middle m j))); rewrite ?iota_uniq //.
move=> [i j] [i' j'] /allpairsP [[? ?] /= [h1 h2 [-> ->]]] /allpairsP [[? ?] /= [h3 h4 [-> ->]]].
move: h1 h2 h3 h4; rewrite !mem_iota /= !add0n => h1 h2 h3 h4 /(in_basis_inj ib) [e1 e2].
by rewrite (middle_inj _ e1) ?(middle_inj _ e2) //; [apply: leq_ltn_trans h2|apply: leq_ltn_trans h1].
Qed.
Lemma middle_sum k : \sum_(i <- iota 0 k) middle k i = 0.
Proof.
have -> : iota 0 k = index_iota 0 k by rewrite /index_iota subn0.
rewrite big_mkord; set s := \sum_(i < k) _.
suff e : s = Ropp s by change (s = 0%Re); lra.
rewrite -oppRE /s [LHS](reindex_inj rev_ord_inj) -sumrN /=; apply: eq_bigr => i _.
by rewrite oppRE -middle_opp // -subnDA add1n.
Qed.
Lemma grid_mean : \sum_(p <- g) p.1 = 0 /\ \sum_(p <- g) p.2 = 0.
Proof.
have key (f : R) (h : R) : \sum_(i <- iota 0 n) \sum_(j <- iota 0 m) (f * middle n i + h * middle m j) = 0.
  under eq_bigr => i _ do rewrite big_split /= -[X in _ + X]mulr_sumr middle_sum mulr0 addr0.
  by rewrite exchange_big /= big1 // => j _; rewrite -mulr_sumr middle_sum mulr0.
by rewrite grid_list; split; rewrite big_allpairs_dep /= key.
Qed.
End Grid.
