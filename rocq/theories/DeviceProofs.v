(** Lemmas about ModelDevice: dictionaries, solving, stacking, energy. *)
From Coq Require Import Reals ZArith Lra Lia String.
From mathcomp Require Import all_ssreflect all_algebra.
From Coquelicot Require Import Complex Rbar.
From Verif Require Import Base ZmodTac CField CFun ModelRedheffer SpecScatter RedhefferProofs ModelLayer SpecLayer SpecEig
  LayerProofs LayerApiProofs ModelExpansion SpecExpansion ExpansionProofs ModelFlux SpecFlux SpecEnergy EnergyAlg
  FluxProofs IncidentProofs OuterFlux ModelFourier SpecFourier FourierProofs ModelExtension ModelDevice SpecDevice StringEq.
Set Implicit Arguments. Unset Strict Implicit. Unset Printing Implicit Defensive.
Import GRing.Theory.
Local Open Scope ring_scope.

Section Dict.
Variable A : Type.
Implicit Types (d : seq (string * A)) (k : string).
Lemma dict_get_set d k v k' :
  dict_get (dict_set d k v) k' = if k == k' then Some v else dict_get d k'.
Proof.
elim: d => [|[k1 v1] d IH] /=; first by case: eqP.
case: (k1 =P k) => [->|h] /=; first by case: eqP.
rewrite IH; case: (k1 =P k') => [e|//]; case: (k =P k') => // e'; by rewrite e' e in h.
Qed.
Lemma dict_keys_set d k v w : dict_get d k = Some w -> map fst (dict_set d k v) = map fst d.
Proof.
elim: d => [//|[k1 v1] d IH] /=; case: (k1 =P k) => [_ _ //|_ h] /=; by rewrite IH.
Qed.
Lemma dict_get_mem d k : (k \in map fst d) = (if dict_get d k is Some _ then true else false).
Proof.
elim: d => [//|[k1 v1] d IH] /=; rewrite in_cons eq_sym IH; by case: eqP.
Qed.
Lemma dict_uniq_set d k v : uniq (map fst d) -> uniq (map fst (dict_set d k v)).
Proof.
case h : (dict_get d k) => [w|] u; first by rewrite (dict_keys_set v h).
have hk : k \notin map fst d by rewrite dict_get_mem h.
suff -> : dict_set d k v = rcons d (k, v) by rewrite map_rcons rcons_uniq hk.
elim: d h {u hk} => [//|[k1 v1] d IH] /=; case: eqP => // _ h; by rewrite IH.
Qed.
Lemma dict_ext d d' : uniq (map fst d) -> map fst d = map fst d' ->
  (forall k, dict_get d k = dict_get d' k) -> d = d'.
Proof.
elim: d d' => [|[k v] d IH] [|[k' v'] d'] //= /andP [hk u] [e ek] h.
have := h k; rewrite -e eqxx => -[->]; congr (_ :: _); apply: IH => // k1.
have := h k1; rewrite -e; case: (k =P k1) => // <- _.
have -> : dict_get d k = None by move: hk; rewrite dict_get_mem; case: dict_get.
by move: hk; rewrite ek dict_get_mem; case: dict_get.
Qed.
End Dict.

Lemma mapMP A B (f : A -> res B) l ys : mapM f l = Ok ys <-> map f l = map Ok ys.
Proof.
elim: l ys => [|x l IH] ys /=; first by case: ys => [|y ys]; split.
case: (f x) => [y|e] /=; last by split=> //; case: ys.
case h : (mapM f l) => [ys'|e] /=.
  split; first by case=> <- /=; rewrite (IH ys').1.
  by case: ys => // y' ys [-> /IH]; rewrite h => -[->].
by split=> //; case: ys => // y' ys [_ /IH]; rewrite h.
Qed.
Lemma mapM_size A B (f : A -> res B) l ys : mapM f l = Ok ys -> size ys = size l.
Proof. by move/mapMP => h; rewrite -(size_map f) h size_map. Qed.
Lemma mapM_nth A B (f : A -> res B) l ys x0 y0 i : mapM f l = Ok ys -> (i < size l)%N ->
  f (nth x0 l i) = Ok (nth y0 ys i).
Proof.
move=> h hi; have sz := mapM_size h; move/mapMP: h => h.
by rewrite -(nth_map _ (Ok y0)) // h (nth_map y0) // sz.
Qed.

Section Dev.
Variables (eig : forall m, 'M[C]_m -> 'rV[C]_m * 'M[C]_m) (J1 : R -> R) (n : nat).
Notation S_t := (smat C_fieldType (n + n)).
Notation crystal := (crystal n).
Notation entry := (entry n).
Notation I0 := (scattering_identity C_fieldType (n + n)).

Lemma solve_all_ok (d : seq (string * entry)) order kp wl d' :
  solve_all eig J1 d order kp wl = Ok d' ->
  map fst d' = map fst d /\
  forall k, if k \in order then
    exists e s, [/\ dict_get d k = Some e, obj_solve eig J1 n e.1 kp wl = Ok s & dict_get d' k = Some (e.1, Some s)]
  else dict_get d' k = dict_get d k.
Proof.
elim: order d => [|name r IH] d /=; first by case=> ->.
case hg : (dict_get d name) => [e|//] /=; case hs : (obj_solve _ _ _ _ _ _) => [s|//] /= /IH [h1 h2].
split; first by rewrite h1 (dict_keys_set _ hg).
move=> k; rewrite in_cons; have := h2 k; rewrite dict_get_set.
case: (eqVneq k name) => [->|ne] /=.
  case: ifP => _; last by move=> ->; exists e, s.
  by case=> e1 [s1 [[<-] /= h3 h4]]; exists e, s1.
done.
Qed.
Lemma solve_all_def (d : seq (string * entry)) order kp wl :
  (forall k, k \in order -> exists e s, dict_get d k = Some e /\ obj_solve eig J1 n e.1 kp wl = Ok s) ->
  is_ok (solve_all eig J1 d order kp wl).
Proof.
elim: order d => [|name r IH] d h /=; first by eexists.
have [e [s [-> /= hs]]] := h name (mem_head _ _); rewrite hs /=; apply: IH => k hk.
have [e1 [s1 [h1 h2]]] := h k (@mem_behead _ (name :: r) k hk); rewrite dict_get_set.
case: eqP => [ek|_]; last by exists e1, s1.
by exists (e.1, Some s), s.
Qed.

(** Ordered products. *)
Fixpoint chain (S0 : S_t) (l : seq S_t) : res S_t :=
  match l with [::] => Ok S0 | S1 :: r => do S2 <- redheffer_product S0 S1; chain S2 r end.
Lemma stack_left_chain S0 i l mask r : stack_left S0 i l mask = Ok r -> chain S0 l = Ok r.2.
Proof.
elim: l S0 i r => [|S1 l IH] S0 i r /=; first by case=> <-.
case: (redheffer_product S0 S1) => [S2|//] /=; case: (mask_at _ _) => [m|//] /=.
by case h : (stack_left _ _ _ _) => [r'|//] /= [<-]; apply: IH h.
Qed.
Lemma stack_chain l mask r : stack_layers l mask = Ok r -> chain I0 l = Ok r.2.
Proof.
rewrite /stack_layers; case h : (stack_left _ _ _ _) => [r1|//] /=.
case: (stack_right _ _ _ _) => [r2|//] [<-]; exact: stack_left_chain h.
Qed.
Lemma chain_cat S0 l1 l2 : chain S0 (l1 ++ l2) = do S1 <- chain S0 l1; chain S1 l2.
Proof.
elim: l1 S0 => [//|S1 l1 IH] S0 /=; by case: (redheffer_product S0 S1) => [S2|//] /=.
Qed.

Section Le.
Variables (T : Type) (le : T -> T -> Prop).
Hypotheses (le_refl : forall x, le x x) (le_trans : forall x y z, le x y -> le y z -> le x z).
Lemma identity_diss fl : dissipates le I0 fl fl.
Proof.
move=> a1 a2 b1 b2 [/= -> ->]; rewrite !mul0mx !mul1mx add0r addr0; exact: le_refl.
Qed.
Lemma chain_diss fl fg S0 l S : dissipates le S0 fl fg ->
  List.Forall (fun S' => dissipates le S' fg fg) l -> chain S0 l = Ok S -> dissipates le S fl fg.
Proof.
elim: l S0 => [|S1 l IH] S0 h0 hl /=; first by case=> <-.
case h : (redheffer_product S0 S1) => [S2|//] /=; apply: IH; last by inversion hl.
by apply: (rh_dissipates le_trans h h0); inversion hl.
Qed.
Lemma device_diss fr f0 ft Sr l St S : dissipates le Sr fr f0 -> dissipates le St f0 ft ->
  List.Forall (fun S' => dissipates le S' f0 f0) l ->
  chain I0 (Sr :: rcons l St) = Ok S -> dissipates le S fr ft.
Proof.
move=> hr ht hl; rewrite /= -cats1.
case h : (redheffer_product I0 Sr) => [S1|//] /=; rewrite chain_cat.
case h2 : (chain S1 l) => [S2|//] /=; case h3 : (redheffer_product S2 St) => [S3|//] /= [<-].
apply: (rh_dissipates le_trans h3 _ ht); apply: (chain_diss _ hl h2).
exact: (rh_dissipates le_trans h (identity_diss _) hr).
Qed.
End Le.
End Dev.
