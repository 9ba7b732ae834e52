(** Joining commutes with the scattering-matrix algebra. *)
From mathcomp Require Import all_ssreflect all_algebra.
From Verif Require Import Base CField ModelRedheffer RedhefferProofs SpecScatter ModelLayer ModelDevice ModelExtension SpecExtension ExtensionProofs.
Set Implicit Arguments. Unset Strict Implicit. Unset Printing Implicit Defensive.
Import GRing.Theory.
Local Open Scope ring_scope.

Section Join.
Variables (F : fieldType) (N kind : nat).
Local Notation n := (N * N)%N.
Implicit Types (f g : nat -> 'M[F]_(N + N)) (S : nat -> smat F (N + N)).

Definition joinS S : smat F (n + n) :=
  Smat (join kind (fun m => s11 (S m))) (join kind (fun m => s12 (S m)))
       (join kind (fun m => s21 (S m))) (join kind (fun m => s22 (S m))).
Lemma eq_joinS S S' : (forall m, (m < N)%N -> S m = S' m) -> joinS S = joinS S'.
Proof. by move=> h; congr Smat; apply: eq_join => m hm; rewrite h. Qed.

Lemma join_solve f g : (forall m, (m < N)%N -> f m \in unitmx) ->
  solve (join kind f) (join kind g) = Ok (join kind (fun m => invmx (f m) *m g m)).
Proof. by move=> hu; rewrite /solve ((join_unit kind f).2 hu) join_inv // joinM. Qed.
Lemma join_solve_err f g m : (m < N)%N -> f m \notin unitmx -> solve (join kind f) (join kind g) = Err LinAlgError.
Proof.
move=> hm hf; rewrite /solve; case: ifP => // /(join_unit kind f).1 /(_ m hm).
by rewrite (negbTE hf).
Qed.

Lemma redhefferE (A B : smat F (N + N)) : let D := 1%:M - s11 B *m s22 A in let E := 1%:M - s22 A *m s11 B in
  redheffer_product A B = if (D \in unitmx) && (E \in unitmx) then
    Ok (Smat (s11 A + s12 A *m (invmx D *m s11 B) *m s21 A) (s12 A *m (invmx D *m s12 B))
             (s21 B *m (invmx E *m s21 A)) (s22 B + s21 B *m (invmx E *m s22 A) *m s12 B))
  else Err LinAlgError.
Proof. by move=> D E; rewrite /redheffer_product /solve -/D -/E; case: ifP => //= hD; case: ifP. Qed.

Lemma join_redheffer S S' P : (forall m, (m < N)%N -> redheffer_product (S m) (S' m) = Ok (P m)) ->
  redheffer_product (joinS S) (joinS S') = Ok (joinS P).
Proof.
move=> h; rewrite /redheffer_product /joinS /= -(join1 F N kind) !joinM !joinB.
pose D m := 1%:M - s11 (S' m) *m s22 (S m); pose E m := 1%:M - s22 (S m) *m s11 (S' m).
have hDE m : (m < N)%N -> (D m \in unitmx) && (E m \in unitmx).
  by move=> hm; move: (h m hm); rewrite redhefferE -/(D m) -/(E m); case: ifP.
have hD m : (m < N)%N -> D m \in unitmx by case/hDE/andP.
have hE m : (m < N)%N -> E m \in unitmx by case/hDE/andP.
rewrite !(@join_solve D) //; cbn [bind]; rewrite !(@join_solve E) //; cbn [bind].
by rewrite !joinM !joinD; congr Ok; congr Smat; apply: eq_join => m hm; move: (h m hm);
  rewrite redhefferE -/(D m) -/(E m) hDE // => -[<-].
Qed.
Lemma join_redheffer_err S S' m e : (m < N)%N -> redheffer_product (S m) (S' m) = Err e ->
  redheffer_product (joinS S) (joinS S') = Err LinAlgError.
Proof.
move=> hm; rewrite !rhE; case: ifP => // hD _; case: ifP => //.
rewrite /gapD /joinS /= -(join1 F N kind) joinM joinB => /join_unit /(_ m hm).
by rewrite -/(gapD (S m) (S' m)) hD.
Qed.
(** What redheffer_product gives for every copy. *)
Definition copies_product S S' m : smat F (N + N) := if redheffer_product (S m) (S' m) is Ok x then x else S m.
Lemma join_redheffer_inv S S' P : redheffer_product (joinS S) (joinS S') = Ok P ->
  (forall m, (m < N)%N -> redheffer_product (S m) (S' m) = Ok (copies_product S S' m)) /\ P = joinS (copies_product S S').
Proof.
move=> h; have h1 m : (m < N)%N -> redheffer_product (S m) (S' m) = Ok (copies_product S S' m).
  rewrite /copies_product => hm; case e : (redheffer_product (S m) (S' m)) => [x|e'] //.
  by rewrite (join_redheffer_err hm e) in h.
by split=> //; move: h; rewrite (join_redheffer h1) => -[].
Qed.

(** * The program's function *)
Definition S0 : smat F (N + N) := Smat 0 0 0 0.
Lemma joint_subspaceE p (subs : seq (smat F (N + N))) M : joint_subspace p subs kind = Ok M ->
  [/\ (0 < size subs <= N)%N, (kind <= 1)%N & p = n].
Proof.
rewrite /joint_subspace; case h : (joint_subspace1 _ _ _) => [b|//] _.
by have [] := joint_subspace1E h; rewrite size_map.
Qed.
Lemma joint_subspace1_join (subs : seq 'M[F]_(N + N)) M : joint_subspace1 n subs kind = Ok M -> M = join kind (nth 0 subs).
Proof. by case/joint_subspace1E => _ _ _ /joins_join. Qed.
Lemma joint_subspaceV (subs : seq (smat F (N + N))) M : joint_subspace n subs kind = Ok M -> M = joinS (nth S0 subs).
Proof.
rewrite /joint_subspace; case h1 : (joint_subspace1 _ _ _) => [b1|//]; cbn [bind].
case h2 : (joint_subspace1 _ _ _) => [b2|//]; cbn [bind]; case h3 : (joint_subspace1 _ _ _) => [b3|//]; cbn [bind].
case h4 : (joint_subspace1 _ _ _) => [b4|//]; cbn [bind] => -[<-].
rewrite (joint_subspace1_join h1) (joint_subspace1_join h2) (joint_subspace1_join h3) (joint_subspace1_join h4).
have h (f : smat F (N + N) -> 'M[F]_(N + N)) m : f S0 = 0 -> nth 0 (map f subs) m = f (nth S0 subs m).
  by move=> f0; case: (ltnP m (size subs)) => hm; [rewrite (nth_map S0)|rewrite !nth_default ?size_map].
by congr Smat; apply: eq_join => m _; rewrite h.
Qed.
Lemma joint_subspace_ok (subs : seq (smat F (N + N))) : (0 < size subs <= N)%N -> (kind <= 1)%N ->
  joint_subspace n subs kind = Ok (joinS (nth S0 subs)).
Proof.
move=> hs hk; suff [M hM] : is_ok (joint_subspace n subs kind) by rewrite hM (joint_subspaceV hM).
have h (f : smat F (N + N) -> 'M[F]_(N + N)) : is_ok (joint_subspace1 n (map f subs) kind).
  by apply/joint_subspace1_ok; rewrite size_map.
rewrite /joint_subspace; have [b ->] := h (@s11 F _); cbn [bind]; have [b2 ->] := h (@s12 F _); cbn [bind].
by have [b3 ->] := h (@s21 F _); cbn [bind]; have [b4 ->] := h (@s22 F _); cbn [bind]; eexists.
Qed.

Lemma mapM_nth A B (f : A -> res B) (l : seq A) (r : seq B) a0 b0 : mapM f l = Ok r ->
  size r = size l /\ forall i, (i < size l)%N -> f (nth a0 l i) = Ok (nth b0 r i).
Proof.
elim: l r => [|x l ih] r /=; first by case=> <-.
case hx : (f x) => [y|//]; cbn [bind]; case hl : (mapM f l) => [ys|//]; cbn [bind] => -[<-].
by have [h1 h2] := ih _ hl; split=> [|[|i]] //=; [rewrite h1|move=> hi; apply: h2].
Qed.
Lemma mapM_err A B (f : A -> res B) (l : seq A) e a0 : mapM f l = Err e -> exists2 i, (i < size l)%N & f (nth a0 l i) = Err e.
Proof.
elim: l => [//|x l ih] /=; case hx : (f x) => [y|e'] /=; last by case=> <-; exists 0%N.
by case hl : (mapM f l) => [ys|e'] //= [ee]; have [|i hi hf] := ih; [rewrite hl ee|exists i.+1].
Qed.

Lemma stacking_commutes p (SA SB : seq (smat F (N + N))) A B : size SA = size SB ->
  joint_subspace p SA kind = Ok A -> joint_subspace p SB kind = Ok B ->
  redheffer_product A B = do P <- mapM (fun q => redheffer_product q.1 q.2) (zip SA SB); joint_subspace p P kind.
Proof.
move=> hs hA hB; have [sA hk hp] := joint_subspaceE hA; subst p.
rewrite (joint_subspaceV hA) (joint_subspaceV hB).
have nz i : (i < size SA)%N -> nth (S0, S0) (zip SA SB) i = (nth S0 SA i, nth S0 SB i) by move=> _; rewrite nth_zip.
have sz : size (zip SA SB) = size SA by rewrite size_zip hs minnn.
case hm : (mapM _ _) => [P|e]; cbn [bind]; last first.
  have [i hi] := mapM_err (S0, S0) hm; rewrite sz in hi; rewrite nz //= => he.
  have hl := rh_err he; rewrite (@join_redheffer_err _ _ i e) //; first by case: hl => ->.
  by case/andP: sA => _; apply: leq_trans.
have [sP hP] := mapM_nth (S0, S0) S0 hm; rewrite sz in sP hP.
rewrite joint_subspace_ok ?sP //; apply: join_redheffer => m _.
case: (ltnP m (size SA)) => hmA; first by rewrite -hP // nz.
rewrite !nth_default ?sP -?hs // rhE /gapD /= mulmx0 subr0 unitmx1.
by rewrite /rh_val /S0 /= ?mulmx0 ?mul0mx ?addr0.
Qed.
Lemma identity_joined : (0 < N)%N -> (kind <= 1)%N ->
  joint_subspace n (nseq N (scattering_identity F (N + N))) kind = Ok (scattering_identity F (n + n)).
Proof.
move=> N0 hk; rewrite joint_subspace_ok ?size_nseq ?N0 ?leqnn //; congr Ok.
rewrite (@eq_joinS _ (fun _ => scattering_identity F (N + N))) => [|m hm]; last by rewrite nth_nseq hm.
by rewrite /joinS /= join0 join1.
Qed.
End Join.

(** * Stacks *)
Section Stacks.
Variables (N kind : nat).
Local Notation n := (N * N)%N.
Local Notation F := C_fieldType.
Implicit Types (S : nat -> smat F (N + N)) (Ls : seq (nat -> smat F (N + N))).

Lemma stack_left_join S i Ls mask r : stack_left (joinS kind S) i (map (joinS kind) Ls) mask = Ok r ->
  exists f : nat -> seq (option (smat F (N + N))) * smat F (N + N),
    (forall m, (m < N)%N -> stack_left (S m) i [seq L m | L <- Ls] mask = Ok (f m)) /\ r.2 = joinS kind (fun m => (f m).2).
Proof.
elim: Ls S i r => [|L Ls ih] S i r /=; first by case=> <-; exists (fun m => ([::], S m)).
case h : (redheffer_product _ _) => [P|//]; cbn [bind]; have [h1 e] := join_redheffer_inv h; subst P.
case hma : (mask_at mask i) => [b|//]; cbn [bind].
case hr : (stack_left _ _ _ _) => [r'|//]; cbn [bind] => -[<-] /=.
have [f [hf hf2]] := ih _ _ _ hr.
exists (fun m => ((if b then Some (copies_product S L m) else None) :: (f m).1, (f m).2)); split=> // m hm.
by rewrite h1 //; cbn [bind]; rewrite hf.
Qed.
Lemma stack_right_join S i Ls mask r : stack_right (joinS kind S) i (map (joinS kind) Ls) mask = Ok r ->
  forall m, (m < N)%N -> is_ok (stack_right (S m) i [seq L m | L <- Ls] mask).
Proof.
elim: Ls S i r => [|L Ls ih] S i r /=; first by move=> _ m _; eexists.
case hma : (mask_at mask i) => [b|//]; cbn [bind].
case h : (redheffer_product _ _) => [P|//]; cbn [bind]; have [h1 e] := join_redheffer_inv h; subst P.
case hr : (stack_right _ _ _ _) => [r'|//]; cbn [bind] => _ m hm.
rewrite h1 //; cbn [bind]; have [x hx] := ih _ _ _ hr m hm; rewrite hx.
by eexists.
Qed.
Lemma identity_joinS : joinS kind (fun _ => scattering_identity F (N + N)) = scattering_identity F (n + n).
Proof. by rewrite /joinS /= join0 join1. Qed.
Lemma stack_layers_join Ls mask Sls Srs Stot : stack_layers (map (joinS kind) Ls) mask = Ok (Sls, Srs, Stot) ->
  exists f : nat -> smat F (N + N), Stot = joinS kind f /\
    forall m, (m < N)%N -> exists sls srs, stack_layers [seq L m | L <- Ls] mask = Ok (sls, srs, f m).
Proof.
rewrite /stack_layers -identity_joinS; case hl : (stack_left _ _ _ _) => [l|//]; cbn [bind].
case hr : (stack_right _ _ _ _) => [r|//]; cbn [bind] => -[_ _ <-].
have [f [hf ->]] := stack_left_join hl; exists (fun m => (f m).2); split=> // m hm.
rewrite hf //; cbn [bind]; rewrite !behead_map -!map_rev in hr |- *.
have [x ->] := stack_right_join hr hm; cbn [bind]; by do 2 eexists.
Qed.
Lemma device_copies p layers Js mask Sls Srs (Stot : smat F (p + p)) : (0 < size layers)%N ->
  (forall l, List.In l layers -> size l = N) ->
  mapM (fun l => joint_subspace p l kind) layers = Ok Js -> stack_layers Js mask = Ok (Sls, Srs, Stot) ->
  exists2 T : seq (smat F (N + N)), joint_subspace p T kind = Ok Stot &
    size T = N /\ forall m, (m < N)%N -> exists sls srs,
      stack_layers [seq nth (S0 F N) l m | l <- layers] mask = Ok (sls, srs, nth (S0 F N) T m).
Proof.
move=> l0 hN hJ hS.
have [hp hk N0] : [/\ p = n, (kind <= 1)%N & (0 < N)%N].
  case: layers l0 hN hJ => [//|l ls] _ /(_ l (or_introl erefl)) hl /=.
  case hj : (joint_subspace p l kind) => [J|//] _; have [/andP [h1 h2] h3 h4] := joint_subspaceE hj.
  by split=> //; rewrite -hl.
subst p; have eJ : Js = map (joinS kind) [seq nth (S0 F N) l | l <- layers].
  elim: layers Js {l0 hS hN} hJ => [|l ls ih] Js /=; first by case=> <-.
  case hj : (joint_subspace n l kind) => [J|//]; cbn [bind]; case hl : (mapM _ _) => [Jr|//]; cbn [bind] => -[<-].
  by rewrite (joint_subspaceV hj) (ih _ hl).
rewrite eJ in hS; have [f [hf1 hf2]] := stack_layers_join hS.
exists [seq f m | m <- iota 0 N]; last first.
  split=> [|m hm]; first by rewrite size_map size_iota.
  have [sls [srs h]] := hf2 m hm; exists sls, srs; rewrite (nth_map 0%N) ?size_iota // nth_iota // add0n -h.
  by rewrite -map_comp.
rewrite joint_subspace_ok ?size_map ?size_iota ?N0 ?leqnn // hf1; congr Ok; apply: eq_joinS => m hm.
by rewrite (nth_map 0%N) ?size_iota // nth_iota.
Qed.
End Stacks.
