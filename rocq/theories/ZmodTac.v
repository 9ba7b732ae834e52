(** A decision procedure for equalities in abelian groups ([zmod]) and, on top
    of it, a normaliser for equalities of sums of matrix products ([mxz]). *)
From mathcomp Require Import all_ssreflect all_algebra.
Set Implicit Arguments. Unset Strict Implicit. Unset Printing Implicit Defensive.
Import GRing.Theory.
Local Open Scope ring_scope.

Inductive zx := ZV of nat | ZA of zx & zx | ZO of zx | Z0 | ZM of zx & nat.

Section Zx.
Variable V : zmodType.
Fixpoint zval (e : seq V) (x : zx) : V :=
  match x with
  | ZV i => nth 0 e i
  | ZA a b => zval e a + zval e b
  | ZO a => - zval e a
  | Z0 => 0
  | ZM a k => zval e a *+ k
  end.
Fixpoint zcoef (x : zx) (i : nat) : int :=
  match x with
  | ZV j => if i == j then 1 else 0
  | ZA a b => zcoef a i + zcoef b i
  | ZO a => - zcoef a i
  | Z0 => 0
  | ZM a k => zcoef a i *+ k
  end.
Lemma zvalE e x : zval e x = \sum_(i < size e) nth 0 e i *~ zcoef x i.
Proof.
elim: x => [j|a IHa b IHb|a IHa||a IHa k] /=; rewrite ?IHa ?IHb.
- case: (ltnP j (size e)) => h; last first.
    rewrite nth_default // big1 // => i _; case: eqP => [E|//].
    by move: (ltn_ord i); rewrite E ltnNge h.
  rewrite (bigD1 (Ordinal h)) //= eqxx mulr1z big1 ?addr0 // => i.
  by rewrite -val_eqE /= => /negbTE ->; rewrite mulr0z.
- by rewrite -big_split; apply: eq_bigr => i _; rewrite mulrzDl.
- by rewrite -sumrN; apply: eq_bigr => i _; rewrite mulrNz.
- by rewrite big1 // => i _; rewrite mulr0z.
- rewrite -sumrMnl; apply: eq_bigr => i _.
  by elim: k => [|k IH]; rewrite ?mulr0n ?mulr0z // !mulrSr mulrzDl IH.
Qed.
Lemma zx_sound e a b :
  all (fun i => zcoef a i == zcoef b i) (iota 0 (size e)) -> zval e a = zval e b.
Proof.
move=> /allP h; rewrite !zvalE; apply: eq_bigr => i _.
by rewrite (eqP (h i _)) // mem_iota /= add0n.
Qed.
End Zx.

(** Atoms are compared up to the choice of canonical structure instances. *)
Ltac zx_same x y :=
  first [ constr_eq x y |
  lazymatch x with
  | @mulmx _ _ _ _ ?a ?b =>
      lazymatch y with @mulmx _ _ _ _ ?c ?d => zx_same a c; zx_same b d end
  | @trmx _ _ _ ?a => lazymatch y with @trmx _ _ _ ?c => zx_same a c end
  | @invmx _ _ ?a => lazymatch y with @invmx _ _ ?c => zx_same a c end
  | @diag_mx _ _ ?a => lazymatch y with @diag_mx _ _ ?c => zx_same a c end
  | @map_mx _ _ ?f _ _ ?a =>
      lazymatch y with @map_mx _ _ ?g _ _ ?c => unify f g; zx_same a c end
  | @GRing.scale _ _ ?a ?b =>
      lazymatch y with @GRing.scale _ _ ?c ?d => unify a c; zx_same b d end
  | GRing.add ?a ?b => lazymatch y with GRing.add ?c ?d => zx_same a c; zx_same b d end
  | GRing.opp ?a => lazymatch y with GRing.opp ?c => zx_same a c end
  | _ => lazymatch y with
         | @mulmx _ _ _ _ _ _ => fail
         | @trmx _ _ _ _ => fail
         | @invmx _ _ _ => fail
         | @diag_mx _ _ _ => fail
         | @map_mx _ _ _ _ _ _ => fail
         | @GRing.scale _ _ _ _ => fail
         | _ => unify x y end
  end ].
Ltac zx_find x e :=
  lazymatch e with
  | ?y :: ?e' =>
      match constr:(Set) with
      | _ => let _ := match constr:(Set) with _ => zx_same x y end in constr:(0%N)
      | _ => let i := zx_find x e' in constr:(S i)
      end
  end.
Ltac zx_mem x e :=
  lazymatch e with
  | ?y :: ?e' => match constr:(Set) with
     | _ => let _ := match constr:(Set) with _ => zx_same x y end in constr:(true)
     | _ => zx_mem x e' end
  | _ => constr:(false)
  end.
Ltac zx_atoms x e :=
  lazymatch x with
  | GRing.add ?a ?b => let e1 := zx_atoms a e in zx_atoms b e1
  | GRing.opp ?a => zx_atoms a e
  | GRing.zero _ => constr:(e)
  | GRing.natmul ?a ?k => zx_atoms a e
  | _ => lazymatch zx_mem x e with
         | true => constr:(e)
         | false => constr:(x :: e)
         end
  end.
Ltac zx_reify x e :=
  lazymatch x with
  | GRing.add ?a ?b => let u := zx_reify a e in let v := zx_reify b e in constr:(ZA u v)
  | GRing.opp ?a => let u := zx_reify a e in constr:(ZO u)
  | GRing.zero _ => constr:(Z0)
  | GRing.natmul ?a ?k => let u := zx_reify a e in constr:(ZM u k)
  | _ => let i := zx_find x e in constr:(ZV i)
  end.
Ltac zmod :=
  lazymatch goal with
  | |- @eq ?T ?a ?b =>
      let V := lazymatch a with
               | @GRing.add ?V _ _ => V | @GRing.opp ?V _ => V | @GRing.zero ?V => V
               | @GRing.natmul ?V _ _ => V
               | _ => lazymatch b with
                      | @GRing.add ?V _ _ => V | @GRing.opp ?V _ => V | @GRing.zero ?V => V
                      | @GRing.natmul ?V _ _ => V end end in
      let e0 := zx_atoms a (@nil (GRing.Zmodule.sort V)) in
      let e := zx_atoms b e0 in
      let x := zx_reify a e in
      let y := zx_reify b e in
      change (@zval V e x = @zval V e y); apply: zx_sound; vm_compute; reflexivity
  end.

(** Full expansion of sums of products of matrices. *)
Ltac mxexp := rewrite ?(mulmxDl, mulmxDr, mulmxBl, mulmxBr, mulmxN, mulNmx, mul1mx, mulmx1,
  mul0mx, mulmx0, mulmxA, oppr0, opprK, scaler_nat, =^~ scalemxAl, =^~ scalemxAr, scalerDr, scalerN, scaleNr,
  scalerA, scale1r, scale0r, scaler0).
Ltac mxz := mxexp; (reflexivity || zmod).

Example zmod_test (V : zmodType) (a b c : V) : a + b - (c + a) = - c + b *+ 2 - b.
Proof. zmod. Qed.
Example mxz_test (R : fieldType) n (A B C : 'M[R]_n) :
  (A + B) *m (A - B) - (1%:M - A *m B) *m C = A *m A - B *m B + B *m A - A *m B - C + A *m (B *m C).
Proof. mxz. Qed.
