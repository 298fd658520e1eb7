(** Quotients of products of integer literals and powers of variables.  This
    file does not mention the model of any algorithm. *)
From Coq Require Import String Bool ZArith List Permutation.
From Verif Require Import Num Expr Spec SpecPoly SpecProd.
Import ListNotations.
Open Scope Z_scope.
Open Scope list_scope.

(** Comparison of integer literals with 0. *)
Definition signs {num : Type} (N : NumOps num) (lit : num -> Z -> Prop) : Prop :=
  forall c z, lit c z -> n_ltb c n0 = (z <? 0).

(** The factors of a dividend and a divisor can be cancelled by Simplify: a
    variable in both is plain in both, or it has in the dividend an exponent
    that is neither 1 nor that of the divisor; and if both have a number, no
    plain variable cancels. *)
Definition cancelling (fs gs : list factor) : Prop :=
  (forall x, let m := amount (Some x) fs in let k := amount (Some x) gs in
     m = 0 \/ k = 0 \/ (m = 1 /\ k = 1) \/ (1 < m /\ m <> k)) /\
  (amount None fs = 1 \/ amount None gs = 1 \/
   forall x, ~ (amount (Some x) fs = 1 /\ amount (Some x) gs = 1)).

Section Quot.
  Context {num : Type} {N : NumOps num}.
  Variable lit : num -> Z -> Prop.
  Notation expr := (expr num).

  (** The product of the given expressions; 1 if there are none. *)
  Definition product_or_one (l : list expr) (r : expr) : Prop :=
    match l with [] => r = EReal n1 | _ => exists d, tree_over OMul d l r end.
  (** The product of [nl] divided by the product of [dl], without a divisor if
      there is nothing in it. *)
  Definition fraction_of (nl dl : list expr) (r : expr) : Prop :=
    match dl with
    | [] => product_or_one nl r
    | _ => exists p q, r = EDiv p q /\ product_or_one nl p /\ exists d, tree_over OMul d dl q
    end.

  (** The number ca / cb, left out if it is 1; there is no division if the
      divisor has no number. *)
  Definition coefficient (zb : Z) (ca cb : num) : list expr :=
    let c := if zb =? 1 then ca else n_div ca cb in
    if n_eqb c n1 then [] else [EReal c].

  (** [cancelled nl dl fs gs]: [nl] and [dl] are the factors of the quotient of
      [fs] by [gs] after cancelling: exponents are subtracted, and a variable
      is in the dividend or in the divisor, not in both. *)
  Definition cancelled (nl dl : list expr) (fs gs : list factor) : Prop :=
    exists ca cb nv tn td,
      lit ca (amount None fs) /\ lit cb (amount None gs) /\
      Permutation nl (coefficient (amount None gs) ca cb ++ nv) /\
      Forall2 (fac lit) nv tn /\ NoDup (names tn) /\ ~ In None (names tn) /\
      Forall2 (fac lit) dl td /\ NoDup (names td) /\ ~ In None (names td) /\
      forall x, amount (Some x) tn = Z.max 0 (amount (Some x) fs - amount (Some x) gs) /\
                amount (Some x) td = Z.max 0 (amount (Some x) gs - amount (Some x) fs).
End Quot.
