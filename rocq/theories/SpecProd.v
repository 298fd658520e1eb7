(** Products of integer literals and positive integer powers of variables, and
    what it means to combine like factors.  This file does not mention the
    model of any algorithm; it only uses the type of expressions. *)
From Coq Require Import String Bool ZArith List.
From Verif Require Import Num Expr Spec SpecPoly.
Import ListNotations.
Open Scope Z_scope.
Open Scope list_scope.

(** A factor: [(None, z)] is the number z, [(Some x, k)] is x^k. *)
Definition factor := (option string * Z)%type.
Definition names (fs : list factor) : list (option string) := map fst fs.

Definition name_eqb (a b : option string) : bool :=
  match a, b with
  | None, None => true
  | Some x, Some y => String.eqb x y
  | _, _ => false
  end.

(** Numbers are multiplied, exponents are added. *)
Definition join (n : option string) (a b : Z) : Z := match n with None => a * b | Some _ => a + b end.
Definition unit (n : option string) : Z := match n with None => 1 | Some _ => 0 end.
(** [amount None fs]: the product of all numbers among the factors;
    [amount (Some x) fs]: the sum of all exponents of [x]. *)
Definition amount (n : option string) (fs : list factor) : Z :=
  fold_right (fun f s => if name_eqb n (fst f) then join n (snd f) s else s) (unit n) fs.

(** Two operands of a product are easy to combine: they share no variable and
    have not both a number, or one of them is a single factor, and this is a
    variable or differs from what the other operand has of the same kind. *)
Definition single (fa fb : list factor) : Prop :=
  exists n k, fb = [(n, k)] /\ (k = 1 \/ amount n fa <> k).
Definition disjoint (fa fb : list factor) : Prop := forall n, In n (names fa) -> ~ In n (names fb).
Definition easy (fa fb : list factor) : Prop := disjoint fa fb \/ single fa fb \/ single fb fa.

Section Prod.
  Context {num : Type}.
  Variable lit : num -> Z -> Prop.
  Notation expr := (expr num).

  (** Integer literals other than 0 and 1, and powers x^k with k > 0; x is x^1. *)
  Inductive fac : expr -> factor -> Prop :=
  | fc_lit c z : lit c z -> z <> 0 -> z <> 1 -> fac (EReal c) (None, z)
  | fc_pow p x k : power lit p x k -> 0 < k -> fac p (Some x, k).

  (** Products of factors, nested in any way. *)
  Inductive product : expr -> list factor -> Prop :=
  | pd_fac e f : fac e f -> product e [f]
  | pd_mul a b fa fb : product a fa -> product b fb -> product (EMul a b) (fa ++ fb).

  (** The same with operands that are easy to combine. *)
  Inductive easy_product : expr -> list factor -> Prop :=
  | ep_fac e f : fac e f -> easy_product e [f]
  | ep_mul a b fa fb : easy_product a fa -> easy_product b fb -> easy fa fb ->
      easy_product (EMul a b) (fa ++ fb).

  (** [gathered l fs]: the expressions [l] are the factors of [fs] after
      combining like factors: each variable occurs once, with the sum of its
      exponents, and there is at most one number, the product of all numbers,
      which is left out if it is 1. *)
  Definition gathered (l : list expr) (fs : list factor) : Prop :=
    exists fl, Forall2 fac l fl /\ NoDup (names fl) /\ forall n, amount n fl = amount n fs.

  (** A product of the given factors; 1 if there are none. *)
  Definition product_of (l : list expr) (r : expr) : Prop :=
    match l with [] => exists c, lit c 1 /\ r = EReal c | _ => exists d, tree_over OMul d l r end.
End Prod.
