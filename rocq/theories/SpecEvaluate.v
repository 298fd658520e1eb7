(** Arithmetic expressions in one variable, and numbers written in its place.
    This file does not mention the model of any algorithm; it only uses the
    type of expressions. *)
From Coq Require Import String ZArith List.
From Verif Require Import Num Expr SpecPoly.
Import ListNotations.

Section Evaluate.
  Context {num : Type}.
  Notation expr := (expr num).

  (** Made from numbers and the variable [x] by + - * / and powers. *)
  Fixpoint arithmetic_in (x : string) (e : expr) : Prop :=
    match e with
    | EReal _ => True
    | EVar y => y = x
    | EBin (OAdd | OSub | OMul | ODiv | OExp) a b => arithmetic_in x a /\ arithmetic_in x b
    | _ => False
    end.

  (** [e] with the number [c] written for every [x]. *)
  Fixpoint written (x : string) (c : num) (e : expr) : expr :=
    match e with
    | EVar y => if String.eqb y x then EReal c else EVar y
    | EBin o a b => EBin o (written x c a) (written x c b)
    | EUn o a => EUn o (written x c a)
    | _ => e
    end.
End Evaluate.

Open Scope Z_scope.
(** The value of a term in one variable where the variable is [a], of a list of
    terms, and the sum of the magnitudes of their values. *)
Definition term_at (a : Z) (t : monomial) : Z := snd t * match fst t with Some (_, k) => a ^ k | None => 1 end.
Definition value_at (a : Z) (ts : list monomial) : Z := fold_right (fun t s => term_at a t + s) 0 ts.
Definition size_at (a : Z) (ts : list monomial) : Z := fold_right (fun t s => Z.abs (term_at a t) + s) 0 ts.
(** Every term is a number or a multiple of x^k with 1 <= k. *)
Definition powers_of (x : string) (ts : list monomial) : Prop :=
  forall y k, In (Some (y, k)) (keys ts) -> y = x /\ 1 <= k.
(** Powers of integers are exact as long as the result is [ok]. *)
Definition exact_powers {num} (N : NumOps num) (lit : num -> Z -> Prop) (ok : Z -> Prop) : Prop :=
  forall c a d k, lit c a -> lit d k -> 2 <= k -> ok (a ^ k) -> lit (n_pow c d) (a ^ k).
(** No unary nodes. *)
Fixpoint only_binary {num} (e : expr num) : Prop :=
  match e with
  | EBin _ a b => only_binary a /\ only_binary b
  | EUn _ _ => False
  | _ => True
  end.
