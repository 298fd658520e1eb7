(** Products as a user types them, e.g.  2x^3*y * x  : numbers and powers of
    variables joined by *.  This file does not mention the parser or the
    simplifier. *)
From Coq Require Import String Ascii Bool Arith ZArith List.
From Verif Require Import Num Expr SpecText SpecPoly SpecProd SpecLine.
Import ListNotations.
Open Scope Z_scope.
Open Scope list_scope.

(** Each factor is plain, or differs from what the factors before it have of
    the same kind. *)
Definition steady (fs : list factor) : Prop :=
  forall fs1 n k fs2, fs = fs1 ++ (n, k) :: fs2 -> k = 1 \/ amount n fs1 <> k.

Definition ends_in_digit (l : list ascii) : Prop := exists l' c, l = l' ++ [c] /\ digit c.

Section Typed.
  Context {num : Type}.
  (** The number a word stands for, and the integer a number stands for. *)
  Variable number : string -> option num.
  Variable lit : num -> Z -> Prop.

  (** 7, x and x^12 *)
  Inductive factor_text : list ascii -> factor -> Prop :=
  | ft_number l z : numeral number lit l z -> z <> 0 -> z <> 1 -> factor_text l (None, z)
  | ft_power l x k : power_text number lit l x k -> 0 < k -> factor_text l (Some x, k).

  (** Factors joined by *, with white space around it; a variable may also
      follow a digit directly, as in 2x^3y. *)
  Inductive product_text : list ascii -> list factor -> Prop :=
  | xt_factor l f : factor_text l f -> product_text l [f]
  | xt_times l fs b b' l' f : product_text l fs -> blanks b -> blanks b' -> factor_text l' f ->
      product_text (l ++ b ++ "*"%char :: b' ++ l') (fs ++ [f])
  | xt_next l fs l' x k : product_text l fs -> ends_in_digit l -> power_text number lit l' x k -> 0 < k ->
      product_text (l ++ l') (fs ++ [(Some x, k)]).

  (** A product divided by a single factor. *)
  Inductive quotient_text : list ascii -> list factor -> list factor -> Prop :=
  | qt_over l fs b b' l' g : product_text l fs -> blanks b -> blanks b' -> factor_text l' g ->
      quotient_text (l ++ b ++ "/"%char :: b' ++ l') fs [g].
End Typed.

Section Calls.
  Context {num : Type}.
  Variable number : string -> option num.
  Variable lit : num -> Z -> Prop.

  (** A function of a typed polynomial and a variable, e.g.  dd(3x^2 + x, x)
      for the derivative, in(3x^2 + x, x) for the integral. *)
  Inductive call_text (f : string) : list ascii -> list monomial -> string -> Prop :=
  | ct_call b0 b1 l ts b2 b3 c b4 : blanks b0 -> blanks b1 -> blanks b2 -> blanks b3 -> blanks b4 ->
      line_text number lit l ts -> variable c ->
      call_text f (list_ascii_of_string f ++ b0 ++ "("%char :: b1 ++ l ++ b2 ++ ","%char :: b3 ++ c :: b4 ++ [")"%char])
        ts (String c "").
End Calls.
