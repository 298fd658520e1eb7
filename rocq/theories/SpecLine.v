(** Polynomials as a user types them, e.g.  2x + 3y^2-x  : terms joined by +
    and -.  This file does not mention the parser or the simplifier. *)
From Coq Require Import String Ascii Bool Arith ZArith List.
From Verif Require Import Num Expr SpecText SpecPoly.
Import ListNotations.
Open Scope Z_scope.
Open Scope list_scope.

Section Line.
  Context {num : Type}.
  (** The number a word stands for, and the integer a number stands for. *)
  Variable number : string -> option num.
  Variable lit : num -> Z -> Prop.

  Definition digit (c : ascii) : Prop := (48 <= nat_of_ascii c <= 57)%nat.
  (** [numeral l z]: the digits [l] stand for the integer [z]. *)
  Definition numeral (l : list ascii) (z : Z) : Prop :=
    l <> [] /\ (forall c, In c l -> digit c) /\ exists d, number (string_of_list_ascii l) = Some d /\ lit d z.
  (** A variable: a letter other than e and i. *)
  Definition variable (c : ascii) : Prop := letter c /\ c <> "e"%char /\ c <> "i"%char.
  Definition blanks (l : list ascii) : Prop := forall c, In c l -> blank c.

  (** x and x^12 *)
  Inductive power_text : list ascii -> string -> Z -> Prop :=
  | pt_var c : variable c -> power_text [c] (String c "") 1
  | pt_pow c l k : variable c -> numeral l k -> k <> 0 -> k <> 1 ->
      power_text (c :: "^"%char :: l) (String c "") k.

  (** 3, x^2, 3x^2 and 3*x^2 *)
  Inductive term_text : list ascii -> monomial -> Prop :=
  | tt_const l z : numeral l z -> term_text l (None, z)
  | tt_power l x k : power_text l x k -> term_text l (Some (x, k), 1)
  | tt_juxtaposed l z p x k : numeral l z -> power_text p x k -> term_text (l ++ p) (Some (x, k), z)
  | tt_product l z p x k : numeral l z -> power_text p x k -> term_text (l ++ "*"%char :: p) (Some (x, k), z).

  (** Terms joined by + and -, with white space around the signs. *)
  Inductive line_text : list ascii -> list monomial -> Prop :=
  | lt_term l t : term_text l t -> line_text l [t]
  | lt_plus l ts b b' l' t : line_text l ts -> blanks b -> blanks b' -> term_text l' t ->
      line_text (l ++ b ++ "+"%char :: b' ++ l') (ts ++ [t])
  | lt_minus l ts b b' l' t : line_text l ts -> blanks b -> blanks b' -> term_text l' t ->
      line_text (l ++ b ++ "-"%char :: b' ++ l') (ts ++ scale (-1) [t]).
End Line.
