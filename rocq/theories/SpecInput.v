(** Expressions as a user types them, e.g.  2(x + 3y)x^2 - log(2, 8) : words and
    punctuation (SpecText.v), where what stands next to each other is
    multiplied.  This file does not mention the parser. *)
From Coq Require Import String Ascii Bool Arith ZArith List.
From Verif Require Import Num Expr SpecText SpecLine.
Import ListNotations.
Open Scope string_scope.
Open Scope list_scope.

Definition function_name (t : string) : Prop := exists o, function t o.

(** [cut w ps]: the pieces of a word are its letters and the numbers between
    them, e.g. 2, x, y for 2xy.  Numbers begin and end with a digit. *)
Definition number_text (l : list ascii) : Prop :=
  (forall c, In c l -> digit_or_point c) /\ (exists c l', l = c :: l' /\ digit c) /\ exists l' c, l = l' ++ [c] /\ digit c.
Inductive cut : list ascii -> list string -> Prop :=
| cut_nil : cut [] []
| cut_letter c l ps : letter c -> cut l ps -> cut (c :: l) (String c "" :: ps)
| cut_number n l ps : number_text n -> match l with [] => True | c :: _ => letter c end ->
    cut l ps -> cut (n ++ l) (string_of_list_ascii n :: ps).

(** Names of functions are not cut. *)
Inductive lexemes : list string -> list string -> Prop :=
| lm_nil : lexemes [] []
| lm_punct t ts ps : punctuation t -> lexemes ts ps -> lexemes (t :: ts) (t :: ps)
| lm_function t ts ps : function_name t -> lexemes ts ps -> lexemes (t :: ts) (t :: ps)
| lm_word t ts qs ps : ~ function_name t -> t <> "" -> cut (list_ascii_of_string t) qs -> lexemes ts ps -> lexemes (t :: ts) (qs ++ ps).

(** A number, a letter or a closing parenthesis, followed by a number, a
    letter, a function or an opening parenthesis, is multiplied with it. *)
Definition ends_operand (t : string) : Prop := t = ")" \/ ~ punctuation t /\ ~ function_name t.
Definition starts_operand (t : string) : Prop := t = "(" \/ ~ punctuation t.
Inductive multiplied : list string -> list string -> Prop :=
| mu_nil : multiplied [] []
| mu_one t : multiplied [t] [t]
| mu_star t u ps us : ends_operand t -> starts_operand u -> multiplied (u :: ps) us -> multiplied (t :: u :: ps) (t :: "*" :: us)
| mu_next t u ps us : ~ (ends_operand t /\ starts_operand u) -> multiplied (u :: ps) us -> multiplied (t :: u :: ps) (t :: us).

(** [means number l ts e]: the text [l], which has the words [ts], is an
    expression with the tree [e]. *)
Definition means {num : Type} (number : string -> option num) (l : list ascii) (ts : list string) (e : expr num) : Prop :=
  exists ps us, lexed l ts /\ lexemes ts ps /\ multiplied ps us /\ infix_of number "i" 1 us e.

(** No two words without punctuation between them, no two parentheses of the
    same kind next to each other, no parenthesis opened right after a comma,
    and no word with several pieces right after a closing parenthesis. *)
Definition several (t : string) : Prop := exists q q' qs, cut (list_ascii_of_string t) (q :: q' :: qs).
Definition clear (ts : list string) : Prop :=
  separated ts /\
  forall ts1 t u ts2, ts = ts1 ++ t :: u :: ts2 ->
    ~ (t = "(" /\ u = "(") /\ ~ (t = ")" /\ u = ")") /\ ~ (t = "," /\ u = "(") /\ ~ (t = ")" /\ several u).

(** Two parentheses of the same kind next to each other, or a parenthesis
    opened right after a comma. *)
Definition crowded (ts : list string) : Prop :=
  exists ts1 t u ts2, ts = ts1 ++ t :: u :: ts2 /\ (t = "(" /\ u = "(" \/ t = ")" /\ u = ")" \/ t = "," /\ u = "(").

(** The value of sums, differences and products of integers; every result on
    the way satisfies [ok]. *)
Inductive integer_value {num : Type} (lit : num -> Z -> Prop) (ok : Z -> Prop) : expr num -> Z -> Prop :=
| iv_number c z : lit c z -> integer_value lit ok (EReal c) z
| iv_add a b x y : integer_value lit ok a x -> integer_value lit ok b y -> ok (x + y)%Z -> integer_value lit ok (EBin OAdd a b) (x + y)
| iv_sub a b x y : integer_value lit ok a x -> integer_value lit ok b y -> ok (x - y)%Z -> integer_value lit ok (EBin OSub a b) (x - y)
| iv_mul a b x y : integer_value lit ok a x -> integer_value lit ok b y -> ok (x * y)%Z -> integer_value lit ok (EBin OMul a b) (x * y).
