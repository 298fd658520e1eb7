(** Specification vocabulary for TeX and MathML output.  Nothing here refers
    to the serializers. *)
From Coq Require Import String Ascii Bool Arith List.
From Verif Require Import Base Expr.
Import ListNotations.
Open Scope string_scope.

(** ** TeX *)

Definition one_of (l : string) (c : ascii) : bool := existsb (Ascii.eqb c) (list_ascii_of_string l).
Definition tex_letter : ascii -> bool := one_of "abcdefghijklmnopqrstuvwxyzABCDEFGHIJKLMNOPQRSTUVWXYZ".
Definition bslash : ascii := "\"%char.

(** A TeX file is read as characters and control sequences: a backslash with
    all the letters that follow it, or with the one character that follows it
    when that is not a letter. *)
Inductive tex_token := TChar (c : ascii) | TCtl (name : string).
Fixpoint tex_tokens (word : option string) (l : list ascii) : list tex_token :=
  match l with
  | [] => match word with None => [] | Some w => [TCtl w] end
  | c :: l =>
    match word with
    | None => if Ascii.eqb c bslash then tex_tokens (Some "") l else TChar c :: tex_tokens None l
    | Some w =>
      if tex_letter c then tex_tokens (Some (w ++ String c "")) l
      else if String.eqb w "" then TCtl (String c "") :: tex_tokens None l
      else TCtl w :: (if Ascii.eqb c bslash then tex_tokens (Some "") l else TChar c :: tex_tokens None l)
    end
  end.
Definition tex_read (s : string) : list tex_token := tex_tokens None (list_ascii_of_string s).

(** Braces and \left ... \right must nest. *)
Inductive bracket := Brace | LeftRight.
Fixpoint nest (l : list tex_token) (open : list bracket) : option (list bracket) :=
  match l with
  | [] => Some open
  | TChar "{"%char :: l => nest l (Brace :: open)
  | TChar "}"%char :: l => match open with Brace :: open => nest l open | _ => None end
  | TCtl "left" :: l => nest l (LeftRight :: open)
  | TCtl "right" :: l => match open with LeftRight :: open => nest l open | _ => None end
  | _ :: l => nest l open
  end.
Definition well_nested (s : string) : Prop := nest (tex_read s) [] = Some [].

(** [s] has no backslash and no brace. *)
Definition no_markup (s : string) : Prop :=
  forall c, In c (list_ascii_of_string s) -> c <> bslash /\ c <> "{"%char /\ c <> "}"%char.

Section Names.
  Context {num : Type}.
  (** [P] holds of every variable name of [e]. *)
  Fixpoint names (P : string -> Prop) (e : expr num) : Prop :=
    match e with
    | EVar x => P x
    | EBin _ a b => names P a /\ names P b
    | EUn _ a => names P a
    | _ => True
    end.
  (** [P] holds of every number in [e], matrix entries included. *)
  Fixpoint numbers (P : num -> Prop) (e : expr num) : Prop :=
    match e with
    | EReal c => P c
    | EMat _ _ d => List.Forall P d
    | EBin _ a b => numbers P a /\ numbers P b
    | EUn _ a => numbers P a
    | _ => True
    end.
  Fixpoint occurs (x : string) (e : expr num) : Prop :=
    match e with
    | EVar y => x = y
    | EBin _ a b => occurs x a \/ occurs x b
    | EUn _ a => occurs x a
    | _ => False
    end.
  Fixpoint sine_free (e : expr num) : Prop :=
    match e with
    | EBin _ a b => sine_free a /\ sine_free b
    | EUn o a => o <> OSine /\ sine_free a
    | _ => True
    end.
  (** [P] holds of every number in [e] outside of matrices. *)
  Fixpoint literals (P : num -> Prop) (e : expr num) : Prop :=
    match e with
    | EReal c => P c
    | EBin _ a b => literals P a /\ literals P b
    | EUn _ a => literals P a
    | _ => True
    end.
  (** [P rows columns entries] holds of every matrix in [e]. *)
  Fixpoint matrices (P : nat -> nat -> list num -> Prop) (e : expr num) : Prop :=
    match e with
    | EMat r c d => P r c d
    | EBin _ a b => matrices P a /\ matrices P b
    | EUn _ a => matrices P a
    | _ => True
    end.
End Names.

(** A name: letters, digits and dots, a letter first.  A numeral: the same
    characters, a digit first.  A number as it is printed without an exponent:
    a numeral, possibly after a minus sign. *)
Definition digit_char : ascii -> bool := one_of "0123456789".
Definition word_char (c : ascii) : bool := tex_letter c || digit_char c || Ascii.eqb c ".".
Definition word_after (first : ascii -> bool) (s : string) : Prop :=
  exists c l, list_ascii_of_string s = c :: l /\ first c = true /\ forall d, In d l -> word_char d = true.
Definition plain_name : string -> Prop := word_after tex_letter.
Definition numeral : string -> Prop := word_after digit_char.
Definition plain_number (s : string) : Prop := numeral s \/ exists t, s = String "-" t /\ numeral t.

(** ** MathML *)

(** XML elements: a tag with a text, or a tag with child elements. *)
Inductive xml := XText (tag text : string) | XNode (tag : string) (children : list xml).

(** [child y x]: the element [y] is [x] or occurs in it. *)
Inductive inside (y : xml) : xml -> Prop :=
| in_self : inside y y
| in_child tag l x : In x l -> inside y x -> inside y (XNode tag l).

(** Token elements carry text; mfrac, msup and msub take exactly two
    arguments; tables consist of rows and rows of cells. *)
Inductive mathml_ok : xml -> Prop :=
| mo_token tag t : In tag ["mi"; "mn"; "mo"; "mtext"] -> mathml_ok (XText tag t)
| mo_two tag a b : In tag ["mfrac"; "msup"; "msub"] -> mathml_ok a -> mathml_ok b -> mathml_ok (XNode tag [a; b])
| mo_row l : (forall x, In x l -> mathml_ok x) -> mathml_ok (XNode "mrow" l)
| mo_table rows :
    (forall r, In r rows -> exists cells, r = XNode "mtr" cells /\
       forall c, In c cells -> exists x, c = XNode "mtd" [x] /\ mathml_ok x) ->
    mathml_ok (XNode "mtable" rows).

(** What is seen first of an element, reading from the left on the base line. *)
Fixpoint begins_with_numeral (x : xml) : bool :=
  match x with
  | XText tag _ => String.eqb tag "mn"
  | XNode tag (y :: _) => (String.eqb tag "mrow" || String.eqb tag "msup" || String.eqb tag "msub") && begins_with_numeral y
  | XNode _ [] => false
  end.

(** Regrouping sums and products, anywhere in an expression. *)
Inductive regroup {num : Type} : expr num -> expr num -> Prop :=
| rg_refl e : regroup e e
| rg_sym e f : regroup e f -> regroup f e
| rg_trans e f g : regroup e f -> regroup f g -> regroup e g
| rg_bin o a a' b b' : regroup a a' -> regroup b b' -> regroup (EBin o a b) (EBin o a' b')
| rg_un o a a' : regroup a a' -> regroup (EUn o a) (EUn o a')
| rg_add a b c : regroup (EAdd (EAdd a b) c) (EAdd a (EAdd b c))
| rg_mul a b c : regroup (EMul (EMul a b) c) (EMul a (EMul b c)).

(** [e] without the numbers of columns of matrices without rows. *)
Fixpoint no_columns {num : Type} (e : expr num) : expr num :=
  match e with
  | EMat O _ d => EMat O O d
  | EBin o a b => EBin o (no_columns a) (no_columns b)
  | EUn o a => EUn o (no_columns a)
  | e => e
  end.

(** [e] without the operands of Sine nodes and the numbers of columns of
    matrices without rows. *)
Fixpoint blank {num : Type} (e : expr num) : expr num :=
  match e with
  | EMat O _ d => EMat O O d
  | EBin o a b => EBin o (blank a) (blank b)
  | EUn OSine _ => EUn OSine EUndef
  | EUn o a => EUn o (blank a)
  | e => e
  end.
