(** The PALM parser, io/src/FromPALM.cpp. *)
From Coq Require Import String Ascii Bool Arith List.
From Verif Require Import Base Num Expr FromInFix.
Import ListNotations.
Open Scope m_scope.

(** ParseError, io/include/Oasis/FromPALM.hpp:12-20. *)
Inductive parse_error :=
| UnexpectedToken | MissingClosingParen | InvalidNumberFormat | IncompleteExpression
| UnknownOperator | UnexpectedEndOfInput.

(** ** TokenStream, FromPALM.cpp:53-91

    The stream is the text that is still to be read.  [operator>>] skips white
    space and reads up to the next white space; nothing can be read once the
    end has been reached, and the word is then empty. *)
Definition stream := list ascii.

Fixpoint take_word (l : stream) : list ascii * stream :=
  match l with
  | [] => ([], [])
  | c :: l' => if is_space c then ([], l) else let (w, r) := take_word l' in (c :: w, r)
  end.
Fixpoint skip_space (l : stream) : stream :=
  match l with
  | [] => []
  | c :: l' => if is_space c then skip_space l' else l
  end.

(** pop, FromPALM.cpp:74-80. *)
Definition pop (l : stream) : string * stream :=
  let (w, r) := take_word (skip_space l) in (string_of_list_ascii w, r).
(** peek, FromPALM.cpp:64-72: reads a word, clears the state flags and goes
    back.  When the end was reached before, the position cannot be restored;
    the stream is at its end in either case. *)
Definition peek (l : stream) : string := fst (pop l).

Section Model.
  Context {num : Type}.
  Notation expr := (expr num).

  (** std::stod; [None] when it throws. *)
  Variable stod : string -> option num.

  (** A std::expected together with the stream as it is left. *)
  Definition parsed (A : Type) : Type := ((A + parse_error) * stream)%type.

  (** ParseNullaryOperationElements, FromPALM.cpp:630-653, for the parser
      [rec] of expressions.  [tokens.eof()] follows a [peek], which has just
      cleared the flag, so it is false.  [k] bounds the rounds. *)
  Fixpoint elements (rec : stream -> M (parsed expr)) (k : nat) (l : stream) : M (list expr * stream) :=
    match k with
    | O => oof
    | S k =>
      if String.eqb (peek l) ")" then ret ([], l)
      else r <- rec l ;;
           match r with
           | (inr _, l) => ret ([], l)
           | (inl e, l) => es <- elements rec k l ;; ret (e :: fst es, snd es)
           end
    end.

  (** ParseBinaryOperationElements, FromPALM.cpp:608-617. *)
  Definition binary_elements (rec : stream -> M (parsed expr)) (k : nat) (l : stream) : M (parsed (list expr)) :=
    r <- elements rec k l ;;
    if length (fst r) <? 2 then ret (inr IncompleteExpression, snd r) else ret (inl (fst r), snd r).

  (** The loop over the reversed elements, FromPALM.cpp:597-605. *)
  Fixpoint right_heavy (o : binop) (l : list expr) : option expr :=
    match l with
    | [] => None
    | [e] => Some e
    | e :: l => match right_heavy o l with Some r => Some (EBin o e r) | None => None end
    end.

  (** ParseBinaryOperationAssociativeAndCommutative and
      ParseBinaryOperationNonAssociativeAndCommutative, FromPALM.cpp:558-606;
      the operator has been recognised by ParseOperation.  [combine] is
      BuildFromVector or the loop above; a null result is never reached. *)
  Definition binary (combine : list expr -> option expr) (rec : stream -> M (parsed expr)) (k : nat) (l : stream)
    : M (parsed expr) :=
    r <- binary_elements rec k (snd (pop l)) ;;
    match r with
    | (inr e, l) => ret (inr e, l)
    | (inl es, l) => match combine es with
                     | Some e => ret (inl e, l)
                     | None => undef NullDeref
                     end
    end.

  (** ParseReal, FromPALM.cpp:426-443. *)
  Definition parse_real (l : stream) : M (parsed expr) :=
    let (t, l) := pop (snd (pop l)) in
    ret (match stod t with Some c => inl (EReal c) | None => inr InvalidNumberFormat end, l).
  (** ParseVariable, FromPALM.cpp:458-475. *)
  Definition parse_variable (l : stream) : M (parsed expr) :=
    let (x, l) := pop (snd (pop l)) in
    ret (if String.eqb x "" || String.eqb x ")" then inr IncompleteExpression else inl (EVar x), l).
  (** ParseNegate, FromPALM.cpp:512-529. *)
  Definition parse_negate (rec : stream -> M (parsed expr)) (l : stream) : M (parsed expr) :=
    r <- rec (snd (pop l)) ;;
    match r with
    | (inr e, l) => ret (inr e, l)
    | (inl e, l) => ret (inl (ENeg e), l)
    end.

  (** ParseOperation, FromPALM.cpp:348-424.  ParseImaginary, ParsePi and
      ParseEulerNumber (445-456, 536-556) consume one word. *)
  Definition operation (rec : stream -> M (parsed expr)) (k : nat) (l : stream) : M (parsed expr) :=
    let t := peek l in
    if String.eqb t "real" then parse_real l
    else if String.eqb t "i" || String.eqb t "j" then ret (inl EImag, snd (pop l))
    else if String.eqb t "var" then parse_variable l
    else if String.eqb t "+" then binary (build OAdd) rec k l
    else if String.eqb t "-" then binary (right_heavy OSub) rec k l
    else if String.eqb t "*" then binary (build OMul) rec k l
    else if String.eqb t "/" then binary (right_heavy ODiv) rec k l
    else if String.eqb t "^" then binary (right_heavy OExp) rec k l
    else if String.eqb t "log" then binary (right_heavy OLog) rec k l
    else if String.eqb t "int" then binary (build OInt) rec k l
    else if String.eqb t "neg" then parse_negate rec l
    else if String.eqb t "d" then binary (right_heavy ODeriv) rec k l
    else if String.eqb t "pi" then ret (inl EPi, snd (pop l))
    else if String.eqb t "e" then ret (inl EEuler, snd (pop l))
    else ret (inr UnknownOperator, l).

  (** ParseExpression, FromPALM.cpp:320-346.  [n] bounds the depth. *)
  Fixpoint parse_expr (n : nat) (l : stream) : M (parsed expr) :=
    match n with
    | O => oof
    | S n =>
      if String.eqb (peek l) "(" then
        r <- operation (parse_expr n) n (snd (pop l)) ;;
        match r with
        | (inr e, l) => ret (inr e, l)
        | (inl e, l) =>
          let (t, l) := pop l in
          if String.eqb t ")" then ret (inl e, l) else ret (inr MissingClosingParen, l)
        end
      else if String.eqb (peek l) "" then ret (inr UnexpectedEndOfInput, l)
      else ret (inr UnexpectedToken, l)
    end.

  (** FromPALM, FromPALM.cpp:279-296.  [tokens.eof()] follows the [pop] of the
      closing parenthesis: it holds when nothing at all is left.  The number
      of words bounds the depth and the rounds of every loop. *)
  Definition from_palm (s : string) : M (expr + parse_error) :=
    let l := list_ascii_of_string s in
    r <- parse_expr (S (length (words l))) l ;;
    match r with
    | (inr e, _) => ret (inr e)
    | (inl e, l) => ret (match l with [] => inl e | _ => inr UnexpectedToken end)
    end.
End Model.
