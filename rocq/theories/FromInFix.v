(** The infix parser, io/src/FromString.cpp. *)
From Coq Require Import String Ascii Bool Arith ZArith List.
From Verif Require Import Base Num Expr.
Import ListNotations.
Open Scope m_scope.

(** ** Characters *)

(** isspace in the C locale, used by operator>> to split words. *)
Definition is_space (c : ascii) : bool :=
  let n := nat_of_ascii c in (n =? 32) || ((9 <=? n) && (n <=? 13)).
(** isdigit and isalpha in the C locale (FromString.cpp:242-245).  The source
    passes a possibly negative char, which is outside their domain; here the
    characters above 127 are neither digits nor letters. *)
Definition is_digit (c : ascii) : bool :=
  let n := nat_of_ascii c in (48 <=? n) && (n <=? 57).
Definition is_letter (c : ascii) : bool :=
  let n := nat_of_ascii c in ((65 <=? n) && (n <=? 90)) || ((97 <=? n) && (n <=? 122)).

(** The string "+-*/^(),", FromString.cpp:191. *)
Definition is_special (c : ascii) : bool :=
  existsb (Ascii.eqb c) ["+"; "-"; "*"; "/"; "^"; "("; ")"; ","]%char.

(** while (ss >> token): the maximal runs of characters that are not white space. *)
Fixpoint words (l : list ascii) : list (list ascii) :=
  match l with
  | [] => []
  | c :: l' =>
    if is_space c then words l'
    else match l' with
         | [] => [[c]]
         | d :: _ => if is_space d then [c] :: words l'
                     else match words l' with
                          | w :: ws => (c :: w) :: ws
                          | [] => [[c]]
                          end
         end
  end.
Definition tokens (s : string) : list string := map string_of_list_ascii (words (list_ascii_of_string s)).

(** ** Tokens *)

(** is_operator, FromString.cpp:123-136. *)
Definition is_operator (t : string) : option binop :=
  if String.eqb t "+" then Some OAdd
  else if String.eqb t "-" then Some OSub
  else if String.eqb t "*" then Some OMul
  else if String.eqb t "/" then Some ODiv
  else if String.eqb t "^" then Some OExp
  else None.

(** is_function, FromString.cpp:138-147. *)
Definition is_function (t : string) : option binop :=
  if String.eqb t "log" then Some OLog
  else if String.eqb t "dd" then Some ODeriv
  else if String.eqb t "in" then Some OInt
  else None.

Definition is_some {A} (o : option A) : bool := match o with Some _ => true | None => false end.

(** ** The preprocessor *)

(** SpaceAroundOperators, FromString.cpp:188-202. *)
Definition space_around (l : list ascii) : list ascii :=
  flat_map (fun c => if is_special c then [" "; c; " "]%char else [c]) l.

(** The for loop over the characters of a token, FromString.cpp:235-254. *)
Fixpoint expand (l : list ascii) : list ascii :=
  match l with
  | c :: ((d :: _) as l') =>
    c :: (if (is_digit c && is_letter d) || (is_letter c && is_digit d) then ["*"%char] else [])
      ++ (if is_letter c && is_letter d then ["*"%char] else []) ++ expand l'
  | _ => l
  end.

(** ImplicitMultiplication, FromString.cpp:204-261. *)
Fixpoint implicit (last : string) (ts : list string) : list ascii :=
  match ts with
  | [] => []
  | t :: ts =>
    let text := list_ascii_of_string t in
    (if is_some (is_function t) || is_some (is_operator t) then
       (if is_some (is_function t) && String.eqb last ")" then ["*"%char] else []) ++ text
     else if String.eqb last ")" && negb (String.eqb t ",") then "*"%char :: text
     else if negb (String.eqb last "") && negb (is_some (is_function last)) && negb (is_some (is_operator last))
             && String.eqb t "(" then "*"%char :: text
     else expand text) ++ implicit t ts
  end.

(** SpaceAroundOperators on strings. *)
Definition spaced (s : string) : string := string_of_list_ascii (space_around (list_ascii_of_string s)).

(** PreProcessInFix, FromString.cpp:263-266. *)
Definition preprocess (s : string) : string :=
  spaced (string_of_list_ascii (implicit "" (tokens (spaced s)))).

(** ** The parser *)
Section Model.
  Context {num : Type}.
  Notation expr := (expr num).

  (** std::stof; [None] when it throws (FromString.cpp:149-156). *)
  Variable stof : string -> option num.
  (** ParseImaginaryOption::UseI or UseJ (io/include/Oasis/FromString.hpp). *)
  Variable use_i : bool.

  (** std::variant<Operator, Function, OpenParens>, FromString.cpp:27-41. *)
  Inductive opitem := IOp (o : binop) | IFun (o : binop) | IParen.

  (** prec, FromString.cpp:43-57. *)
  Definition op_prec (o : binop) : Z :=
    match o with
    | OExp => 3
    | OMul | ODiv => 2
    | OAdd | OSub => 1
    | _ => -1
    end.
  Definition prec (i : opitem) : Z := match i with IOp o => op_prec o | _ => -1 end.

  (** processOp, FromString.cpp:59-99: the new operator stack and operand
      stack, with the result already pushed (the callers' st.emplace). *)
  Definition process_op (ops : list opitem) (st : list expr) : M (list opitem * list expr) :=
    match st with
    | y :: x :: st =>
      match ops with
      | [] => undef EmptyAccess
      | IOp o :: ops => ret (ops, EBin o x y :: st)
      | _ :: _ => fail "Invalid operator"
      end
    | _ => fail "Invalid number of operands"
    end.

  (** while (!ops.empty() && cond(ops.top())) processOp, FromString.cpp:287-292,
      300-305, 309-314 and 335-340.  Every successful round removes one
      element of [ops], so its length bounds the number of rounds. *)
  Fixpoint drain (k : nat) (cond : opitem -> bool) (ops : list opitem) (st : list expr) : M (list opitem * list expr) :=
    match ops with
    | [] => ret (ops, st)
    | top :: _ =>
      if cond top then
        match k with
        | O => oof
        | S k => r <- process_op ops st ;; drain k cond (fst r) (snd r)
        end
      else ret (ops, st)
    end.
  Definition drain_all (cond : opitem -> bool) (ops : list opitem) (st : list expr) : M (list opitem * list expr) :=
    drain (length ops) cond ops st.

  Definition not_paren (i : opitem) : bool := match i with IParen => false | _ => true end.

  (** processFunction, FromString.cpp:101-121. *)
  Definition process_function (f : binop) (st : list expr) : M (list expr) :=
    match st with
    | second :: first :: st => ret (EBin f first second :: st)
    | _ => fail "Invalid number of operands"
    end.

  (** ParseOperand, FromString.cpp:158-172; is_number is false here. *)
  Definition parse_operand (t : string) : expr :=
    if String.eqb t (if use_i then "i" else "j") then EImag else if String.eqb t "e" then EEuler else EVar t.

  (** One round of the loop, FromString.cpp:278-332.  The last branch is taken
      only if the next character is not '('; the character after a word is
      white space or the end of the string, so it always is. *)
  Definition parse_token (s : list opitem * list expr) (t : string) : M (list opitem * list expr) :=
    let (ops, st) := s in
    match stof t with
    | Some c => ret (ops, EReal c :: st)
    | None =>
    match is_function t with
    | Some f => ret (IFun f :: ops, st)
    | None =>
    match is_operator t with
    | Some o =>
      r <- drain_all (fun i => (op_prec o <=? prec i)%Z) ops st ;;
      ret (IOp o :: fst r, snd r)
    | None =>
      if String.eqb t "(" then ret (IParen :: ops, st)
      else if String.eqb t "," then drain_all not_paren ops st
      else if String.eqb t ")" then
        r <- drain_all not_paren ops st ;;
        match fst r with
        | IParen :: ops =>
          match ops with
          | IFun f :: ops => st <- process_function f (snd r) ;; ret (ops, st)
          | _ => ret (ops, snd r)
          end
        | _ => fail "Mismatched parenthesis"
        end
      else ret (ops, parse_operand t :: st)
    end end end.

  Fixpoint parse_loop (s : list opitem * list expr) (ts : list string) : M (list opitem * list expr) :=
    match ts with
    | [] => ret s
    | t :: ts => s <- parse_token s t ;; parse_loop s ts
    end.

  (** FromInFix, FromString.cpp:268-345. *)
  Definition from_infix (s : string) : M expr :=
    r <- parse_loop ([], []) (tokens s) ;;
    r <- drain_all (fun _ => true) (fst r) (snd r) ;;
    match snd r with
    | [] => fail "Parsing failed"
    | e :: _ => ret e
    end.
End Model.
