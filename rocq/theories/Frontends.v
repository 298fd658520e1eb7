(** The programs on top of the library: the command line, cli/main.cpp, and
    the JavaScript bindings, bindings/js/src/bindings.cpp; and MatchCast,
    include/Oasis/MatchCast.hpp. *)
From Coq Require Import String Ascii Bool Arith ZArith List.
From Verif Require Import Base Num Expr Ghost Simplify Calculus InFixSer FromInFix SpecMarkup MathMLSer.
Import ListNotations.
Open Scope string_scope.
Open Scope list_scope.
Open Scope m_scope.

(** trim_whitespace, cli/main.cpp:29-37: drop_while, reverse, drop_while, reverse. *)
Fixpoint drop_spaces (l : list ascii) : list ascii :=
  match l with
  | c :: l' => if is_space c then drop_spaces l' else l
  | [] => []
  end.
Definition trim (s : string) : string :=
  string_of_list_ascii (rev (drop_spaces (rev (drop_spaces (list_ascii_of_string s))))).

(** A printed line: in green or in red (main.cpp:69-72).  The escape codes
    and the indentation are not modelled. *)
Inductive reply := Success (text : string) | Failure (text : string).

(** How the program ends: at the end of the input, by the word exit, or in the
    middle because a call did not return normally. *)
Inductive ending := AtEof | AtExit | Crashed (o : outcome unit).

Section Model.
  Context {num : Type} {N : NumOps num}.
  Notation expr := (expr num).
  Variable fmt5 : num -> string.
  Variable stof : string -> option num.

  (** A call that does not return: the same outcome without a value. *)
  Definition crash {A B} (o : outcome A) : outcome B :=
    match o with
    | Ok _ => OutOfFuel
    | Err m => Err m
    | Throw x => Throw x
    | Abort => Abort
    | Undef u => Undef u
    | OutOfFuel => OutOfFuel
    end.

  (** The and_then chain, main.cpp:60-72: PreProcessInFix, FromInFix with its
      default option, a SimplifyVisitor with default options, InFixSerializer.
      [n] bounds the recursion depth of Simplify. *)
  Definition answer (n : nat) (input : string) : outcome reply :=
    match snd (from_infix stof true (preprocess input)) with
    | Ok e =>
      match snd (simp n false e) with
      | Ok r => match infix fmt5 r with inl s => Ok (Success s) | inr s => Ok (Failure s) end
      | Err s => Ok (Failure s)
      | o => crash o
      end
    | Err s => Ok (Failure s)
    | o => crash o
    end.

  (** main, main.cpp:42-79.  [lines]: what ic_readline returns until it returns
      a null pointer.  The memory of a line (main.cpp:53) is not modelled. *)
  Fixpoint session (n : nat) (lines : list string) : list reply * ending :=
    match lines with
    | [] => ([], AtEof)
    | line :: lines =>
      let input := trim line in
      if String.eqb input "" then session n lines
      else if String.eqb input "exit" then ([], AtExit)
      else match answer n input with
           | Ok r => let (rs, e) := session n lines in (r :: rs, e)
           | o => ([], Crashed (crash o))
           end
    end.

  (** ** The JavaScript bindings.  A std::shared_ptr is an [option]. *)
  Variable fmt17 : num -> string.

  (** Simplify, bindings.cpp:12-17: the argument is dereferenced, an error
      becomes a null pointer. *)
  Definition js_simplify (n : nat) (p : option expr) : outcome (option expr) :=
    match p with
    | None => Undef NullDeref
    | Some e => match snd (simp n false e) with
                | Ok r => Ok (Some r)
                | Err _ => Ok None
                | o => crash o
                end
    end.
  (** FromInFixTrivial, bindings.cpp:19-22. *)
  Definition js_from_infix (s : string) : outcome (option expr) :=
    match snd (from_infix stof true s) with
    | Ok e => Ok (Some e)
    | Err _ => Ok None
    | o => crash o
    end.
  (** ToMathMLString, bindings.cpp:24-36, up to the element handed to
      tinyxml2's printer. *)
  Definition js_mathml (p : option expr) : outcome xml :=
    match p with
    | None => Undef NullDeref
    | Some e => Ok (mathml fmt5 fmt17 e)
    end.

  (** ** MatchCast, include/Oasis/MatchCast.hpp:38-70.
      A case: the type of the lambda's argument, the check, the transformer.
      The result is null while no case has matched; transformers do not return
      null (their result type is not_null). *)
  Record mcase := { mc_pat : pat; mc_check : expr -> M bool; mc_run : expr -> M expr }.

  (** Execute, MatchCast.hpp:52-69: for_each over all cases, each of which
      returns at once if the result is an error or not null. *)
  Definition match_step (arg : expr) (result : M (option expr)) (c : mcase) : M (option expr) :=
    match result with
    | (t, Ok None) =>
      match rcast (mc_pat c) arg with
      | Some e =>
        result ;;; b <- mc_check c e ;; if b then x <- mc_run c e ;; ret (Some x) else ret None
      | None => result
      end
    | _ => result
    end.
  Definition match_cast (cases : list mcase) (arg : expr) : M (option expr) :=
    fold_left (match_step arg) cases (ret None).
End Model.
