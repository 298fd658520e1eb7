(** InFixSerializer, io/src/InFixSerializer.cpp and
    io/include/Oasis/InFixSerializer.hpp. *)
From Coq Require Import String List.
From Verif Require Import Base Num Expr.
Import ListNotations.
Open Scope string_scope.

Section Model.
  Context {num : Type}.
  Notation expr := (expr num).

  (** std::format("{:.5}", value), InFixSerializer.cpp:27. *)
  Variable fmt5 : num -> string.

  (** GetOpsOfBinExp, InFixSerializer.hpp:71-79: the first error wins. *)
  Definition two (a b : string + string) (k : string -> string -> string) : string + string :=
    match a with
    | inr e => inr e
    | inl x => match b with inr e => inr e | inl y => inl (k x y) end
    end.

  (** SerializeArithBinExp, InFixSerializer.hpp:81-86. *)
  Definition arith (op : string) (x y : string) : string := "(" ++ x ++ op ++ y ++ ")".
  (** SerializeFuncBinExp, InFixSerializer.hpp:88-93. *)
  Definition func (f : string) (x y : string) : string := f ++ "(" ++ x ++ "," ++ y ++ ")".

  (** The operator or function of a binary node, InFixSerializer.cpp:45-73 and 89-97. *)
  Definition bin_text (o : binop) : string -> string -> string :=
    match o with
    | OAdd => arith "+"
    | OSub => arith "-"
    | OMul => arith "*"
    | ODiv => arith "/"
    | OExp => arith "^"
    | OLog => func "log"
    | ODeriv => func "dd"
    | OInt => func "in"
    end.

  (** The TypedVisit overloads, InFixSerializer.cpp:25-119.  [inr] is the
      std::unexpected error. *)
  Fixpoint infix (e : expr) : string + string :=
    match e with
    | EReal c => inl (fmt5 c)
    | EImag => inl "i"
    | EVar x => inl x
    | EUndef => inl "Undefined"
    | EEuler => inl "e"
    | EPi => inl "pi"
    | EMat _ _ _ => inr "NOT IMPLEMENTED"
    | EBin o a b => two (infix a) (infix b) (bin_text o)
    | EUn o a =>
      match infix a with
      | inr s => inr s
      | inl x => inl (match o with
                      | ONeg => "-(" ++ x ++ ")"
                      | OSine => "sine(" ++ x ++ ")"
                      | OMag => "|" ++ x ++ "|"
                      end)
      end
    end.
End Model.
