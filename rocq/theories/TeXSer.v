(** TeXSerializer, io/src/TeXSerializer.cpp and
    io/include/Oasis/TeXSerializer.hpp. *)
From Coq Require Import String Ascii List Arith.
From Verif Require Import Base Num Expr InFixSer.
Import ListNotations.
Open Scope string_scope.

(** TeXOpts, TeXSerializer.hpp:17-48.  The dialect and the packages are stored
    and never read.  A uint8_t is a [nat]; the enumerations hold only their
    enumerators, so the error branches for other values
    (TeXSerializer.cpp:99 and 165, TeXSerializer.hpp:122) have no counterpart. *)
Inductive spacing := Minimal | Regular.
Inductive img_sym := SymI | SymJ.
Inductive div_type := Frac | DivSign.
Record tex_opts := { to_spacing : spacing; to_img : img_sym; to_places : nat; to_div : div_type }.
(** The default options, TeXSerializer.hpp:18-47. *)
Definition tex_default : tex_opts := {| to_spacing := Minimal; to_img := SymI; to_places := 2; to_div := Frac |}.

Section Model.
  Context {num : Type}.
  Notation expr := (expr num).

  (** std::format("{:.{}}", value, n). *)
  Variable fmt : nat -> num -> string.
  Variable opts : tex_opts.

  Definition newline : string := String (ascii_of_nat 10) "".

  (** One matrix row, TeXSerializer.cpp:108-116: the entries separated by &,
      then \\ and a line break. *)
  Fixpoint tex_row (l : list num) : string :=
    match l with
    | [] => ""
    | [x] => fmt 5 x
    | x :: l => fmt 5 x ++ "&" ++ tex_row l
    end.
  (** The row loop, TeXSerializer.cpp:107-117, on the entries row by row. *)
  Fixpoint tex_rows (rows cols : nat) (d : list num) : string :=
    match rows with
    | O => ""
    | S rows => tex_row (firstn cols d) ++ "\\" ++ newline ++ tex_rows rows cols (skipn cols d)
    end.

  (** SerializeArithBinExp, TeXSerializer.hpp:112-124. *)
  Definition tex_arith (op x y : string) : string :=
    match to_spacing opts with
    | Minimal => "\left(" ++ x ++ op ++ y ++ "\right)"
    | Regular => "\left(" ++ x ++ " " ++ op ++ " " ++ y ++ "\right)"
    end.

  (** The binary nodes, TeXSerializer.cpp:142-181 and 204-216. *)
  Definition tex_bin (o : binop) (x y : string) : string :=
    match o with
    | OAdd => tex_arith "+" x y
    | OSub => tex_arith "-" x y
    | OMul => tex_arith "*" x y
    | ODiv => match to_div opts with
              | DivSign => "\left({" ++ x ++ "}\div{" ++ y ++ "}\right)"
              | Frac => "\left(\frac{" ++ x ++ "}{" ++ y ++ "}\right)"
              end
    | OExp => "\left(" ++ x ++ "\right)^{" ++ y ++ "}"
    | OLog => "\log_{" ++ x ++ "}\left(" ++ y ++ "\right)"
    | ODeriv => "\frac{d}{d" ++ x ++ "}\left(" ++ y ++ "\right)"
    | OInt => "\int\left(" ++ x ++ "\right)d" ++ y
    end.
  (** The unary nodes, TeXSerializer.cpp:183-202. *)
  Definition tex_un (o : unop) (x : string) : string :=
    match o with
    | ONeg => "-\left(" ++ x ++ "\right)"
    | OSine => "sine\left(" ++ x ++ "\right)"
    | OMag => "\left|" ++ x ++ "\right|"
    end.

  (** The TypedVisit overloads, TeXSerializer.cpp:84-216.  [inr] is the
      std::unexpected error. *)
  Fixpoint tex (e : expr) : string + string :=
    match e with
    | EReal c => inl (fmt (to_places opts + 1) c)
    | EImag => inl (match to_img opts with SymI => "i" | SymJ => "j" end)
    | EMat r c d => inl ("\begin{bmatrix}" ++ newline ++ tex_rows r c d ++ "\end{bmatrix}" ++ newline)
    | EVar x => inl x
    | EUndef => inl "Undefined"
    | EPi => inl "\pi"
    | EEuler => inl "e"
    | EBin o a b => two (tex a) (tex b) (tex_bin o)
    | EUn o a => match tex a with inr s => inr s | inl x => inl (tex_un o x) end
    end.
End Model.
