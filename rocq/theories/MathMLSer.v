(** MathMLSerializer, io/src/MathMLSerializer.cpp and
    io/include/Oasis/MathMLSerializer.hpp. *)
From Coq Require Import String Ascii Bool Arith List.
From Verif Require Import Base Num Expr SpecMarkup.
Import ListNotations.
Open Scope string_scope.

Section Model.
  Context {num : Type} {NO : NumOps num}.
  Notation expr := (expr num).

  (** std::format("{:.5}", value) (MathMLSerializer.cpp:35)
      and XMLElement::SetText(double) (65). *)
  Variable fmt5 fmt17 : num -> string.

  Definition mo (t : string) : xml := XText "mo" t.
  Definition mi (t : string) : xml := XText "mi" t.
  Definition mn (t : string) : xml := XText "mn" t.
  Definition mrow : list xml -> xml := XNode "mrow".
  (** "×" in UTF-8. *)
  Definition times : string := String (ascii_of_nat 195) (String (ascii_of_nat 151) "").

  (** Is<Real>, Is<Variable>, Is<Exponent>, Is<Log>. *)
  Definition is_real (e : expr) : bool := match e with EReal _ => true | _ => false end.
  Definition bare (e : expr) : bool :=
    match e with EReal _ | EVar _ | EBin OExp _ _ | EBin OLog _ _ => true | _ => false end.

  (** The children of a sum, MathMLSerializer.cpp:111-123: a plus sign after
      every operand, the last one deleted. *)
  Fixpoint sum_children (l : list xml) : list xml :=
    match l with
    | [] => []
    | [x] => [x]
    | x :: l => x :: mo "+" :: sum_children l
    end.
  (** One factor, MathMLSerializer.cpp:179-194 and 212-226. *)
  Definition factor (e : expr) (x : xml) : list xml := if bare e then [x] else [mo "("; x; mo ")"].
  (** The children of a product, MathMLSerializer.cpp:179-227; [prev] says
      whether there is a factor to the left and it is a Real. *)
  Fixpoint product_children (prev : bool) (l : list (expr * xml)) : list xml :=
    match l with
    | [] => []
    | (e, x) :: l =>
      ((if prev && is_real e then [mo times] else []) ++ factor e x ++ product_children (is_real e) l)%list
    end.
  (** The table of a matrix, MathMLSerializer.cpp:60-71. *)
  Definition cell (c : num) : xml := XNode "mtd" [mn (fmt17 c)].
  Fixpoint table_rows (rows cols : nat) (d : list num) : list xml :=
    match rows with
    | O => []
    | S rows => XNode "mtr" (map cell (firstn cols d)) :: table_rows rows cols (skipn cols d)
    end.

  (** The nodes that are not flattened, MathMLSerializer.cpp:128-170, 232-311,
      346-411; [b] is the right operand and decides the parentheses of a
      difference, [a] the left one and those of a power. *)
  Definition bin_xml (o : binop) (a b : expr) (x y : xml) : xml :=
    match o with
    | OSub =>
      let plain := match b with EReal c => n_leb n0 c | _ => false end in
      mrow ([x; mo "-"] ++ (if plain then [y] else [mo "("; y; mo ")"]))
    | ODiv => XNode "mfrac" [x; y]
    | OExp =>
      let plain := match a with EReal _ | EVar _ => true | _ => false end in
      XNode "msup" [if plain then x else mrow [mo "("; x; mo ")"]; y]
    | OLog => mrow [XNode "msub" [mi "log"; x]; mo "("; y; mo ")"]
    | ODeriv => mrow [XNode "mfrac" [mo "d"; mrow [mo "d"; y]]; mo "("; x; mo ")"]
    | OInt => mrow [mo "&int;"; x; mrow [mo "d"; y]]
    | OAdd | OMul => mrow []
    end.

  (** The TypedVisit overloads, MathMLSerializer.cpp:32-437.  No overload makes
      an error, so the std::expected always holds an element and value() never
      throws.  Add and Multiply flatten first (BinaryExpression.hpp:244-265).
      Simplification: SetText takes a C string, so a variable's name would be
      cut at a NUL byte (95); names are taken to have none. *)
  Fixpoint mathml (e : expr) : xml :=
    match e with
    | EReal c => mn (fmt5 c)
    | EImag => mi "i"
    | EMat r c d => mrow [mo "["; XNode "mtable" (table_rows r c d); mo "]"]
    | EPi => mi "&pi;"
    | EEuler => mi "e"
    | EVar x => mi x
    | EUndef => XText "mtext" "Undefined"
    | EBin OAdd a b =>
      let fix items (e : expr) : list xml :=
        match e with
        | EBin OAdd a b => (items a ++ items b)%list
        | _ => [mathml e]
        end in
      mrow (sum_children (items a ++ items b))
    | EBin OMul a b =>
      let fix items (e : expr) : list (expr * xml) :=
        match e with
        | EBin OMul a b => (items a ++ items b)%list
        | _ => [(e, mathml e)]
        end in
      mrow (product_children false (items a ++ items b))
    | EBin o a b => bin_xml o a b (mathml a) (mathml b)
    | EUn ONeg a => mrow [mo "-"; mo "("; mathml a; mo ")"]
    | EUn OSine _ => mrow []
    | EUn OMag a => mrow [mo "|"; mathml a; mo "|"]
    end.
End Model.
