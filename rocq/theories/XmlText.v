(** The text of an element: tinyxml2's XMLPrinter with its default settings,
    as ToMathMLString uses it (bindings/js/src/bindings.cpp:28-35), and as
    io/tests/MathMLTests.cpp expects it. *)
From Coq Require Import String Ascii Bool Arith List.
From Verif Require Import Base Num Expr SpecMarkup Frontends.
Import ListNotations.
Open Scope string_scope.
Open Scope list_scope.

(** XMLPrinter::PrintString with entity processing, which XMLDocument turns on
    by default (bindings.cpp:28): in texts &, < and > are escaped. *)
Definition escape (c : ascii) : list ascii :=
  if Ascii.eqb c "&" then list_ascii_of_string "&amp;"
  else if Ascii.eqb c "<" then list_ascii_of_string "&lt;"
  else if Ascii.eqb c ">" then list_ascii_of_string "&gt;"
  else [c].
Definition line_feed : ascii := ascii_of_nat 10.
Definition open_tag (n : string) : list ascii := "<"%char :: list_ascii_of_string n ++ [">"%char].
Definition close_tag (n : string) : list ascii := "<"%char :: "/"%char :: list_ascii_of_string n ++ [">"%char].
Definition empty_tag (n : string) : list ascii := "<"%char :: list_ascii_of_string n ++ ["/"; ">"]%char.

(** XMLPrinter::OpenElement, PushText and CloseElement (bindings.cpp:33,
    doc.Print): every child on its own line, indented by four blanks per
    level; an element with a text on one line; an element without children as
    an empty tag. *)
Fixpoint print (depth : nat) (x : xml) : list ascii :=
  let indent := repeat " "%char (4 * depth) in
  indent ++
  match x with
  | XText n t => open_tag n ++ flat_map escape (list_ascii_of_string t) ++ close_tag n
  | XNode n [] => empty_tag n
  | XNode n l => open_tag n ++ line_feed :: flat_map (fun y => print (S depth) y ++ [line_feed]) l ++ indent ++ close_tag n
  end.
(** The text of a document with one element. *)
Definition xml_string (x : xml) : string := string_of_list_ascii (print 0 x ++ [line_feed]).

Section Model.
  Context {num : Type} {NO : NumOps num}.
  Variable fmt5 fmt17 : num -> string.
  (** ToMathMLString, bindings.cpp:24-36. *)
  Definition js_mathml_string (p : option (expr num)) : outcome string :=
    match js_mathml fmt5 fmt17 p with
    | Ok x => Ok (xml_string x)
    | o => crash o
    end.
End Model.
