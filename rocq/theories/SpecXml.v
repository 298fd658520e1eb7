(** What a MathML text says, after the XML recommendation: elements without
    attributes, character data, and the references to the predefined entities
    amp, lt and gt.  Nothing here refers to the printer or the serializer. *)
From Coq Require Import String Ascii Bool Arith List.
From Verif Require Import SpecMarkup.
Import ListNotations.
Open Scope string_scope.
Open Scope list_scope.

(** A document as a tree of elements and characters (bytes; UTF-8 only uses
    bytes from 128 on for other characters). *)
Inductive item := IChar (c : ascii) | IElem (name : string) (content : list item).

(** XML has no control characters but tab, line feed and carriage return; the
    last is read as a line feed and left out here. *)
Definition xml_char (c : ascii) : bool :=
  let n := nat_of_ascii c in (32 <=? n)%nat || (n =? 9)%nat || (n =? 10)%nat.
(** Blanks between elements. *)
Definition xml_blank : ascii -> bool := one_of (String (ascii_of_nat 32) (String (ascii_of_nat 9) (String (ascii_of_nat 10) ""))).

(** ** Tags and characters *)

Inductive mark := MOpen (name : string) | MClose (name : string) | MEmpty (name : string) | MChar (c : ascii).
(** Between two tags, inside a tag, inside a reference; the latter two with
    the characters so far. *)
Inductive place := Between | InTag (word : list ascii) | InRef (word : list ascii).

Definition letters (l : list ascii) : option string :=
  if negb (Nat.eqb (length l) 0) && forallb tex_letter l then Some (string_of_list_ascii l) else None.
(** The tag between < and >: name, /name or name/. *)
Definition tag (l : list ascii) : option mark :=
  match l with
  | c :: l' =>
    if Ascii.eqb c "/" then option_map MClose (letters l')
    else if Ascii.eqb (last l c) "/" then option_map MEmpty (letters (removelast l))
    else option_map MOpen (letters l)
  | [] => None
  end.
Definition entity (l : list ascii) : option mark :=
  let w := string_of_list_ascii l in
  if String.eqb w "amp" then Some (MChar "&")
  else if String.eqb w "lt" then Some (MChar "<")
  else if String.eqb w "gt" then Some (MChar ">")
  else None.

Definition before (m : option mark) (r : option (list mark)) : option (list mark) :=
  match m, r with Some m, Some r => Some (m :: r) | _, _ => None end.
Fixpoint marks (p : place) (l : list ascii) : option (list mark) :=
  match l with
  | [] => match p with Between => Some [] | _ => None end
  | c :: l =>
    match p with
    | Between =>
      if Ascii.eqb c "<" then marks (InTag []) l
      else if Ascii.eqb c "&" then marks (InRef []) l
      else if Ascii.eqb c ">" || negb (xml_char c) then None
      else before (Some (MChar c)) (marks Between l)
    | InTag w => if Ascii.eqb c ">" then before (tag w) (marks Between l) else marks (InTag (w ++ [c])) l
    | InRef w => if Ascii.eqb c ";" then before (entity w) (marks Between l) else marks (InRef (w ++ [c])) l
    end
  end.

(** ** Elements: tags must nest.  [open] holds the elements that are open, the
    innermost first, with what precedes the next one in them; [done] is what has been
    read of the innermost one. *)
Fixpoint assemble (l : list mark) (open : list (string * list item)) (done : list item) : option (list item) :=
  match l with
  | [] => match open with [] => Some done | _ => None end
  | MChar c :: l => assemble l open (done ++ [IChar c])
  | MEmpty n :: l => assemble l open (done ++ [IElem n []])
  | MOpen n :: l => assemble l ((n, done) :: open) []
  | MClose n :: l =>
    match open with
    | (m, prior) :: open => if String.eqb n m then assemble l open (prior ++ [IElem n done]) else None
    | [] => None
    end
  end.

(** ** MathML: blanks count in token elements only *)
Definition token (name : string) : bool := existsb (String.eqb name) ["mi"; "mn"; "mo"; "mtext"].
Definition counts (i : item) : bool := match i with IChar c => negb (xml_blank c) | IElem _ _ => true end.
Fixpoint tidy (i : item) : item :=
  match i with
  | IChar c => IChar c
  | IElem n l => IElem n (if token n then l else filter counts (map tidy l))
  end.

(** The document of a text: one element, and blanks around it. *)
Definition document (s : string) : option item :=
  match marks Between (list_ascii_of_string s) with
  | Some l =>
    match assemble l [] [] with
    | Some items => match filter counts (map tidy items) with [IElem n c] => Some (IElem n c) | _ => None end
    | None => None
    end
  | None => None
  end.

(** The document of an element. *)
Fixpoint content (x : xml) : item :=
  match x with
  | XText n t => IElem n (map IChar (list_ascii_of_string t))
  | XNode n l => IElem n (map content l)
  end.

(** The characters a document shows, in their order. *)
Fixpoint shown (i : item) : list ascii :=
  match i with IChar c => [c] | IElem _ l => flat_map shown l end.
(** The signs of pi (U+03C0) and the integral (U+222B) in UTF-8. *)
Definition pi_sign : list ascii := map ascii_of_nat [207; 128].
Definition int_sign : list ascii := map ascii_of_nat [226; 136; 171].

(** A text that XML can hold. *)
Definition xml_text (s : string) : Prop := forallb xml_char (list_ascii_of_string s) = true.
