(** The texts of decimal numbers and their values.  This file does not mention
    the reader or the serializers. *)
From Coq Require Import String Ascii Bool Arith ZArith Reals List.
From Verif Require Import SpecText SpecLine.
Import ListNotations.
Open Scope Z_scope.
Open Scope list_scope.

Definition digits (l : list ascii) : Prop := forall c, In c l -> digit c.
(** The integer a text of digits stands for. *)
Definition natural (l : list ascii) : Z := fold_left (fun v c => 10 * v + (Z.of_nat (nat_of_ascii c) - 48)) l 0.

(** [plain_decimal l v]: [l] is a decimal number without sign and exponent,
    such as 12, 0.5, .5 or 5., and [v] is its value. *)
Inductive plain_decimal : list ascii -> R -> Prop :=
| pd_integer ip : digits ip -> ip <> [] -> plain_decimal ip (IZR (natural ip))
| pd_point ip fp : digits ip -> digits fp -> ip ++ fp <> [] ->
    plain_decimal (ip ++ "."%char :: fp) (IZR (natural ip) + IZR (natural fp) / 10 ^ length fp).

(** e+05, e-12 *)
Inductive exponent_text : list ascii -> Z -> Prop :=
| et_plus l : digits l -> l <> [] -> exponent_text ("e"%char :: "+"%char :: l) (natural l)
| et_minus l : digits l -> l <> [] -> exponent_text ("e"%char :: "-"%char :: l) (- natural l).

(** [decimal l v]: the same with an optional exponent and an optional minus sign. *)
Inductive unsigned : list ascii -> R -> Prop :=
| us_plain l v : plain_decimal l v -> unsigned l v
| us_exponent l v x k : plain_decimal l v -> exponent_text x k -> unsigned (l ++ x) (v * powerRZ 10 k).
Inductive decimal : list ascii -> R -> Prop :=
| dc_plus l v : unsigned l v -> decimal l v
| dc_minus l v : unsigned l v -> decimal ("-"%char :: l) (- v).

(** [numeral_of z l]: [l] is the numeral of [z]: its digits without leading
    zeros, after a minus sign if [z] is negative. *)
Inductive numeral_of : Z -> list ascii -> Prop :=
| no_zero : numeral_of 0 ["0"%char]
| no_positive c l : digits (c :: l) -> c <> "0"%char -> numeral_of (natural (c :: l)) (c :: l)
| no_negative z l : 0 < z -> numeral_of z l -> numeral_of (- z) ("-"%char :: l).

(** The integer a word of digits stands for, without any bound. *)
Definition integer_word (s : string) : option Z :=
  let l := list_ascii_of_string s in
  match l with
  | [] => None
  | _ => if forallb (fun c => (48 <=? nat_of_ascii c) && (nat_of_ascii c <=? 57))%nat l then Some (natural l) else None
  end.
