(** How a sum or a product should be shown: numerals, powers, products and
    sums in parentheses.  This file does not mention the serializer. *)
From Coq Require Import String Ascii Bool Arith ZArith List.
From Verif Require Import SpecPoly SpecProd SpecNumeral.
Import ListNotations.
Open Scope string_scope.
Open Scope Z_scope.
Open Scope list_scope.

Definition number_shown (t : string) (z : Z) : Prop := numeral_of z (list_ascii_of_string t).

(** x, (x^12) *)
Inductive power_shown : string -> string -> Z -> Prop :=
| ws_var x : power_shown x x 1
| ws_pow x k n : number_shown n k -> k <> 0 -> k <> 1 -> power_shown ("(" ++ x ++ "^" ++ n ++ ")")%string x k.

(** 3, x, (x^2), (-3*x), (3*(x^2)): no coefficient 0, no coefficient 1 in
    front of a power. *)
Inductive term_shown : string -> monomial -> Prop :=
| ts_const n z : number_shown n z -> z <> 0 -> term_shown n (None, z)
| ts_power p x k : power_shown p x k -> term_shown p (Some (x, k), 1)
| ts_scaled n z p x k : number_shown n z -> z <> 0 -> z <> 1 -> power_shown p x k ->
    term_shown ("(" ++ n ++ "*" ++ p ++ ")")%string (Some (x, k), z).

(** 3, x, (x^2) *)
Inductive factor_shown : string -> factor -> Prop :=
| fs_number n z : number_shown n z -> z <> 0 -> z <> 1 -> factor_shown n (None, z)
| fs_power p x k : power_shown p x k -> 0 < k -> factor_shown p (Some x, k).

(** [shown_by op one d t l]: [t] joins texts of [l] with [op], in parentheses
    that are nested at most [d] deep. *)
Inductive shown_by {A : Type} (op : string) (one : string -> A -> Prop) : nat -> string -> list A -> Prop :=
| sb_one d t a : one t a -> shown_by op one d t [a]
| sb_two d t u la lb : shown_by op one d t la -> shown_by op one d u lb ->
    shown_by op one (S d) ("(" ++ t ++ op ++ u ++ ")")%string (la ++ lb).
Definition sum_shown : nat -> string -> list monomial -> Prop := shown_by "+" term_shown.
Definition product_shown : nat -> string -> list factor -> Prop := shown_by "*" factor_shown.
