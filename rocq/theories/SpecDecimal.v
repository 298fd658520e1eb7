(** Arithmetic with typed decimal numbers.  This file does not mention the
    reader, the simplifier or the serializers. *)
From Coq Require Import String Ascii Bool Arith ZArith Reals List.
From Verif Require Import Expr SpecText SpecLine SpecNumeral.
Import ListNotations.
Open Scope list_scope.

(** The digits before and after the point. *)
Fixpoint cut_point (l : list ascii) : list ascii * option (list ascii) :=
  match l with
  | [] => ([], None)
  | c :: l => if Ascii.eqb c "." then ([], Some l) else let (ip, fp) := cut_point l in (c :: ip, fp)
  end.
Definition all_digits (l : list ascii) : bool := forallb (fun c => (48 <=? nat_of_ascii c) && (nat_of_ascii c <=? 57))%nat l.
(** The number a word of digits with an optional point stands for. *)
Definition decimal_word (s : string) : option R :=
  match cut_point (list_ascii_of_string s) with
  | ([], None) | ([], Some []) => None
  | (ip, None) => if all_digits ip then Some (IZR (natural ip)) else None
  | (ip, Some fp) => if all_digits ip && all_digits fp then Some (IZR (natural ip) + IZR (natural fp) / 10 ^ length fp)%R else None
  end.

Local Open Scope R_scope.
(** [arithmetic e v]: [e] is built from numbers by the four operations,
    without a division by zero, and [v] is its value. *)
Inductive arithmetic : expr R -> R -> Prop :=
| ar_number c : arithmetic (EReal c) c
| ar_add a b x y : arithmetic a x -> arithmetic b y -> arithmetic (EBin OAdd a b) (x + y)
| ar_sub a b x y : arithmetic a x -> arithmetic b y -> arithmetic (EBin OSub a b) (x - y)
| ar_mul a b x y : arithmetic a x -> arithmetic b y -> arithmetic (EBin OMul a b) (x * y)
| ar_div a b x y : arithmetic a x -> arithmetic b y -> y <> 0 -> arithmetic (EBin ODiv a b) (x / y).

(** [few_digits p v]: [v] has at most [p] significant decimal digits. *)
Definition few_digits (p : nat) (v : R) : Prop := exists z k, (Z.abs z < 10 ^ Z.of_nat p)%Z /\ v = IZR z * powerRZ 10 k.

(** [moderate e v n]: sums, products and quotients of [n] numbers, where all
    results on the way are between 10^-6 and 10^38. *)
Inductive moderate : expr R -> R -> nat -> Prop :=
| md_number c : / 10 ^ 6 <= c <= 10 ^ 38 -> moderate (EReal c) c 1
| md_add a b x y n m : moderate a x n -> moderate b y m -> / 10 ^ 6 <= x + y <= 10 ^ 38 -> moderate (EBin OAdd a b) (x + y) (n + m)
| md_mul a b x y n m : moderate a x n -> moderate b y m -> / 10 ^ 6 <= x * y <= 10 ^ 38 -> moderate (EBin OMul a b) (x * y) (n + m)
| md_div a b x y n m : moderate a x n -> moderate b y m -> / 10 ^ 6 <= x / y <= 10 ^ 38 -> moderate (EBin ODiv a b) (x / y) (n + m).

(** [error e v h]: [v] is the value of [e], and [h] bounds the error of a
    machine that rounds every number to a float and every result to a double:
    a number is off by at most 2^-24 of its size, and the rounding of a result
    by at most 2^-53 of its size. *)
Notation u24 := (/ 2 ^ 24).
Notation u53 := (/ 2 ^ 53).
Inductive error : expr R -> R -> R -> Prop :=
| er_number c : c = 0 \/ / 10 ^ 30 <= c <= 10 ^ 38 -> error (EReal c) c (u24 * c)
| er_add a b x y h k : error a x h -> error b y k -> Rabs (x + y) + (h + k) <= 10 ^ 300 ->
    error (EBin OAdd a b) (x + y) ((h + k) + u53 * (Rabs (x + y) + (h + k)))
| er_sub a b x y h k : error a x h -> error b y k -> Rabs (x - y) + (h + k) <= 10 ^ 300 ->
    error (EBin OSub a b) (x - y) ((h + k) + u53 * (Rabs (x - y) + (h + k)))
| er_mul a b x y h k j : error a x h -> error b y k -> / 5000000 <= Rabs x - h -> Rabs x * k + Rabs y * h + h * k <= j ->
    / 10 ^ 300 <= Rabs (x * y) - j -> Rabs (x * y) + j <= 10 ^ 300 ->
    error (EBin OMul a b) (x * y) (j + u53 * (Rabs (x * y) + j))
| er_div a b x y h k j : error a x h -> error b y k -> k < Rabs y -> (Rabs x * k + Rabs y * h) / (Rabs y * (Rabs y - k)) <= j ->
    / 10 ^ 300 <= Rabs (x / y) - j -> Rabs (x / y) + j <= 10 ^ 300 ->
    error (EBin ODiv a b) (x / y) (j + u53 * (Rabs (x / y) + j))
| er_weaken e v h h' : error e v h -> h <= h' -> error e v h'.
