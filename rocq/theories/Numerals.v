(** The texts of numbers: std::stof, which the infix reader uses
    (io/src/FromString.cpp:149-156), and std::format with the general format,
    which the serializers use (io/src/InFixSerializer.cpp:27,
    io/src/MathMLSerializer.cpp:35, io/src/TeXSerializer.cpp:86 and 110).
    Both belong to the C++ library; the definitions follow the C and C++
    standards in the C locale, where float is IEEE binary32 and double is IEEE
    binary64. *)
From Coq Require Import String Ascii Bool Arith ZArith List SpecFloat.
From Flocq Require Import Core BinarySingleNaN.
From Verif Require Import FromInFix DoubleNum.
Import ListNotations.
Open Scope list_scope.
Open Scope Z_scope.

(** ** Reading *)

Definition lower (c : ascii) : ascii :=
  let n := nat_of_ascii c in if ((65 <=? n) && (n <=? 90))%nat then ascii_of_nat (n + 32) else c.
(** isxdigit in the C locale. *)
Definition is_hex (c : ascii) : bool :=
  is_digit c || (let n := nat_of_ascii (lower c) in ((97 <=? n) && (n <=? 102))%nat).
(** The value of a decimal or hexadecimal digit. *)
Definition digit_value (c : ascii) : Z :=
  if is_digit c then Z.of_nat (nat_of_ascii c) - 48 else Z.of_nat (nat_of_ascii (lower c)) - 87.
Definition digits_value (base : Z) (l : list ascii) : Z := fold_left (fun v c => base * v + digit_value c) l 0.

(** The longest prefix whose characters satisfy [p], and the rest. *)
Fixpoint span (p : ascii -> bool) (l : list ascii) : list ascii * list ascii :=
  match l with
  | c :: l' => if p c then let (a, b) := span p l' in (c :: a, b) else ([], l)
  | [] => ([], [])
  end.

(** An optional sign. *)
Definition scan_sign (l : list ascii) : bool * list ascii :=
  match l with
  | c :: l' => if Ascii.eqb c "-" then (true, l') else if Ascii.eqb c "+" then (false, l') else (false, l)
  | [] => (false, [])
  end.
(** An optional exponent after the letter [x]; without digits it is not part of the number. *)
Definition scan_exponent (x : ascii) (l : list ascii) : Z :=
  match l with
  | c :: l' =>
    if Ascii.eqb (lower c) x then
      let (neg, l'') := scan_sign l' in
      let v := digits_value 10 (fst (span is_digit l'')) in if neg then - v else v
    else 0
  | [] => 0
  end.
(** Digits with an optional point; at least one digit: the digits without the
    point, how many of them follow it, and the rest of the text. *)
Definition scan_digits (p : ascii -> bool) (l : list ascii) : option (list ascii * Z * list ascii) :=
  let (ip, r) := span p l in
  let (fp, r) := match r with
                 | c :: r' => if Ascii.eqb c "." then span p r' else ([], r)
                 | [] => ([], [])
                 end in
  match ip ++ fp with [] => None | ds => Some (ds, Z.of_nat (length fp), r) end.

(** What strtof finds: an infinity, a NaN or the number m * b^e. *)
Inductive scanned := SInf | SNan | SNum (m b e : Z).

Definition has_prefix (w : list ascii) (l : list ascii) : bool :=
  if list_eq_dec ascii_dec (map lower (firstn (length w) l)) w then true else false.

(** The subject sequence of strtof after the sign (C11 7.22.1.3): infinity and
    nan in any case, hexadecimal and decimal numbers. *)
Definition scan_number (l : list ascii) : option scanned :=
  if has_prefix ["i"; "n"; "f"]%char l then Some SInf
  else if has_prefix ["n"; "a"; "n"]%char l then Some SNan
  else
    match (if has_prefix ["0"; "x"]%char l then scan_digits is_hex (skipn 2 l) else None) with
    | Some (ds, k, r) => Some (SNum (digits_value 16 ds) 2 (scan_exponent "p" r - 4 * k))
    | None =>
      match scan_digits is_digit l with
      | Some (ds, k, r) => Some (SNum (digits_value 10 ds) 10 (scan_exponent "e" r - k))
      | None => None
      end
    end.

(** m * b^e as a quotient. *)
Definition quotient (m b e : Z) : Z * Z := if 0 <=? e then (m * b ^ e, 1) else (m, b ^ (- e)).

(** n / d rounded to the nearest binary32 number, ties to even. *)
Definition round_float (neg : bool) (n d : Z) : spec_float :=
  match n, d with
  | Zpos n, Zpos d =>
    let '(q, e, l) := SFdiv_core_binary 24 128 (Zpos n) 0 (Zpos d) 0 in binary_round_aux 24 128 mode_NE neg q e l
  | _, _ => S754_zero neg
  end.

(** ERANGE: the result overflows, or it is below the least normal number and
    not exact.  Then std::stof throws std::out_of_range.  (Whether an inexact
    number that is rounded up to the least normal number counts depends on the
    platform; here it does not.) *)
Definition in_range (x : spec_float) (n d : Z) : bool :=
  match x with
  | S754_zero _ => n =? 0
  | S754_finite _ m e => (2 ^ 23 <=? Zpos m) || (Zpos m * d =? n * 2 ^ (- e))
  | _ => false
  end.

(** float to double, which is exact. *)
Definition widen (x : spec_float) : double :=
  match x with
  | S754_zero s => B754_zero s
  | S754_infinity s => B754_infinity s
  | S754_nan => B754_nan
  | S754_finite s m e => d_of (cond_Zopp s (Zpos m)) e
  end.

Fixpoint skip_space (l : list ascii) : list ascii :=
  match l with c :: l' => if is_space c then skip_space l' else l | [] => [] end.

(** std::stof and the conversion of its result to double
    (io/src/FromString.cpp:152, 161 and 281); [None] when it throws.  The
    sign of a NaN is not distinguished. *)
Definition stof (s : string) : option double :=
  let (neg, l) := scan_sign (skip_space (list_ascii_of_string s)) in
  match scan_number l with
  | None => None
  | Some SInf => Some (B754_infinity neg)
  | Some SNan => Some B754_nan
  | Some (SNum m b e) =>
    let (n, d) := quotient m b e in
    let x := round_float neg n d in
    if in_range x n d then Some (widen x) else None
  end.

(** ** Printing *)

(** The [k] last decimal digits of [n]. *)
Fixpoint last_digits (k : nat) (n : Z) : list ascii :=
  match k with
  | O => []
  | S k => last_digits k (n / 10) ++ [ascii_of_nat (48 + Z.to_nat (n mod 10))]
  end.
(** How many decimal digits a positive number has. *)
Fixpoint count_digits (fuel : nat) (n : Z) : Z :=
  match fuel with
  | O => 1
  | S fuel => if n <? 10 then 1 else 1 + count_digits fuel (n / 10)
  end.
Definition decimal_length (n : Z) : Z := count_digits (Z.to_nat (Z.log2 n)) n.

(** The exponent of the leading decimal digit of n/d: 10^X <= n/d < 10^(X+1). *)
Definition leading (n d : Z) : Z :=
  if d <=? n then decimal_length (n / d) - 1 else - decimal_length ((d - 1) / n).

(** n/d rounded to the nearest integer, ties to even. *)
Definition nearest (n d : Z) : Z :=
  let q := n / d in
  match 2 * (n - q * d) ?= d with Lt => q | Gt => q + 1 | Eq => if Z.even q then q else q + 1 end.

(** n/d with [p] significant digits: the digits as an integer and the exponent
    of the first one. *)
Definition significant (p : nat) (n d : Z) : Z * Z :=
  let X := leading n d in
  let k := Z.of_nat p - 1 - X in
  let D := if 0 <=? k then nearest (n * 10 ^ k) d else nearest n (d * 10 ^ (- k)) in
  if D =? 10 ^ Z.of_nat p then (10 ^ (Z.of_nat p - 1), X + 1) else (D, X).

(** Without trailing zeros. *)
Fixpoint strip (l : list ascii) : list ascii :=
  match l with
  | [] => []
  | c :: l => match strip l with [] => if Ascii.eqb c "0" then [] else [c] | l' => c :: l' end
  end.
Definition point (l : list ascii) : list ascii := match strip l with [] => [] | l' => "."%char :: l' end.

(** The general format of a positive number with [p] significant digits:
    fixed notation if the exponent is at least -4 and less than [p], otherwise
    scientific notation with at least two digits in the exponent; trailing
    zeros are removed (C11 7.21.6.1, %g; C++20 [charconv.to.chars]). *)
Definition general (p : nat) (n d : Z) : list ascii :=
  let (D, X) := significant p n d in
  let ds := last_digits p D in
  if (X <? -4) || (Z.of_nat p <=? X) then
    firstn 1 ds ++ point (skipn 1 ds) ++ "e"%char :: (if X <? 0 then "-"%char else "+"%char)
      :: last_digits (if Z.abs X <? 100 then 2 else 3) (Z.abs X)
  else if X <? 0 then
    "0"%char :: point (repeat "0"%char (Z.to_nat (- X - 1)) ++ ds)
  else
    firstn (Z.to_nat (X + 1)) ds ++ point (skipn (Z.to_nat (X + 1)) ds).

(** std::format("{:.p}", x); precision 0 counts as 1.  The sign of a NaN is
    not distinguished. *)
Definition format_g (p : nat) (x : double) : string :=
  let p := Nat.max 1 p in
  let sign (s : bool) := if s then ["-"%char] else [] in
  string_of_list_ascii
    match x with
    | B754_zero s => sign s ++ ["0"%char]
    | B754_infinity s => sign s ++ ["i"; "n"; "f"]%char
    | B754_nan => ["n"; "a"; "n"]%char
    | B754_finite s m e _ => let (n, d) := quotient (Zpos m) 2 e in sign s ++ general p n d
    end.
Definition fmt5 (x : double) : string := format_g 5 x.
