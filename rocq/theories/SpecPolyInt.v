(** Integrals of the terms of a polynomial in one variable.  This file does not
    mention the model of any algorithm; it only uses the type of expressions. *)
From Coq Require Import String Bool Arith ZArith List.
From Verif Require Import Num Expr SpecPoly.
Import ListNotations.
Open Scope Z_scope.
Open Scope list_scope.

(** Every term is a number or a multiple of x^k with 1 <= k < [top]. *)
Definition in_one_variable (x : string) (top : Z) (ts : list monomial) : Prop :=
  forall y k, In (Some (y, k)) (keys ts) -> y = x /\ 1 <= k < top.

(** The number that the two leading ones in the binary notation of [n] stand
    for, [n] itself if it is a power of two: 1 2 3 4 5 6 6 8 9 10 10 12 12 12 12 16 ... *)
Definition two_digits (n : nat) : nat :=
  (match n with
   | O | S O => n
   | _ => let h := 2 ^ (Nat.log2_up n - 1) in h + 2 ^ Nat.log2 (n - h)
   end)%nat.
(** [n] is a power of two or the sum of two powers of two. *)
Definition two_powers (n : nat) : Prop := exists i j, (n = 2 ^ i \/ n = 2 ^ i + 2 ^ j)%nat.

Section Integrals.
  Context {num : Type} {N : NumOps num}.
  Notation expr := (expr num).

  (** c * e, without a coefficient 1. *)
  Definition times (c : num) (e : expr) : expr := if n_eqb c n1 then e else EMul (EReal c) e.

  (** A term and its integral: c becomes c*x, x becomes 1/2*x^2, x^k becomes
      1/(k+1)*x^(k+1), and a coefficient is multiplied with that of the
      integral. *)
  Inductive integral_of (x : string) : expr -> expr -> Prop :=
  | io_const c : integral_of x (EReal c) (times c (EVar x))
  | io_var : integral_of x (EVar x) (times (n_div n1 n2) (EExp (EVar x) (EReal n2)))
  | io_exp c : integral_of x (EExp (EVar x) (EReal c))
                 (times (n_div n1 (n_add c n1)) (EExp (EVar x) (EReal (n_add c n1))))
  | io_scaled_var d : integral_of x (EMul (EReal d) (EVar x))
                        (times (n_mul d (n_div n1 n2)) (EExp (EVar x) (EReal n2)))
  | io_scaled_exp d c : integral_of x (EMul (EReal d) (EExp (EVar x) (EReal c)))
                          (times (n_mul d (n_div n1 (n_add c n1))) (EExp (EVar x) (EReal (n_add c n1)))).
End Integrals.

Definition key_dec (a b : key) : {a = b} + {a <> b}.
Proof. decide equality. decide equality; [apply Z.eq_dec|apply string_dec]. Defined.
(** The number of terms that are left when like terms are combined. *)
Definition terms_left (ts : list monomial) : nat :=
  length (filter (fun k => negb (total k ts =? 0)) (nodup key_dec (keys ts))).
(** A sum or a difference. *)
Definition sum_or_difference {num : Type} (e : expr num) : Prop :=
  exists a b, e = EAdd a b \/ e = ESub a b.
