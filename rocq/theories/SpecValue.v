(** The value of a typed polynomial (SpecLine.v).  This file does not mention
    the parser or the simplifier. *)
From Coq Require Import String ZArith Reals List.
From Verif Require Import Spec SpecPoly.
Import ListNotations.

(** The sum of the terms, e.g. 3 * x^2 + (-1) * y for 3x^2 - y, at [rho]. *)
Definition typed_value (rho : env) (ts : list monomial) : R :=
  fold_right (fun t s => IZR (snd t) * match fst t with None => 1 | Some (x, k) => rho x ^ Z.to_nat k end + s)%R 0%R ts.
(** The exponents are positive and at most [D]. *)
Definition exponents_to (D : Z) (ts : list monomial) : Prop :=
  forall x k, In (Some (x, k)) (keys ts) -> (0 < k <= D)%Z.
