(** Outcomes of running a piece of the C++ code, and the monad used by the
    models of the visitors. *)
From Coq Require Import String ZArith List.
Import ListNotations.

(** Exceptions that can escape from the modelled code.
    [BadCast]: [dynamic_cast] to a reference, src/Pi.cpp:13.
    [BadExpectedAccess]: [std::expected::value()] on an error, e.g.
    src/SimplifyVisitor.cpp:1248.
    [InvalidArgument]: src/Variable.cpp:65. *)
Inductive exn := BadCast | BadExpectedAccess | InvalidArgument.

(** Undefined behaviour, kept as a distinct outcome. *)
Inductive ub :=
| NullDeref          (* dereference of a null unique_ptr *)
| BadIndex           (* out-of-range access *)
| EmptyAccess        (* back()/pop_back()/top() on an empty container *)
| DivByZero          (* integer division or modulo by zero *)
| IntOverflow        (* signed integer overflow *)
| BadNumericCast     (* double to int conversion out of range / NaN *)
| EigenMismatch      (* Eigen operation on operands of different shapes *)
| BadExpectedDeref.  (* operator* on an std::expected that holds an error *)

(** Result of a call.  [Err] is an [std::unexpected] value, [Throw] an escaping
    exception, [Abort] the violation of a gsl_lite::not_null contract
    (std::terminate), [OutOfFuel] the artefact of bounding the recursion depth. *)
Inductive outcome (A : Type) :=
| Ok (a : A)
| Err (msg : string)
| Throw (x : exn)
| Abort
| Undef (u : ub)
| OutOfFuel.
Arguments Ok {A} a.
Arguments Err {A} msg.
Arguments Throw {A} x.
Arguments Abort {A}.
Arguments Undef {A} u.
Arguments OutOfFuel {A}.

(** Ghost events: places where a rewriting step is known not to be justified
    in general.  They have no counterpart in the source and do not influence
    any result; see DESIGN.md, "defect events". *)
Inductive defect :=
| LooseEquals        (* Equals answered true although the operand lists differ as multisets *)
| TinyDropped        (* a non-zero coefficient of magnitude <= EPSILON was treated as 0 *)
| WrongFactor        (* SimplifyVisitor.cpp:678, second factor taken instead of the first *)
| BaseExponentMix    (* SimplifyVisitor.cpp:694, base compared with the other exponent *)
| ExponentFactorLost (* SimplifyVisitor.cpp:1093, factor of a negative exponent dropped *)
| ExponentFlipped    (* SimplifyVisitor.cpp:1093, b^(-e) of the dividend turned into 1/b^e, b may be 0 *)
| PowerOfPower       (* SimplifyVisitor.cpp:1210, (a^b)^c rewritten to a^(b*c) *)
| LogOfPower         (* SimplifyVisitor.cpp:1319, log_a(b^x) rewritten to x*log_a(b) *)
| SqrtNegative       (* SimplifyVisitor.cpp:1198, (-c*x)^0.5 *)
| SineDropped        (* SimplifyVisitor.cpp:1362, sine replaced by its operand *)
| ComplexMagnitude   (* SimplifyVisitor.cpp:1457, |a+i| with a possibly complex *)
| NestedDerivative   (* DifferentiateVisitor.cpp:388, inner derivative ignored *)
| DerivativeRule     (* a differentiation step outside the calculus proved sound *)
| IntegralRule       (* an integration step outside the calculus proved sound *)
| Inexact.           (* a result of pow or log2 is not promised to be exact *)

(** The monad: a trace of ghost events and an outcome. *)
Definition M (A : Type) : Type := (list defect * outcome A)%type.

Definition ret {A} (a : A) : M A := ([], Ok a).
Definition fail {A} (s : string) : M A := ([], Err s).
Definition throw {A} (x : exn) : M A := ([], Throw x).
Definition abort {A} : M A := ([], Abort).
Definition undef {A} (u : ub) : M A := ([], Undef u).
Definition oof {A} : M A := ([], OutOfFuel).
Definition tell (d : list defect) : M unit := (d, Ok tt).

Definition bind {A B} (m : M A) (k : A -> M B) : M B :=
  match m with
  | (t, Ok a) => let r := k a in (t ++ fst r, snd r)
  | (t, Err s) => (t, Err s)
  | (t, Throw x) => (t, Throw x)
  | (t, Abort) => (t, Abort)
  | (t, Undef u) => (t, Undef u)
  | (t, OutOfFuel) => (t, OutOfFuel)
  end.

(** [m_try m]: look at the [std::expected] returned by [m] instead of
    propagating its error. *)
Definition m_try {A} (m : M A) : M (A + string) :=
  match m with
  | (t, Ok a) => (t, Ok (inl a))
  | (t, Err s) => (t, Ok (inr s))
  | (t, Throw x) => (t, Throw x)
  | (t, Abort) => (t, Abort)
  | (t, Undef u) => (t, Undef u)
  | (t, OutOfFuel) => (t, OutOfFuel)
  end.

(** [m_value m]: [std::expected::value()], which throws on an error. *)
Definition m_value {A} (m : M A) : M A :=
  match m with
  | (t, Err _) => (t, Throw BadExpectedAccess)
  | _ => m
  end.

Declare Scope m_scope.
Delimit Scope m_scope with M.
Notation "x <- m ;; k" := (bind m (fun x => k))
  (at level 61, m at next level, right associativity) : m_scope.
Notation "m ;;; k" := (bind m (fun _ => k))
  (at level 61, right associativity) : m_scope.
Open Scope m_scope.
