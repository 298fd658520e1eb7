(** The arithmetic the C++ code performs on [double].

    The models are parameterised by these operations, so that every theorem
    about them holds for IEEE doubles and for exact arithmetic alike; nothing
    is assumed about the operations unless a theorem says so. *)
From Coq Require Import ZArith.

(** Operations used by the modelled code, with a typical place of use.
    - [n_add], [n_sub], [n_mul], [n_div]: +, -, *, / on double
      (src/SimplifyVisitor.cpp:98, 364, 491, 880)
    - [n_pow]: pow (src/SimplifyVisitor.cpp:1160)
    - [n_log2]: log2 (src/SimplifyVisitor.cpp:1301)
    - [n_abs]: std::abs (src/SimplifyVisitor.cpp:314)
    - [n_eqb], [n_ltb], [n_leb]: ==, <, <= (src/SimplifyVisitor.cpp:102, 1086, 314)
    - [n_opp]: unary minus (src/SimplifyVisitor.cpp:1448)
    - [n_of_Z]: conversion of an integer literal or of a long long
      (src/Expression.cpp:178, 205)
    - [n_half]: the literal 0.5 (src/SimplifyVisitor.cpp:1196)
    - [n_eps]: EPSILON, std::numeric_limits<float>::epsilon()
      (src/SimplifyVisitor.cpp:28)
    - [n_rem4]: static_cast<int>(std::fmod(x, 4)); [None] when the conversion
      is undefined because fmod gives NaN (src/SimplifyVisitor.cpp:1181)
    - [n_round]: [None] if x is not finite; otherwise the integer nearest to x,
      halves away from zero, as std::round / std::lround
      (src/Expression.cpp:103, 106, 143, 146)
    - [n_pow_exact a b], [n_log2_exact a]: ghost, not part of the source.  They
      say of which calls of pow and log2 the arithmetic promises the exact
      result; the models only use them to record the event [Inexact]. *)
Class NumOps (num : Type) := {
  n_add : num -> num -> num;
  n_sub : num -> num -> num;
  n_mul : num -> num -> num;
  n_div : num -> num -> num;
  n_pow : num -> num -> num;
  n_log2 : num -> num;
  n_abs : num -> num;
  n_opp : num -> num;
  n_eqb : num -> num -> bool;
  n_ltb : num -> num -> bool;
  n_leb : num -> num -> bool;
  n_of_Z : Z -> num;
  n_half : num;
  n_eps : num;
  n_rem4 : num -> option Z;
  n_round : num -> option Z;
  n_pow_exact : num -> num -> bool;
  n_log2_exact : num -> bool
}.

Definition n0 {num} `{NumOps num} : num := n_of_Z 0.
Definition n1 {num} `{NumOps num} : num := n_of_Z 1.
Definition n2 {num} `{NumOps num} : num := n_of_Z 2.
Definition nm1 {num} `{NumOps num} : num := n_of_Z (-1).
