(** Expression::FindZeros and its helpers, src/Expression.cpp:14-219. *)
From Coq Require Import String Bool Arith ZArith List.
From Verif Require Import Base Num Expr Simplify.
Import ListNotations.
Open Scope m_scope.
Open Scope Z_scope.

(** [long long]: results of arithmetic outside the 64-bit range are signed
    overflow, which is undefined behaviour. *)
Definition ll_max : Z := 2 ^ 63 - 1.
Definition ll_min : Z := - 2 ^ 63.
Definition ll (z : Z) : M Z :=
  if (ll_min <=? z) && (z <=? ll_max) then ret z else undef IntOverflow.

(** The loop of getAllFactors, src/Expression.cpp:17-21: [i] runs upwards while
    i * i <= n.  [k] bounds the number of iterations. *)
Fixpoint factors_loop (k : nat) (i n : Z) : M (list Z) :=
  match k with
  | O => oof
  | S k =>
    sq <- ll (i * i) ;;
    if sq <=? n then
      r <- factors_loop k (i + 1) n ;;
      ret (if Z.rem n i =? 0 then i :: r else r)
    else ret []
  end.

(** getAllFactors, src/Expression.cpp:14-26.  The number of iterations is at
    most the square root of n, plus the last test. *)
Definition all_factors (n : Z) : M (list Z) :=
  small <- factors_loop (S (Z.to_nat (Z.sqrt n))) 1 n ;;
  a <- ll (Z.abs n) ;;
  ret (if a =? 1 then small else small ++ [a]).

(** The loop of gcf, src/Expression.cpp:33-42.  One unfolding is one round of
    the loop; [k] bounds the number of rounds. *)
Fixpoint gcf_loop (k : nat) (a b : Z) : M Z :=
  match k with
  | O => oof
  | S k =>
    if b =? 0 then undef DivByZero
    else
      let a := Z.rem a b in
      if a =? 0 then ret b
      else
        let b := Z.rem b a in
        if b =? 0 then ret a else gcf_loop k a b
  end.

(** gcf, src/Expression.cpp:28-43.  The remainders shrink, so |b| rounds are
    enough. *)
Definition gcf (a b : Z) : M Z :=
  let (a, b) := if b >? a then (b, a) else (a, b) in
  gcf_loop (S (Z.to_nat (Z.abs b))) a b.

(** The inner loop of the synthetic division, src/Expression.cpp:166-174: the
    values pushed to newTermsC, stopping at the first remainder. *)
Fixpoint horner (mpv qv : Z) (h : Z) (l : list Z) : M (list Z) :=
  match l with
  | [] => ret []
  | i :: l =>
    h <- ll (h * mpv) ;;
    if qv =? 0 then undef DivByZero
    else if negb (Z.rem h qv =? 0) then ret []
    else
      h <- ll (Z.quot h qv + i) ;;
      r <- horner mpv qv h l ;;
      ret (h :: r)
  end.

(** do termsC.pop_back(); while (termsC.back() == 0), src/Expression.cpp:182-184,
    on the reversed list. *)
Fixpoint pop_zeros_rev (l : list Z) : M (list Z) :=
  match l with
  | [] => undef EmptyAccess
  | x :: l => if x =? 0 then pop_zeros_rev l else ret (x :: l)
  end.
Definition pop_zeros (l : list Z) : M (list Z) :=
  match rev l with
  | [] => undef EmptyAccess
  | _ :: r => r <- pop_zeros_rev r ;; ret (rev r)
  end.

(** The while loop, src/Expression.cpp:162-191, for one candidate mpv/qv:
    the remaining terms and whether the candidate was a root at least once.
    Every successful round shortens the list and the last one leaves more than
    one term or stops, so [k] = its length is enough. *)
Fixpoint try_root (k : nat) (mpv qv : Z) (terms : list Z) (found : bool) : M (list Z * bool) :=
  match k with
  | O => oof
  | S k =>
    new <- horner mpv qv 0 terms ;;
    if Nat.eqb (length new) (length terms) && (last new 1 =? 0) then
      t <- pop_zeros new ;;
      if (length t <=? 1)%nat then ret (t, true) else try_root k mpv qv t true
    else ret (terms, found)
  end.

Section Model.
  Context {num : Type} {N : NumOps num}.
  Notation expr := (expr num).
  Variable S : expr -> M expr.

  (** Parts of the result of a cast to Exponent<Variable, Real>, to <..., Variable>
      and to <..., Exponent<Variable, Real>>. *)
  Definition as_varexp (o : option expr) : option (string * num) :=
    match o with Some (EBin _ (EVar x) (EReal k)) => Some (x, k) | _ => None end.
  Definition as_binvarexp (o : option expr) : option (expr * string * num) :=
    match o with Some (EBin _ c (EBin _ (EVar x) (EReal k))) => Some (c, x, k) | _ => None end.

  (** One term of the sum: coefficient, variable name and exponent,
      src/Expression.cpp:66-101.  [name] is varName. *)
  Definition classify (name : string) (e : expr) : expr * string * num :=
    match as_var (rcast PVar e) with
    | Some x => (real 1, x, n1)
    | None =>
    match as_varexp (rcast (PBin OExp PVar PReal) e) with
    | Some (x, k) => (real 1, x, k)
    | None =>
    match as_binvar (rcast (PBin OMul PAny PVar) e) with
    | Some (c, x) => (c, x, n1)
    | None =>
    match as_binvarexp (rcast (PBin OMul PAny (PBin OExp PVar PReal)) e) with
    | Some (c, x, k) => (c, x, k)
    | None =>
    match as_binvar (rcast (PBin ODiv PAny PVar) e) with
    | Some (c, x) => (c, x, nm1)
    | None =>
    match as_binvarexp (rcast (PBin ODiv PAny (PBin OExp PVar PReal)) e) with
    | Some (c, x, k) => (c, x, n_opp k)
    | None => (e, name, n0)
    end end end end end end.

  (** Put [c] at position [k] of the list of coefficients, padding with
      Real(0): src/Expression.cpp:111-114. *)
  Fixpoint add_at (k : nat) (c : expr) (l : list expr) : list expr :=
    match k, l with
    | O, [] => [EAdd c (real 0)]
    | O, x :: l => EAdd c x :: l
    | Datatypes.S k, [] => real 0 :: add_at k c []
    | Datatypes.S k, x :: l => x :: add_at k c l
    end.

  (** The loop over the terms, src/Expression.cpp:65-122.  [None]: return {}.
      A negative exponent indexes negCoefficents with a negative number (120),
      so negCoefficents is always empty and is left out. *)
  Fixpoint coefficients (terms : list expr) (name : string) (pos : list expr) : M (option (string * list expr)) :=
    match terms with
    | [] => ret (Some (name, pos))
    | e :: terms =>
      let '(c, x, k) := classify name e in
      let name := if String.eqb name "" then x else name in
      match n_round k with
      | Some z =>
        if negb (n_eqb k (n_of_Z z)) || negb (String.eqb name x) then ret None
        else if n_leb n0 k then coefficients terms name (add_at (Z.to_nat z) c pos)
        else undef BadIndex
      | None =>
        (* NaN is not equal to its rounding; an infinite exponent is, and
           either exhausts the memory (113) or is negative (120) *)
        if n_eqb k k && String.eqb name x then undef BadIndex else ret None
      end
    end.

  (** while back() is the literal 0: pop_back(), src/Expression.cpp:126-128. *)
  Fixpoint drop_zeros_rev (l : list expr) : list expr :=
    match l with
    | EReal c :: l' => if n_eqb c n0 then drop_zeros_rev l' else l
    | _ => l
    end.

  Fixpoint mapM {A B} (f : A -> M B) (l : list A) : M (list B) :=
    match l with
    | [] => ret []
    | x :: l => y <- f x ;; r <- mapM f l ;; ret (y :: r)
    end.

  (** src/Expression.cpp:139-151: the values of the leading coefficients that
      are integers.  lround outside the range of long is an unspecified value
      in C, BadNumericCast here. *)
  Fixpoint int_values (l : list expr) : M (list Z) :=
    match l with
    | EReal c :: l =>
      match n_round c with
      | Some z =>
        if n_eqb c (n_of_Z z) then
          if (ll_min <=? z) && (z <=? ll_max) then r <- int_values l ;; ret (z :: r)
          else undef BadNumericCast
        else ret []
      | None => if n_eqb c c then undef BadNumericCast else ret []
      end
    | _ => ret []
    end.

  Definition divide_real (p q : Z) : expr := EDiv (EReal (n_of_Z p)) (EReal (n_of_Z q)).

  (** The two signs, src/Expression.cpp:159-192. *)
  Definition try_sign (sign pv qv : Z) (st : list Z * list expr) : M (list Z * list expr) :=
    let (terms, res) := st in
    mpv <- ll (pv * sign) ;;
    tf <- try_root (length terms) mpv qv terms false ;;
    let (terms, found) := tf in
    ret (terms, if found then res ++ [divide_real mpv qv] else res).

  Definition short (st : list Z * list expr) : bool := (length (fst st) <=? 1)%nat.

  (** The loop over qv, src/Expression.cpp:157-197. *)
  Fixpoint try_qs (pv : Z) (qs : list Z) (st : list Z * list expr) : M (list Z * list expr) :=
    match qs with
    | [] => ret st
    | qv :: qs =>
      g <- gcf pv qv ;;
      st <- (if g =? 1 then st <- try_sign (-1) pv qv st ;; try_sign 1 pv qv st else ret st) ;;
      if short st then ret st else try_qs pv qs st
    end.

  (** The loop over pv, src/Expression.cpp:156-201; front() is evaluated anew
      for every pv. *)
  Fixpoint try_ps (ps : list Z) (st : list Z * list expr) : M (list Z * list expr) :=
    match ps with
    | [] => ret st
    | pv :: ps =>
      match fst st with
      | [] => undef EmptyAccess
      | front :: _ =>
        qs <- all_factors front ;;
        st <- try_qs pv qs st ;;
        if short st then ret st else try_ps ps st
      end
    end.

  (** src/Expression.cpp:155-207, on the reversed list of integer
      coefficients: results and remaining coefficients. *)
  Definition rational_roots (terms : list Z) : M (list Z * list expr) :=
    ps <- all_factors (last terms 0) ;;
    try_ps ps (terms, []).

  (** src/Expression.cpp:208-217: linear and quadratic rests *)
  Definition rest_roots (coefs : list expr) : M (list expr) :=
    match coefs with
    | [c0; c1] =>
      r <- m_value (S (EDiv (EMul (real (-1)) c0) c1)) ;; ret [r]
    | [c; b; a] =>
      negb <- m_value (S (EMul (real (-1)) b)) ;;
      disc <- m_value (S (EAdd (EMul b b) (EMul (real (-4)) (EMul a c)))) ;;
      let sqrt := EExp disc (EDiv (real 1) (real 2)) in
      twoA <- m_value (S (EMul (real 2) a)) ;;
      ret [EDiv (EAdd negb sqrt) twoA; EDiv (ESub negb sqrt) twoA]
    | _ => ret []
    end.

  (** Expression::FindZeros, src/Expression.cpp:51-219. *)
  Definition find_zeros (e : expr) : M (list expr) :=
    let terms := match rcast pAdd e with
                 | Some (EBin _ a b) => flatten OAdd a b
                 | _ => [e]
                 end in
    cs <- coefficients terms "" [] ;;
    match cs with
    | None => ret []
    | Some (_, pos) =>
      coefs <- mapM (fun c => m_value (S c)) (rev (drop_zeros_rev (rev pos))) ;;
      if (length coefs <=? 1)%nat then ret []
      else
        ints <- int_values coefs ;;
        if Nat.eqb (length ints) (length coefs) then
          st <- rational_roots (rev ints) ;;
          let (terms, results) := st in
          more <- rest_roots (map (fun z => EReal (n_of_Z z)) (rev terms)) ;;
          ret (results ++ more)
        else rest_roots coefs
    end.
End Model.
