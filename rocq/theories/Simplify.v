(** SimplifyVisitor, src/SimplifyVisitor.cpp.

    Each rewriting rule of the source is one definition [<visit>_<line>]
    returning [M (option expr)]: [None] when the rule does not apply.  The
    rules of a visit are tried in source order by [first_rule].  Calls of
    [Accept( *this )] go to the parameter [S]; [Calculus.v] ties the knot.
    The checks for null operands at the start of each visit are omitted, as
    operands are never null in the model.

    Statements wrapped in [emit] record ghost events (Base.v) and are not part
    of the source. *)
From Coq Require Import String Bool Arith ZArith List.
From Verif Require Import Base Num Expr Ghost.
Import ListNotations.
Open Scope m_scope.

Section Simplify.
  Context {num : Type} {N : NumOps num}.
  Notation expr := (expr num).

  (** Accept( *this ) of the running SimplifyVisitor. *)
  Variable S : expr -> M expr.
  (** Expression::Differentiate and Expression::Integrate ([None]: nullptr). *)
  Variable D : expr -> expr -> M expr.
  Variable I : expr -> expr -> M (option expr).
  (** options.distributivePolicy == PREFER, include/Oasis/SimplifyVisitor.hpp. *)
  Variable prefer : bool.

  Definition rule := M (option expr).
  Definition no : rule := ret None.
  Definition yes (e : expr) : rule := ret (Some e).
  Definition yesM (m : M expr) : rule := e <- m ;; ret (Some e).
  Definition emit (b : bool) (d : defect) : M unit := tell (if b then [d] else []).

  (** Rules and the final step get the simplified operands (for Magnitude:
      the original and the simplified operand). *)
  Fixpoint first_rule (rs : list (expr -> expr -> rule)) (default : expr -> expr -> M expr)
      (a b : expr) : M expr :=
    match rs with
    | [] => default a b
    | r :: rs =>
      o <- r a b ;;
      match o with Some e => ret e | None => first_rule rs default a b end
    end.

  (** Parts of the result of a cast. *)
  Definition as_real (o : option expr) : option num :=
    match o with Some (EReal c) => Some c | _ => None end.
  Definition as_var (o : option expr) : option string :=
    match o with Some (EVar x) => Some x | _ => None end.
  Definition as_bin (o : option expr) : option (expr * expr) :=
    match o with Some (EBin _ a b) => Some (a, b) | _ => None end.

  Definition as_binvar (o : option expr) : option (expr * string) :=
    match o with Some (EBin _ a (EVar x)) => Some (a, x) | _ => None end.
  Definition as_binreal (o : option expr) : option (expr * num) :=
    match o with Some (EBin _ a (EReal c)) => Some (a, c) | _ => None end.
  Definition as_binmulre (o : option expr) : option (expr * num * expr) :=
    match o with Some (EBin _ a (EBin _ (EReal c) e)) => Some (a, c, e) | _ => None end.

  (** a.Equals(b) where it is used as a condition. *)
  Definition m_eq (a b : expr) : M bool :=
    match equals a b with
    | None => throw BadCast
    | Some c => emit (c && negb (eq_strict a b)) LooseEquals ;;; ret c
    end.

  (** std::abs(c) <= EPSILON. *)
  Definition tiny (c : num) : bool := n_leb (n_abs c) n_eps.

  (** The for loops that look for the first element of [vals] that can be
      combined: [f] returns the replacement, or [None] to go on. *)
  Fixpoint scan (f : expr -> M (option expr)) (l : list expr) : M (option (list expr)) :=
    match l with
    | [] => ret None
    | v :: l' =>
      o <- f v ;;
      match o with
      | Some v' => ret (Some (v' :: l'))
      | None => r <- scan f l' ;; ret (option_map (cons v) r)
      end
    end.

  (** Scan, and push [d] when nothing was found ("if (i >= vals.size())"). *)
  Definition scan_or_push (f : expr -> M (option expr)) (l : list expr) (d : M expr) : M (list expr) :=
    r <- scan f l ;;
    match r with
    | Some l' => ret l'
    | None => e <- d ;; ret (l ++ [e])
    end.

  Fixpoint foldM (f : list expr -> expr -> M (list expr)) (acc : list expr) (l : list expr)
    : M (list expr) :=
    match l with
    | [] => ret acc
    | x :: l => acc' <- f acc x ;; foldM f acc' l
    end.

  (** Simplify both operands, then look at the two results in order,
      e.g. src/SimplifyVisitor.cpp:79-90. *)
  Definition operands (a b : expr) (k : expr -> expr -> M expr) : M expr :=
    ra <- m_try (S a) ;;
    rb <- m_try (S b) ;;
    match ra with
    | inr s => fail s
    | inl a' => match rb with inr s => fail s | inl b' => k a' b' end
    end.

  Definition real (z : Z) : expr := EReal (n_of_Z z).
  Definition half : expr := EReal n_half.

  (** Shapes used in casts. *)
  Definition pMulRE := PBin OMul PReal PAny.
  Definition pMul := PBin OMul PAny PAny.
  Definition pAdd := PBin OAdd PAny PAny.
  Definition pSub := PBin OSub PAny PAny.
  Definition pDiv := PBin ODiv PAny PAny.
  Definition pExp := PBin OExp PAny PAny.
  Definition pLog := PBin OLog PAny PAny.
  Definition pMulImag := PBin OMul PAny PImag.
  Definition pMulVar := PBin OMul PAny PVar.
  Definition pMulExp := PBin OMul PAny pExp.
  Definition pExpImag := PBin OExp PImag PAny.
  Definition pExpVar := PBin OExp PVar PAny.
  Definition pExpReal := PBin OExp PAny PReal.

  (** ** Matrices (Eigen) *)

  Definition mget (cols : nat) (d : list num) (i j : nat) : num := nth (i * cols + j) d n0.
  Fixpoint mzip (f : num -> num -> num) (a b : list num) : list num :=
    match a, b with x :: a, y :: b => f x y :: mzip f a b | _, _ => [] end.
  Definition mtab (rows cols : nat) (f : nat -> nat -> num) : list num :=
    flat_map (fun i => map (fun j => f i j) (seq 0 cols)) (seq 0 rows).
  (** Sum of the products of a row and a column.  The order of summation,
      which Eigen does not fix, is left to right here. *)
  Definition mdot (n : nat) (f : nat -> num) : num :=
    match n with
    | O => n0
    | Datatypes.S n' => fold_left (fun acc k => n_add acc (f k)) (seq 1 n') (f 0)
    end.

  (** ** Add, src/SimplifyVisitor.cpp:68-331 *)

  (* 94-99 *)
  Definition add_94 (a b : expr) : rule :=
    match rcast (PBin OAdd PReal PReal) (EAdd a b) with
    | Some (EBin _ (EReal x) (EReal y)) => yes (EReal (n_add x y))
    | _ => no
    end.

  (* 101-105 *)
  Definition add_101 (a b : expr) : rule :=
    match rcast (PBin OAdd PReal PAny) (EAdd a b) with
    | Some (EBin _ (EReal x) e) => if n_eqb x n0 then yes e else no
    | _ => no
    end.

  (* 107-117 *)
  Definition add_107 (a b : expr) : rule :=
    match rcast (PBin OAdd pMulRE pMulRE) (EAdd a b) with
    | Some (EBin _ (EBin _ (EReal c1) l) (EBin _ (EReal c2) r)) =>
      q <- m_eq l r ;;
      if q then yes (EMul (EReal (n_add c1 c2)) l) else no
    | _ => no
    end.

  (* 120-129 *)
  Definition add_120 (a b : expr) : rule :=
    match rcast (PBin OAdd PMat PMat) (EAdd a b) with
    | Some (EBin _ (EMat r1 c1 d1) (EMat r2 c2 d2)) =>
      if Nat.eqb r1 r2 && Nat.eqb c1 c2 then yes (EMat r1 c1 (mzip n_add d1 d2))
      else yes (EAdd (EMat r1 c1 d1) (EMat r2 c2 d2))
    | _ => no
    end.

  (* 132-138 *)
  Definition add_132 (a b : expr) : rule :=
    match rcast (PBin OAdd pLog pLog) (EAdd a b) with
    | Some (EBin _ (EBin _ b1 a1) (EBin _ b2 a2)) =>
      q <- m_eq b1 b2 ;;
      if q then yes (ELog b1 (EMul a1 a2)) else no
    | _ => no
    end.

  (* 141-143 *)
  Definition add_141 (a b : expr) : rule :=
    q <- m_eq a b ;;
    if q then yesM (S (EMul (real 2) a)) else no.

  (* 146-151 *)
  Definition add_146 (a b : expr) : rule :=
    match rcast (PBin OAdd pMulRE PAny) (EAdd a b) with
    | Some (EBin _ (EBin _ (EReal c) e) r) =>
      q <- m_eq e r ;;
      if q then yes (EMul (EReal (n_add c n1)) e) else no
    | _ => no
    end.

  (* 158-291: one addend of the flattened sum is merged into [vals] *)
  Definition add_collect_img (coef : expr) (v : expr) : M (option expr) :=
    match rcast pMulImag v with
    | Some (EBin _ c _) => s <- S (EAdd c coef) ;; ret (Some (EMul s EImag))
    | _ => ret None
    end.

  Definition add_collect_var (x : string) (coef : expr) (v : expr) : M (option expr) :=
    match rcast pMulVar v with
    | Some (EBin _ c (EVar y)) =>
      if String.eqb y x then s <- S (EAdd c coef) ;; ret (Some (EMul s (EVar y)))
      else ret None
    | _ => ret None
    end.

  Definition add_collect_exp (t : expr) (coef : expr) (use_val : bool) (v : expr) : M (option expr) :=
    match rcast pMulExp v with
    | Some (EBin _ c t') =>
      q <- m_eq t' t ;;
      if q then s <- S (EAdd c coef) ;; ret (Some (EMul s (if use_val then t' else t)))
      else ret None
    | _ => ret None
    end.

  Definition add_collect (vals : list expr) (addend : expr) : M (list expr) :=
    match as_real (rcast PReal addend) with
    | Some x =>                                                   (* 161-173 *)
      scan_or_push (fun v => match v with
                             | EReal y => ret (Some (EReal (n_add y x)))
                             | _ => ret None
                             end) vals (ret addend)
    | None =>
    match rcast PImag addend with
    | Some _ =>                                                   (* 175-190 *)
      scan_or_push (add_collect_img (real 1)) vals (ret (EMul (real 1) EImag))
    | None =>
    match as_bin (rcast pMulImag addend) with
    | Some (c, i) =>                                              (* 192-207 *)
      scan_or_push (add_collect_img c) vals (ret (EMul c i))
    | None =>
    match as_var (rcast PVar addend) with
    | Some x =>                                                   (* 209-227 *)
      scan_or_push (add_collect_var x (real 1)) vals (ret (EMul (real 1) (EVar x)))
    | None =>
    match as_binvar (rcast pMulVar addend) with
    | Some (c, x) =>                                              (* 229-248 *)
      scan_or_push (add_collect_var x c) vals (ret (EMul c (EVar x)))
    | None =>
    match rcast pExp addend with
    | Some t =>                                                   (* 250-268 *)
      scan_or_push (add_collect_exp t (real 1) false) vals (ret (EMul (real 1) t))
    | None =>
    match as_bin (rcast pMulExp addend) with
    | Some (c, t) =>                                              (* 270-288 *)
      scan_or_push (add_collect_exp t c true) vals (ret (EMul c t))
    | None => ret (vals ++ [addend])                              (* 290-292 *)
    end end end end end end end.

  (* 296-302 *)
  Definition strip_coef (v : expr) : expr :=
    match rcast pMulRE v with
    | Some (EBin _ (EReal c) e) => if n_eqb c n1 then e else v
    | _ => v
    end.

  (* 305-318 *)
  Definition add_zero (v : expr) : bool :=
    match rcast PReal v with
    | Some (EReal c) => tiny c
    | _ => match rcast pMulRE v with
           | Some (EBin _ (EReal c) _) => tiny c
           | _ => false
           end
    end.
  (* ghost: the dropped addend is not zero *)
  Definition add_zero_bad (v : expr) : bool :=
    match rcast PReal v with
    | Some (EReal c) => tiny c && negb (n_eqb c n0)
    | _ => match rcast pMulRE v with
           | Some (EBin _ (EReal c) _) => tiny c && negb (n_eqb c n0)
           | _ => false
           end
    end.

  (* 154-330 *)
  Definition add_rest (a b : expr) : M expr :=
    vals <- foldM add_collect [] (flatten OAdd a b) ;;
    let vals := map strip_coef vals in
    emit (existsb add_zero_bad vals) TinyDropped ;;;
    match build OAdd (filter (fun v => negb (add_zero v)) vals) with
    | Some e => ret e
    | None => ret (EAdd a b)
    end.

  Definition add_rules : list (expr -> expr -> rule) :=
    [add_94; add_101; add_107; add_120; add_132; add_141; add_146].

  Definition visit_add (a b : expr) : M expr :=
    operands a b (first_rule add_rules add_rest).

  (** ** Subtract, src/SimplifyVisitor.cpp:333-451 *)

  (* 360-365 *)
  Definition sub_360 (a b : expr) : rule :=
    match rcast (PBin OSub PReal PReal) (ESub a b) with
    | Some (EBin _ (EReal x) (EReal y)) => yes (EReal (n_sub x y))
    | _ => no
    end.

  (* 368-370 *)
  Definition sub_368 (a b : expr) : rule :=
    q <- m_eq a b ;; if q then yes (real 0) else no.

  (* 372-381; the second conjunct compares the left columns with themselves *)
  Definition sub_372 (a b : expr) : rule :=
    match rcast (PBin OSub PMat PMat) (ESub a b) with
    | Some (EBin _ (EMat r1 c1 d1) (EMat r2 c2 d2)) =>
      if Nat.eqb r1 r2 && Nat.eqb c1 c1 then
        if Nat.eqb c1 c2 then yes (EMat r1 c1 (mzip n_sub d1 d2)) else undef EigenMismatch
      else yes (ESub (EMat r1 c1 d1) (EMat r2 c2 d2))
    | _ => no
    end.

  (* 384-389 *)
  Definition sub_384 (a b : expr) : rule :=
    match rcast (PBin OSub pMul PAny) (ESub a b) with
    | Some (EBin _ (EBin _ c x) y) =>
      q <- m_eq x y ;;
      if q then yesM (S (EMul (ESub c (real 1)) y)) else no
    | _ => no
    end.

  (* 392-397 *)
  Definition sub_392 (a b : expr) : rule :=
    match rcast (PBin OSub PAny pMul) (ESub a b) with
    | Some (EBin _ x (EBin _ c y)) =>
      q <- m_eq x y ;;
      if q then yesM (S (EMul (ESub (real 1) c) x)) else no
    | _ => no
    end.

  (* 400-405 *)
  Definition sub_400 (a b : expr) : rule :=
    match rcast (PBin OSub pMul pMul) (ESub a b) with
    | Some (EBin _ (EBin _ c1 x) (EBin _ c2 y)) =>
      q <- m_eq x y ;;
      if q then yesM (S (EMul (ESub c1 c2) y)) else no
    | _ => no
    end.

  (* 408-414 *)
  Definition sub_408 (a b : expr) : rule :=
    match rcast (PBin OSub pLog pLog) (ESub a b) with
    | Some (EBin _ (EBin _ b1 a1) (EBin _ b2 a2)) =>
      q <- m_eq b1 b2 ;;
      if q then yes (ELog b1 (EDiv a1 a2)) else no
    | _ => no
    end.

  (* 418-433 *)
  Definition sub_418 (a b : expr) : rule :=
    match rcast pAdd b with
    | Some (EBin _ x y) =>
      ms <- S (EMul (real (-1)) x) ;;
      ls <- S (EMul (real (-1)) y) ;;
      rhs <- S (EAdd ms ls) ;;
      yesM (S (EAdd a rhs))
    | _ => no
    end.

  (* 434-449 *)
  Definition sub_434 (a b : expr) : rule :=
    match rcast pSub b with
    | Some (EBin _ x y) =>
      ms <- S (EMul (real (-1)) x) ;;
      ls <- S y ;;
      rhs <- S (EAdd ms ls) ;;
      yesM (S (EAdd a rhs))
    | _ => no
    end.

  Definition sub_rules : list (expr -> expr -> rule) :=
    [sub_360; sub_368; sub_372; sub_384; sub_392; sub_400;
     sub_408; sub_418; sub_434].

  (* 450 *)
  Definition visit_sub (a b : expr) : M expr :=
    operands a b (first_rule sub_rules (fun a b => S (EAdd a (EMul (real (-1)) b)))).

  (** ** Multiply, src/SimplifyVisitor.cpp:453-849 *)

  (* 478-487 *)
  Definition mul_478 (a b : expr) : rule :=
    match rcast (PBin OMul PReal PAny) (EMul a b) with
    | Some (EBin _ (EReal c) e) =>
      if tiny c then emit (negb (n_eqb c n0)) TinyDropped ;;; yes (real 0)
      else if n_eqb c n1 then yesM (S e) else no
    | _ => no
    end.

  (* 488-492 *)
  Definition mul_488 (a b : expr) : rule :=
    match rcast (PBin OMul PReal PReal) (EMul a b) with
    | Some (EBin _ (EReal x) (EReal y)) => yes (EReal (n_mul x y))
    | _ => no
    end.

  (* 494-496 *)
  Definition mul_494 (a b : expr) : rule :=
    match rcast (PBin OMul PImag PImag) (EMul a b) with
    | Some _ => yes (real (-1))
    | _ => no
    end.

  (* 498-504 *)
  Definition mul_498 (a b : expr) : rule :=
    match rcast (PBin OMul PReal pDiv) (EMul a b) with
    | Some (EBin _ c (EBin _ n d)) => m <- S (EMul c n) ;; yes (EDiv m d)
    | _ => no
    end.

  (* 506-510 *)
  Definition mul_506 (a b : expr) : rule :=
    q <- m_eq a b ;; if q then yes (EExp a (real 2)) else no.

  (* 512-514 *)
  Definition mul_512 (a b : expr) : rule :=
    match rcast (PBin OMul PReal PMat) (EMul a b) with
    | Some (EBin _ (EReal c) (EMat r k d)) => yes (EMat r k (map (fun x => n_mul x c) d))
    | _ => no
    end.

  (* 516-526 *)
  Definition mul_516 (a b : expr) : rule :=
    match rcast (PBin OMul PMat PMat) (EMul a b) with
    | Some (EBin _ (EMat r1 c1 d1) (EMat r2 c2 d2)) =>
      if Nat.eqb c1 r2 then
        yes (EMat r1 c2 (mtab r1 c2 (fun i j =>
               mdot c1 (fun k => n_mul (mget c1 d1 i k) (mget c2 d2 k j)))))
      else yes (EMul (EMat r1 c1 d1) (EMat r2 c2 d2))
    | _ => no
    end.

  (* 528-534 *)
  Definition mul_528 (a b : expr) : rule :=
    match rcast (PBin OMul PAny pDiv) (EMul a b) with
    | Some (EBin _ e (EBin _ n d)) => m <- S (EMul e n) ;; yesM (S (EDiv m d))
    | _ => no
    end.

  (* 536-546; never reached, because 528 accepts whatever this accepts *)
  Definition mul_536 (a b : expr) : rule :=
    match rcast (PBin OMul pDiv pDiv) (EMul a b) with
    | Some (EBin _ (EBin _ n1 d1 as l) (EBin _ n2 d2)) =>
      m <- S (EMul l n2) ;;
      n <- S (EMul d1 d2) ;;
      yesM (S (EDiv m n))
    | _ => no
    end.

  (* 548-556, repeated at 559-567 *)
  Definition mul_548 (a b : expr) : rule :=
    match rcast (PBin OMul PAny pExp) (EMul a b) with
    | Some (EBin _ e (EBin _ x n)) =>
      q <- m_eq e x ;;
      if q then m <- S (EAdd n (real 1)) ;; yes (EExp e m) else no
    | _ => no
    end.

  (* 569-577 *)
  Definition mul_569 (a b : expr) : rule :=
    match rcast (PBin OMul pExp PAny) (EMul a b) with
    | Some (EBin _ (EBin _ x n) e) =>
      q <- m_eq e x ;;
      if q then m <- S (EAdd n (real 1)) ;; yes (EExp e m) else no
    | _ => no
    end.

  (* 580-588 *)
  Definition mul_580 (a b : expr) : rule :=
    match rcast (PBin OMul pExp pExp) (EMul a b) with
    | Some (EBin _ (EBin _ x n) (EBin _ y m)) =>
      q <- m_eq x y ;;
      if q then k <- S (EAdd n m) ;; yes (EExp x k) else no
    | _ => no
    end.

  (* 591-596 *)
  Definition mul_591 (a b : expr) : rule :=
    match rcast (PBin OMul pMul PAny) (EMul a b) with
    | Some (EBin _ (EBin _ c x) y) =>
      q <- m_eq x y ;;
      if q then yes (EMul c (EExp x (real 2))) else no
    | _ => no
    end.

  (* 599-611 *)
  Definition mul_599 (a b : expr) : rule :=
    match rcast (PBin OMul pMul pMul) (EMul a b) with
    | Some (EBin _ (EBin _ c x) (EBin _ d y)) =>
      q <- m_eq x y ;;
      if q then
        m <- S (EMul c d) ;;
        l <- S (EExp x (real 2)) ;;
        yes (EMul m l)
      else no
    | _ => no
    end.

  (* 614-623 *)
  Definition mul_614 (a b : expr) : rule :=
    match rcast (PBin OMul pMulExp PAny) (EMul a b) with
    | Some (EBin _ (EBin _ c (EBin _ x n)) y) =>
      q <- m_eq x y ;;
      if q then m <- S (EAdd n (real 1)) ;; yes (EMul c (EExp x m)) else no
    | _ => no
    end.

  (* 626-643 *)
  Definition mul_626 (a b : expr) : rule :=
    match rcast (PBin OMul pMul pExp) (EMul a b) with
    | Some (EBin _ (EBin _ c x) (EBin _ y n)) =>
      q <- m_eq x y ;;
      if q then m <- S (EAdd n (real 1)) ;; yes (EMul c (EExp x m))
      else
        q' <- m_eq c y ;;
        if q' then m <- S (EAdd n (real 1)) ;; yes (EMul x (EExp c m)) else no
    | _ => no
    end.

  (* 646-659 *)
  Definition mul_646 (a b : expr) : rule :=
    match rcast (PBin OMul pMul pMulExp) (EMul a b) with
    | Some (EBin _ (EBin _ c x) (EBin _ d (EBin _ y n))) =>
      q <- m_eq x y ;;
      if q then
        m <- S (EMul c d) ;;
        k <- S (EAdd n (real 1)) ;;
        yes (EMul m (EExp x k))
      else no
    | _ => no
    end.

  (* 661-674 *)
  Definition mul_661 (a b : expr) : rule :=
    match rcast (PBin OMul pMul (PBin OMul pExp PAny)) (EMul a b) with
    | Some (EBin _ (EBin _ c x) (EBin _ (EBin _ y n) d)) =>
      q <- m_eq x y ;;
      if q then
        m <- S (EMul c d) ;;
        k <- S (EAdd n (real 1)) ;;
        yes (EMul m (EExp x k))
      else no
    | _ => no
    end.

  (* 676-689; line 678 multiplies by the second factor [y], not by [d] *)
  Definition mul_676 (a b : expr) : rule :=
    match rcast (PBin OMul pMulExp pMul) (EMul a b) with
    | Some (EBin _ (EBin _ c (EBin _ x n)) (EBin _ d y)) =>
      q <- m_eq x y ;;
      if q then
        emit (negb (eq_strict d y)) WrongFactor ;;;
        m <- S (EMul c y) ;;
        k <- S (EAdd n (real 1)) ;;
        yes (EMul m (EExp y k))
      else no
    | _ => no
    end.

  (* 692-703; line 693 compares the base [x] with the exponent [m], line 694
     adds the base [y] to the exponent [n] *)
  Definition mul_692 (a b : expr) : rule :=
    match rcast (PBin OMul pMulExp pExp) (EMul a b) with
    | Some (EBin _ (EBin _ c (EBin _ x n)) (EBin _ y m)) =>
      q <- m_eq x m ;;
      if q then
        emit (negb (eq_strict y m)) BaseExponentMix ;;;
        k <- S (EAdd y n) ;;
        yes (EMul c (EExp x k))
      else no
    | _ => no
    end.

  (* 706-721 *)
  Definition mul_706 (a b : expr) : rule :=
    match rcast (PBin OMul pMulExp pMulExp) (EMul a b) with
    | Some (EBin _ (EBin _ c (EBin _ x n)) (EBin _ d (EBin _ y m))) =>
      q <- m_eq x y ;;
      if q then
        p <- S (EMul c d) ;;
        k <- S (EAdd m n) ;;
        yes (EMul p (EExp x k))
      else no
    | _ => no
    end.

  (* 723-732 *)
  Definition mul_723 (a b : expr) : rule :=
    match rcast (PBin OMul PReal pAdd) (EMul a b) with
    | Some (EBin _ (EReal c as lhs) (EBin _ x y)) =>
      if prefer || tiny (n_add c n1) then yesM (S (EAdd (EMul lhs x) (EMul lhs y))) else no
    | _ => no
    end.

  (* 738-831: one factor of the flattened product is merged into [vals] *)
  Definition mul_collect_img (n : expr) (v : expr) : M (option expr) :=
    match rcast pExpImag v with
    | Some (EBin _ _ m) => s <- S (EAdd m n) ;; ret (Some (EExp EImag s))
    | _ => ret None
    end.

  Definition mul_collect_exp (x n : expr) (v : expr) : M (option expr) :=
    match rcast pExp v with
    | Some (EBin _ y m) =>
      q <- m_eq y x ;;
      if q then s <- S (EAdd m n) ;; ret (Some (EExp y s)) else ret None
    | _ => ret None
    end.

  (* 814-823: the new exponent is computed before the comparison *)
  Definition mul_collect_any (e : expr) (v : expr) : M (option expr) :=
    match rcast pExp v with
    | Some (EBin _ y m) =>
      s <- S (EAdd m (real 1)) ;;
      q <- m_eq y e ;;
      if q then ret (Some (EExp y s)) else ret None
    | _ => ret None
    end.

  Definition mul_collect (vals : list expr) (factor : expr) : M (list expr) :=
    match as_real (rcast PReal factor) with
    | Some x =>                                                   (* 740-752 *)
      scan_or_push (fun v => match v with
                             | EReal y => ret (Some (EReal (n_mul y x)))
                             | _ => ret None
                             end) vals (ret factor)
    | None =>
    match rcast PImag factor with
    | Some _ =>                                                   (* 754-770 *)
      scan_or_push (mul_collect_img (real 1)) vals (ret (EExp EImag (real 1)))
    | None =>
    match as_bin (rcast pExpImag factor) with
    | Some (i, n) =>                                              (* 772-789 *)
      scan_or_push (mul_collect_img n) vals (ret (EExp i n))
    | None =>
    match as_bin (rcast pExp factor) with
    | Some (x, n) =>                                              (* 791-810 *)
      scan_or_push (mul_collect_exp x n) vals (ret (EExp x n))
    | None =>                                                     (* 812-830 *)
      scan_or_push (mul_collect_any factor) vals (ret (EExp factor (real 1)))
    end end end end.

  (* 836-840 and 1104-1110 *)
  Definition strip_exp (v : expr) : expr :=
    match rcast pExpReal v with
    | Some (EBin _ x (EReal c)) => if n_eqb c n1 then x else v
    | _ => v
    end.

  (* 734-848; gsl_lite::not_null of a null pointer ends the program *)
  Definition mul_rest (a b : expr) : M expr :=
    vals <- foldM mul_collect [] (flatten OMul a b) ;;
    match build OMul (map (fun v => strip_coef (strip_exp v)) vals) with
    | Some e => ret e
    | None => abort
    end.

  Definition mul_rules : list (expr -> expr -> rule) :=
    [mul_478; mul_488; mul_494; mul_498; mul_506; mul_512; mul_516;
     mul_528; mul_536; mul_548; mul_548; mul_569; mul_580; mul_591;
     mul_599; mul_614; mul_626; mul_646; mul_661; mul_676; mul_692;
     mul_706; mul_723].

  Definition visit_mul (a b : expr) : M expr :=
    operands a b (first_rule mul_rules mul_rest).

  (** ** Divide, src/SimplifyVisitor.cpp:851-1133 *)

  (* 877-881 *)
  Definition div_877 (a b : expr) : rule :=
    match rcast (PBin ODiv PReal PReal) (EDiv a b) with
    | Some (EBin _ (EReal x) (EReal y)) => yes (EReal (n_div x y))
    | _ => no
    end.

  (* 884-890 *)
  Definition div_884 (a b : expr) : rule :=
    match rcast (PBin ODiv pLog pLog) (EDiv a b) with
    | Some (EBin _ (EBin _ b1 a1) (EBin _ b2 a2)) =>
      q <- m_eq b1 b2 ;;
      if q then yes (ELog a2 a1) else no
    | _ => no
    end.

  (* 898-908 *)
  Definition factors (e : expr) : list expr :=
    match rcast pMul e with
    | Some (EBin _ x y) => flatten OMul x y
    | _ => [e]
    end.

  (* 912-938: quotients among the factors of the dividend are split.  The casts
     of a Divide to Multiply at 916 and 922 never succeed. *)
  Definition split_div (nums : list expr) : list expr * list expr :=
    (map (fun e => match e with EBin ODiv n _ => n | _ => e end) nums,
     flat_map (fun e => match e with EBin ODiv _ d => [d] | _ => [] end) nums).

  (* 966-980 *)
  Definition div_by_var (x : string) (v : expr) : M (option expr) :=
    match as_bin (rcast pExpVar v) with
    | Some (y, n) =>
      q <- m_eq y (EVar x) ;;
      if q then s <- S (ESub n (real 1)) ;; ret (Some (EExp (EVar x) s)) else ret None
    | None =>
      match rcast PVar v with
      | Some y => q <- m_eq y (EVar x) ;; if q then ret (Some (real 1)) else ret None
      | None => ret None
      end
    end.

  (* 987-1008; line 1001 compares the variable with the whole power, which is
     never Equal *)
  Definition div_by_varexp (x n : expr) (v : expr) : M (option expr) :=
    match as_bin (rcast pExpVar v) with
    | Some (y, m) =>
      q <- m_eq y x ;;
      if q then s <- S (ESub m n) ;; ret (Some (EExp x s)) else ret None
    | None =>
      match rcast PVar v with
      | Some y =>
        q <- m_eq y (EExp x n) ;;
        if q then s <- S (ESub (real 1) n) ;; ret (Some (EExp x s)) else ret None
      | None => ret None
      end
    end.

  (* 1014-1041 *)
  Definition div_by_exp (x n : expr) (v : expr) : M (option expr) :=
    match as_bin (rcast pExp v) with
    | Some (y, m) =>
      q <- m_eq x y ;;
      if q then
        s <- S (ESub m n) ;;
        r <- S (EExp x s) ;;
        ret (Some r)
      else ret None
    | None =>
      q <- m_eq v x ;;
      if q then
        s <- S (ESub (real 1) n) ;;
        r <- S (EExp x s) ;;
        ret (Some r)
      else ret None
    end.

  (* 1050-1066 *)
  Definition div_by_any (d : expr) (v : expr) : M (option expr) :=
    match as_bin (rcast pExp v) with
    | Some (y, m) =>
      q <- m_eq d y ;;
      if q then
        s <- S (ESub m (real 1)) ;;
        r <- S (EExp d s) ;;
        ret (Some r)
      else ret None
    | None =>
      q <- m_eq v d ;;
      if q then ret (Some (real 1)) else ret None
    end.

  (* 940-1071: one factor of the divisor is cancelled against [result] *)
  Definition div_collect (result : list expr) (denom : expr) : M (list expr) :=
    match as_real (rcast PReal denom) with
    | Some x =>                                                   (* 942-953 *)
      scan_or_push (fun v => match v with
                             | EReal y => ret (Some (EReal (n_div y x)))
                             | _ => ret None
                             end) result (ret (EReal (n_div n1 x)))
    | None =>
    match rcast PImag denom with
    | Some _ =>                                                   (* 954-965 *)
      scan_or_push (fun v => match v with
                             | EImag => ret (Some (real 1))
                             | _ => ret None
                             end) result (ret (EExp EImag (real (-1))))
    | None =>
    match as_var (rcast PVar denom) with
    | Some x =>                                                   (* 966-986 *)
      scan_or_push (div_by_var x) result (ret (EExp (EVar x) (real (-1))))
    | None =>
    match as_bin (rcast pExpVar denom) with
    | Some (x, n) =>                                              (* 987-1013 *)
      scan_or_push (div_by_varexp x n) result (ret (EExp x (EMul (real (-1)) n)))
    | None =>
    match as_bin (rcast pExp denom) with
    | Some (x, n) =>                                              (* 1014-1049 *)
      scan_or_push (div_by_exp x n) result (S (EExp x (EMul (real (-1)) n)))
    | None =>                                                     (* 1050-1070 *)
      scan_or_push (div_by_any denom) result (ret (EExp denom (real (-1))))
    end end end end end.

  (* 1074-1101: where a factor of the result goes: [inl] numerator,
     [inr] denominator, [None] dropped *)
  Definition div_place (v : expr) : option (expr + expr) :=
    match as_real (rcast PReal v) with
    | Some c => if n_eqb c n1 then None else Some (inl v)
    | None =>
    match rcast PVar v with
    | Some _ => Some (inl v)
    | None =>
    match rcast PImag v with
    | Some _ => Some (inl v)
    | None =>
    match as_binreal (rcast pExpReal v) with
    | Some (x, c) =>
      if n_ltb c n0 then Some (inr (EExp x (EReal (n_mul c nm1)))) else Some (inl v)
    | None =>
    match as_binmulre (rcast (PBin OExp PAny pMulRE) v) with
    | Some (x, c, e) =>
      if n_ltb c n0 then Some (inr (EExp x e)) else Some (inl v)
    | None => Some (inl v)
    end end end end end.

  (* ghost: the last branch changes the exponent, or moves a power of a
     factor of the dividend, whose base may be 0, into the divisor *)
  Definition div_place_bad (origs : list expr) (v : expr) : list defect :=
    match as_binmulre (rcast (PBin OExp PAny pMulRE) v) with
    | Some (x, c, e) =>
      if n_ltb c n0 then
        if n_eqb c nm1 then
          if existsb (fun o => eq_strict o v) origs then [ExponentFlipped] else []
        else [ExponentFactorLost]
      else []
    | None => []
    end.

  Fixpoint partition_place (l : list expr) : list expr * list expr :=
    match l with
    | [] => ([], [])
    | v :: l =>
      let (n, d) := partition_place l in
      match div_place v with
      | None => (n, d)
      | Some (inl x) => (x :: n, d)
      | Some (inr x) => (n, x :: d)
      end
    end.

  (* 1118-1119 *)
  Definition one_or_build (l : list expr) : option expr :=
    match l with [e] => Some e | _ => build OMul l end.

  (* 892-1132 *)
  Definition div_rest (a b : expr) : M expr :=
    let (result, extra) := split_div (factors a) in
    let denominator := factors b ++ extra in
    vals <- foldM div_collect result denominator ;;
    tell (flat_map (div_place_bad result) vals) ;;;
    let (n, d) := partition_place vals in
    match one_or_build (map strip_exp n), one_or_build (map strip_exp d) with
    | None, Some q => ret (EDiv (real 1) q)
    | Some p, None => ret p
    | None, None => ret (real 1)
    | Some p, Some q => ret (EDiv p q)
    end.

  Definition div_rules : list (expr -> expr -> rule) := [div_877; div_884].

  Definition visit_div (a b : expr) : M expr :=
    operands a b (first_rule div_rules div_rest).

  (** ** Exponent, src/SimplifyVisitor.cpp:1135-1250
      The cases of the MatchCast, include/Oasis/MatchCast.hpp:54-68: the first
      whose cast and check succeed is used; an error of its transformer makes
      [.value()] at 1248 throw. *)

  (* 1139-1147 *)
  Definition exp_1139 (a b : expr) : rule :=
    match rcast (PBin OExp PAny PReal) (EExp a b) with
    | Some (EBin _ _ (EReal p)) => if n_eqb p n0 then yes (real 1) else no
    | _ => no
    end.

  (* 1148-1155 *)
  Definition exp_1148 (a b : expr) : rule :=
    match rcast (PBin OExp PReal PAny) (EExp a b) with
    | Some (EBin _ (EReal x) _) => if n_eqb x n0 then yes (real 0) else no
    | _ => no
    end.

  (* 1156-1162 *)
  Definition exp_1156 (a b : expr) : rule :=
    match rcast (PBin OExp PReal PReal) (EExp a b) with
    | Some (EBin _ (EReal x) (EReal p)) =>
      emit (negb (n_pow_exact x p)) Inexact ;;; yes (EReal (n_pow x p))
    | _ => no
    end.

  (* 1163-1170 *)
  Definition exp_1163 (a b : expr) : rule :=
    match rcast (PBin OExp PAny PReal) (EExp a b) with
    | Some (EBin _ x (EReal p)) => if n_eqb p n1 then yes x else no
    | _ => no
    end.

  (* 1171-1178 *)
  Definition exp_1171 (a b : expr) : rule :=
    match rcast (PBin OExp PReal PAny) (EExp a b) with
    | Some (EBin _ (EReal x) _) => if n_eqb x n1 then yes (real 1) else no
    | _ => no
    end.

  (* 1179-1195 *)
  Definition exp_1179 (a b : expr) : rule :=
    match rcast (PBin OExp PImag PReal) (EExp a b) with
    | Some (EBin _ _ (EReal p)) =>
      match n_rem4 p with
      | None => undef BadNumericCast
      | Some 0%Z => yes (real 1)
      | Some 1%Z => yes EImag
      | Some 2%Z => yes (real (-1))
      | Some 3%Z => yes (ENeg EImag)
      | Some _ => throw BadExpectedAccess
      end
    | _ => no
    end.

  (* 1196-1208 *)
  Definition exp_1196 (a b : expr) : rule :=
    match rcast (PBin OExp pMulRE PReal) (EExp a b) with
    | Some (EBin _ (EBin _ (EReal c) e) (EReal p)) =>
      if n_ltb c n0 && n_eqb p n_half then
        emit true SqrtNegative ;;;
        yes (EMul (EMul (EReal (n_pow (n_abs c) n_half)) (EExp e half)) EImag)
      else no
    | _ => no
    end.

  (* 1209-1218 *)
  Definition exp_1209 (a b : expr) : rule :=
    match rcast (PBin OExp pExp PAny) (EExp a b) with
    | Some (EBin _ (EBin _ x n) p) =>
      emit (negb (int_literal p || evident_pos x)) PowerOfPower ;;;
      m <- m_value (S (EMul n p)) ;;
      yes (EExp x m)
    | _ => no
    end.

  (* 1219-1226 *)
  Definition exp_1219 (a b : expr) : rule :=
    match rcast (PBin OExp PAny pLog) (EExp a b) with
    | Some (EBin _ x (EBin _ y z)) => q <- m_eq x y ;; if q then yes z else no
    | _ => no
    end.

  Definition exp_rules : list (expr -> expr -> rule) :=
    [exp_1139; exp_1148; exp_1156; exp_1163; exp_1171; exp_1179;
     exp_1196; exp_1209; exp_1219].

  Definition visit_exp (a b : expr) : M expr :=
    operands a b (first_rule exp_rules (fun a b => ret (EExp a b))).

  (** ** Log, src/SimplifyVisitor.cpp:1252-1327 *)

  (* 1279-1283 *)
  Definition log_1279 (a b : expr) : rule :=
    match rcast (PBin OLog PReal PAny) (ELog a b) with
    | Some (EBin _ (EReal x) _) => if n_leb x n0 || n_eqb x n1 then yes EUndef else no
    | _ => no
    end.

  (* 1285-1295 *)
  Definition log_1285 (a b : expr) : rule :=
    match rcast (PBin OLog PAny PReal) (ELog a b) with
    | Some (EBin _ _ (EReal x)) =>
      if n_leb x n0 then yes EUndef else if n_eqb x n1 then yes (real 0) else no
    | _ => no
    end.

  (* 1297-1302 *)
  Definition log_1297 (a b : expr) : rule :=
    match rcast (PBin OLog PReal PReal) (ELog a b) with
    | Some (EBin _ (EReal x) (EReal y)) =>
      emit (negb (n_log2_exact x && n_log2_exact y)) Inexact ;;;
      yes (EReal (n_mul (n_log2 y) (n_div n1 (n_log2 x))))
    | _ => no
    end.

  (* 1305-1309; never reached with a number <= 0, because 1287 answers first *)
  Definition log_1305 (a b : expr) : rule :=
    match rcast (PBin OLog PAny PReal) (ELog a b) with
    | Some (EBin _ x (EReal y)) =>
      if n_ltb y n0 then
        yes (EAdd (ELog x (EReal (n_mul nm1 y))) (EMul EImag EPi))
      else no
    | _ => no
    end.

  (* 1312-1316 *)
  Definition log_1312 (a b : expr) : rule :=
    q <- m_eq b a ;; if q then yes (real 1) else no.

  (* 1319-1324 *)
  Definition log_1319 (a b : expr) : rule :=
    match rcast (PBin OLog PAny pExp) (ELog a b) with
    | Some (EBin _ x (EBin _ y n)) =>
      emit (negb (evident_pos y || (not_even_literal n && imag_free y))) LogOfPower ;;;
      yesM (S (EMul n (ELog x y)))
    | _ => no
    end.

  Definition log_rules : list (expr -> expr -> rule) :=
    [log_1279; log_1285; log_1297; log_1305; log_1312; log_1319].

  Definition visit_log (a b : expr) : M expr :=
    operands a b (first_rule log_rules (fun a b => ret (ELog a b))).

  (** ** Unary visits *)

  (** Negate, 1329-1345 *)
  Definition visit_neg (a : expr) : M expr :=
    a <- S a ;; m_value (S (EMul (real (-1)) a)).

  (** Sine, 1347-1363: the result is the simplified operand *)
  Definition visit_sine (a : expr) : M expr :=
    a <- S a ;; emit true SineDropped ;;; S a.

  (** Magnitude, 1439-1479 *)
  Definition mag_1446 (orig a : expr) : rule :=
    match rcast PReal a with
    | Some (EReal v) => yes (EReal (if n_leb n0 v then v else n_opp v))
    | _ => no
    end.
  Definition mag_1450 (orig a : expr) : rule :=
    match rcast PImag a with Some _ => yes (real 1) | None => no end.
  Definition mag_1453 (orig a : expr) : rule :=
    match rcast pMulImag a with
    | Some (EBin _ e _) => yesM (S (EMag e))
    | _ => no
    end.
  Definition mag_1456 (orig a : expr) : rule :=
    match rcast (PBin OAdd PAny PImag) a with
    | Some (EBin _ e _) =>
      emit (negb (imag_free e)) ComplexMagnitude ;;;
      yesM (S (EExp (EAdd (EExp e (real 2)) (real 1)) half))
    | _ => no
    end.
  Definition mag_1462 (orig a : expr) : rule :=
    match rcast (PBin OAdd PAny pMulImag) a with
    | Some (EBin _ e (EBin _ f _)) =>
      emit (negb (imag_free e && imag_free f)) ComplexMagnitude ;;;
      yesM (S (EExp (EAdd (EExp e (real 2)) (EExp f (real 2))) half))
    | _ => no
    end.
  Definition mag_1468 (orig a : expr) : rule :=
    match rcast PMat a with
    | Some (EMat r c d) =>
      yesM (S (EExp (EReal (fold_left (fun s x => n_add s (n_pow x n2)) d n0)) half))
    | _ => no
    end.

  Definition mag_rules : list (expr -> expr -> rule) :=
    [mag_1446; mag_1450; mag_1453; mag_1456; mag_1462; mag_1468].

  Definition visit_mag (a : expr) : M expr :=
    s <- S a ;;
    first_rule mag_rules (fun orig _ => ret (EMag orig)) a s.

  (** ** Derivative (1365-1391) and Integral (1393-1419) *)
  Definition visit_deriv (a b : expr) : M expr :=
    operands a b (fun a b =>
      emit (negb (smooth a && safe_powers a)) DerivativeRule ;;;
      d <- D a b ;; s <- S d ;; m_value (S s)).

  Definition visit_int (a b : expr) : M expr :=
    operands a b (fun a b =>
      r <- I a b ;;
      match r with Some e => ret e | None => abort end).

  (** SimplifyVisitor::TypedVisit, chosen by the type of the node; the leaves
      are at 46-64 and 1421-1437. *)
  Definition simp_step (e : expr) : M expr :=
    match e with
    | EReal _ | EImag | EVar _ | EUndef | EEuler | EPi | EMat _ _ _ => ret e
    | EBin OAdd a b => visit_add a b
    | EBin OSub a b => visit_sub a b
    | EBin OMul a b => visit_mul a b
    | EBin ODiv a b => visit_div a b
    | EBin OExp a b => visit_exp a b
    | EBin OLog a b => visit_log a b
    | EBin ODeriv a b => visit_deriv a b
    | EBin OInt a b => visit_int a b
    | EUn ONeg a => visit_neg a
    | EUn OSine a => visit_sine a
    | EUn OMag a => visit_mag a
    end.
End Simplify.
