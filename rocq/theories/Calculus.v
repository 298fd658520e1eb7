(** DifferentiateVisitor (src/DifferentiateVisitor.cpp), the Integrate
    overrides, and the recursive knot through SimplifyVisitor. *)
From Coq Require Import String Bool Arith ZArith List.
From Verif Require Import Base Num Expr Ghost Simplify.
Import ListNotations.
Open Scope string_scope.
Open Scope m_scope.

Section Steps.
  Context {num : Type} {N : NumOps num}.
  Notation expr := (expr num).

  (** Accept of a fresh SimplifyVisitor. *)
  Variable S : expr -> M expr.
  (** Accept( *this ) of the running DifferentiateVisitor. *)
  Variable V : expr -> expr -> M expr.
  (** Expression::Differentiate. *)
  Variable D : expr -> expr -> M expr.
  (** Expression::Integrate; [None] is nullptr. *)
  Variable I : expr -> expr -> M (option expr).
  (** opts.multivariate == MULTI_VARIABLE *)
  Variable multi : bool.

  Definition is_var (e : expr) : bool := match e with EVar _ => true | _ => false end.
  Definition not_implemented : string := "Not Implemented.".

  (** *** DifferentiateVisitor *)

  (** Variable, 54-67 *)
  Definition diff_var (y : string) (v : expr) : M expr :=
    match v with
    | EVar x =>
      if String.eqb x y then ret (real 1)
      else if multi then ret (EDeriv (EVar y) v)
      else ret (real 0)
    | _ => ret (EDeriv (EVar y) v)
    end.

  (** Add, 74-99 and Subtract, 101-126: the error of the right operand is not
      checked (the test at 83-85 / 110-112 repeats the left one), so
      [value()] throws. *)
  Definition diff_addsub (o : binop) (a b v : expr) : M expr :=
    l <- m_try (V a v) ;;
    r <- m_try (V b v) ;;
    match l with
    | inr s => fail s
    | inl l => match r with
               | inr _ => throw BadExpectedAccess
               | inl r => S (EBin o l r)
               end
    end.

  (** Multiply, 128-154 *)
  Definition diff_mul (a b v : expr) : M expr :=
    l <- m_try (V a v) ;;
    r <- m_try (V b v) ;;
    match l with
    | inr s => fail s
    | inl l => match r with
               | inr s => fail s
               | inl r => S (EAdd (EMul l b) (EMul a r))
               end
    end.

  (** Divide, 156-201.  The casts at 167 and 178 always succeed. *)
  Definition diff_div_real (q v : expr) : rule :=                 (* 164-171 *)
    match rcast (PBin ODiv PAny PReal) q with
    | Some (EBin _ e c) =>
      d <- D e v ;;
      s <- m_value (S d) ;;
      yesM (m_value (S (EDiv s c)))
    | _ => no
    end.
  Definition diff_div_mul (q v : expr) : rule :=                  (* 173-181 *)
    match rcast (PBin OMul PAny PReal) q with
    | Some (EBin _ e c) =>
      d <- D e v ;;
      s <- m_value (S d) ;;
      yesM (m_value (S (EMul s c)))
    | _ => no
    end.
  Definition diff_div_quot (q v : expr) : rule :=                 (* 183-195 *)
    match rcast pDiv q with
    | Some (EBin _ l r) =>
      dl <- D l v ;;
      dr <- D r v ;;
      r1 <- m_value (S r) ;;
      dl1 <- m_value (S dl) ;;
      m1 <- m_value (S (EMul r1 dl1)) ;;
      m1 <- m_value (S m1) ;;
      l1 <- m_value (S l) ;;
      dr1 <- m_value (S dr) ;;
      m2 <- m_value (S (EMul l1 dr1)) ;;
      m2 <- m_value (S m2) ;;
      num <- m_value (S (ESub m1 m2)) ;;
      r2 <- m_value (S r) ;;
      r3 <- m_value (S r) ;;
      den <- m_value (S (EMul r2 r3)) ;;
      n1 <- m_value (S num) ;;
      d1 <- m_value (S den) ;;
      yesM (m_value (S (EDiv n1 d1)))
    | _ => no
    end.
  Definition diff_div (a b v : expr) : M expr :=
    q <- m_value (S (EDiv a b)) ;;
    emit (negb (smooth q && safe_powers q)) DerivativeRule ;;;
    first_rule [diff_div_real; diff_div_mul; diff_div_quot]
               (fun _ _ => ret (EDeriv (EDiv a b) v)) q v.

  (** Exponent, 203-319 *)
  Definition diff_exp_poly (e v : expr) : rule :=                 (* 209-231 *)
    match rcast (PBin OExp PAny PReal) e with
    | Some (EBin _ x (EReal n)) =>
      (* ghost: the factor x^(n-1) is undefined where x is 0 *)
      emit (n_eqb n n1) DerivativeRule ;;;
      dx <- V x v ;;
      yesM (S (EMul (EMul (EExp x (EReal (n_sub n n1))) (EReal n)) dx))
    | _ => no
    end.
  Definition diff_exp_real (e v : expr) : rule :=                 (* 233-248 *)
    match rcast (PBin OExp PReal PAny) e with
    | Some (EBin _ a u) =>
      du <- V u v ;;
      yesM (S (EMul (EExp a u) (EMul (ELog EEuler a) du)))
    | _ => no
    end.
  Definition diff_exp_euler (e v : expr) : rule :=                (* 249-263 *)
    match rcast (PBin OExp PEuler PAny) e with
    | Some (EBin _ a u) =>
      du <- V u v ;;
      yesM (S (EMul (EExp a u) du))
    | _ => no
    end.
  Definition diff_exp_var (e v : expr) : rule :=                  (* 264-281 *)
    match rcast (PBin OExp PVar PAny) e with
    | Some (EBin _ (EVar y) u) =>
      match v with
      | EVar x =>
        if String.eqb y x then no
        else
          du <- V u v ;;
          yesM (S (EMul (EExp (EVar y) u) (EMul (ELog EEuler (EVar y)) du)))
      | _ => no
      end
    | _ => no
    end.
  Definition diff_exp_gen (f g v : expr) : M expr :=              (* 285-316 *)
    df <- V f v ;;
    dg <- V g v ;;
    S (EMul (EExp f g) (EAdd (EDiv (EMul g df) f) (EMul dg (ELog EEuler f)))).
  Definition diff_exp (f g v : expr) : M expr :=
    first_rule [diff_exp_poly; diff_exp_real; diff_exp_euler; diff_exp_var]
               (fun _ _ => diff_exp_gen f g v) (EExp f g) v.

  (** Derivative, 382-398: the operand is differentiated once; the variable of
      the inner node plays no role. *)
  Definition diff_deriv (a w v : expr) : M expr :=
    d <- m_try (V a v) ;;
    match d with
    | inr _ => emit true NestedDerivative ;;; ret (EDeriv (EDeriv a w) v)
    | inl r =>
      s <- m_try (S r) ;;
      match s with
      | inr _ => emit true NestedDerivative ;;; ret (EDeriv r v)
      | inl r' => ret r'
      end
    end.

  (** Log, 321-362 *)
  Definition simp_or_keep (e : expr) : M expr :=
    s <- m_try (S e) ;; match s with inl r => ret r | inr _ => ret e end.
  Definition diff_log (b a v : expr) : M expr :=
    match rcast PEuler b with
    | Some _ =>                                                   (* 326-336 *)
      (* chain.Differentiate visits the node Derivative{a, v} *)
      c <- diff_deriv a v v ;;
      simp_or_keep (EMul (EDiv (real 1) a) c)
    | None =>
      match rcast PReal b with
      | Some _ =>                                                 (* 338-349 *)
        c <- V a v ;;
        simp_or_keep (EMul (EDiv (real 1) (EMul a (ELog EEuler b))) c)
      | None =>                                                   (* 350-359 *)
        simp_or_keep
          (EDiv (ESub (EMul (ELog EEuler b) (EDeriv (ELog EEuler a) v))
                      (EMul (ELog EEuler a) (EDeriv (ELog EEuler b) v)))
                (EExp (ELog EEuler b) (real 2)))
      end
    end.

  (** Negate, 364-372 *)
  Definition diff_neg (a v : expr) : M expr :=
    d <- D a v ;; ret (ENeg d).

  (** Integral, 400-412 *)
  Definition diff_int (a w v : expr) : M expr :=
    i <- I a w ;;
    match i with
    | None => undef NullDeref
    | Some e =>
      r <- m_try (V e v) ;;
      match r with inr _ => ret (EDeriv e v) | inl r => ret r end
    end.

  (** DifferentiateVisitor::TypedVisit.  With a differentiation variable that
      is not a Variable the interior nodes return an unevaluated Derivative.
      Leaves: 44-52, 69-72, 421-429; Sine 374-379, Matrix 414-419,
      Magnitude 431-436 are not implemented. *)
  Definition diff_step (e v : expr) : M expr :=
    match e with
    | EReal _ | EImag | EEuler | EPi => ret (real 0)
    | EVar y => diff_var y v
    | EUndef => ret EUndef
    | EMat _ _ _ | EUn OSine _ | EUn OMag _ => fail not_implemented
    | EUn ONeg a => if is_var v then diff_neg a v else ret (EDeriv e v)
    | EBin o a b =>
      if is_var v then
        match o with
        | OAdd => diff_addsub OAdd a b v
        | OSub => diff_addsub OSub a b v
        | OMul => diff_mul a b v
        | ODiv => diff_div a b v
        | OExp => diff_exp a b v
        | OLog => diff_log a b v
        | ODeriv => emit true NestedDerivative ;;; diff_deriv a b v
        | OInt => diff_int a b v
        end
      else ret (EDeriv e v)
    end.

  (** Expression::Differentiate, src/Expression.cpp:226-234 *)
  Definition differentiate_with (V : expr -> expr -> M expr) (e v : expr) : M expr :=
    r <- m_try (V e v) ;;
    match r with inl d => ret d | inr _ => ret (EDeriv e v) end.

  (** *** Integrate *)

  Definition C_ : expr := EVar "C".
  Definition deref (m : M (option expr)) : M expr :=
    o <- m ;; match o with Some e => ret e | None => undef NullDeref end.
  (* ghost: see Base.v, IntegralRule *)
  Definition flag (b : bool) : M unit := emit b IntegralRule.
  (** An unevaluated Integral node, e.g. src/Add.cpp:60-62. *)
  Definition unev (e v : expr) : M (option expr) := flag true ;;; ret (Some (EInt e v)).
  (** The node itself, where an antiderivative was asked for, e.g. src/Add.cpp:60. *)
  Definition give_up (e : expr) : M (option expr) := flag true ;;; ret (Some e).
  Definition some (m : M expr) : M (option expr) := e <- m ;; ret (Some e).

  (** Real::Integrate, src/Real.cpp:31-53 *)
  Definition int_real (c : num) (x : string) : M (option expr) :=
    if n_eqb c n0 then ret (Some C_)
    else some (m_value (S (EAdd (EMul (EReal c) (EVar x)) C_))).

  (** Variable::Integrate, src/Variable.cpp:31-59 *)
  Definition int_var (y x : string) : M (option expr) :=
    if String.eqb y x then
      some (m_value (S (EAdd (EDiv (EExp (EVar x) (real 2)) (real 2)) C_)))
    else some (m_value (S (EAdd (EMul (EVar y) (EVar x)) C_))).

  (** EulerNumber::Integrate, src/EulerNumber.cpp:27-44 *)
  Definition int_euler (x : string) : M (option expr) :=
    some (m_value (S (EAdd (EMul EEuler (EVar x)) C_))).

  (** Add::Integrate, src/Add.cpp:19-63 *)
  Definition int_add (a b v : expr) : M (option expr) :=
    r <- m_try (S (EAdd a b)) ;;
    match r with
    | inr _ => give_up (EAdd a b)
    | inl s =>
      match as_bin (rcast pAdd s) with
      | Some (m, l) =>
        flag (negb (imag_free s)) ;;;
        il <- deref (I l v) ;;
        ir <- deref (I m v) ;;
        match as_bin (rcast pAdd il), as_bin (rcast pAdd ir) with
        | Some (fl, cl), Some (fr, cr) =>
          flag (negb (const_for v cl && const_for v cr)) ;;;
          let add := EAdd (EAdd fl fr) C_ in
          p <- m_try (S add) ;;
          match p with inl e => ret (Some e) | inr _ => ret (Some add) end
        | _, _ => give_up (EAdd a b)
        end
      | None => i <- deref (I s v) ;; some (m_value (S i))
      end
    end.

  (** Subtract::Integrate, src/Subtract.cpp:22-63 *)
  Definition int_sub (a b v : expr) : M (option expr) :=
    r <- m_try (S (ESub a b)) ;;
    match r with
    | inr _ => give_up (ESub a b)
    | inl s =>
      match as_bin (rcast pSub s) with
      | Some (m, l) =>
        flag (negb (imag_free s)) ;;;
        il <- deref (I l v) ;;
        ir <- deref (I m v) ;;
        match as_bin (rcast pAdd il), as_bin (rcast pAdd ir) with
        | Some (fl, cl), Some (fr, cr) =>
          flag (negb (const_for v cl && const_for v cr)) ;;;
          some (m_value (S (EAdd (ESub fr fl) C_)))
        | _, _ => give_up (ESub a b)
        end
      | None => I s v
      end
    end.

  (** Multiply::Integrate, src/Multiply.cpp:20-147 *)
  Definition is_type (t : ety) (e : expr) : bool := ety_eqb (type_of e) t.

  (* 53-73: choice of u (first) and dv (second) *)
  Definition lipet (a b : expr) : expr * expr :=
    let (a, b) := if negb (is_type (TBin OLog) a) && is_type (TBin OLog) b then (b, a) else (a, b) in
    let (a, b) := if is_type TVar b && is_type (TBin OExp) a then (b, a) else (a, b) in
    match rcast (PBin OExp PVar PReal) b, rcast (PBin OExp PEuler PVar) a with
    | Some _, Some _ => (b, a)
    | _, _ => (a, b)
    end.

  (* 93-103: split a literal coefficient off *)
  Definition split_coef (e : expr) : M (expr * expr) :=
    match as_bin (rcast pMulRE e) with
    | Some (c, e') => s <- m_value (S e') ;; ret (c, s)
    | None => ret (real 1, e)
    end.

  (* 48-142: integration by parts on the operands of the node itself *)
  Definition int_parts (a b v : expr) : M (option expr) :=
    let (u, dv) := lipet a b in
    flag (negb (smooth u && safe_powers u && imag_free dv)) ;;;
    vi <- I dv v ;;
    du <- D u v ;;
    match vi with
    | None => undef NullDeref                                     (* 82: *v *)
    | Some vi =>
      match as_bin (rcast (PBin OAdd PAny PVar) vi) with
      | None => undef NullDeref                                   (* 83: vPlusC-> *)
      | Some (vv, c) =>
        flag (negb (const_for v c)) ;;;
        cv <- split_coef vv ;;
        cdu <- split_coef du ;;
        let (vc, v_vdu) := cv in
        let (dc, du') := cdu in
        k <- m_value (S (EMul vc dc)) ;;                          (* 106 *)
        part <- m_value (S (EMul v_vdu du')) ;;                   (* 109 *)
        q <- m_eq (EMul u dv) (EMul k part) ;;                    (* 115 *)
        if q then unev (EMul u dv) v
        else
          flag (negb (imag_free part)) ;;;
          ip <- deref (I part v) ;;                               (* 123 *)
          flag (match as_bin (rcast pAdd ip) with Some (_, c) => negb (const_for v c) | None => false end) ;;;
          let ip := match as_bin (rcast pAdd ip) with Some (f, _) => f | None => ip end in
          some (m_value (S (EAdd (ESub (EMul u vv) (EMul k ip)) C_)))
      end
    end.

  Definition int_mul (a b v : expr) : M (option expr) :=
    r <- m_try (S (EMul a b)) ;;
    match r with
    | inr _ => give_up (EMul a b)
    | inl s =>
      match as_bin (rcast pMulRE s) with
      | Some (c, e) =>                                            (* 32-46 *)
        flag (negb (imag_free s)) ;;;
        i <- deref (I e v) ;;
        match as_bin (rcast (PBin OAdd PAny PVar) i) with
        | Some (f, k) => flag (negb (const_for v k)) ;;; some (m_value (S (EAdd (EMul c f) C_)))
        | None => unev (EMul a b) v
        end
      | None => int_parts a b v
      end
    end.

  (** Divide::Integrate, src/Divide.cpp:25-41 *)
  Definition int_div (a b v : expr) : M (option expr) :=
    s <- m_value (S (EDiv a b)) ;;
    match as_bin (rcast (PBin OMul PAny PReal) s) with
    | Some (e, c) => i <- deref (I (EMul e c) v) ;; some (m_value (S i))
    | None => unev (EDiv a b) v
    end.

  (** Exponent::Integrate, src/Exponent.cpp:26-71 *)
  Definition int_exp_pow (s : expr) (x : string) : rule :=        (* 39-53 *)
    match rcast (PBin OExp PVar PReal) s with
    | Some (EBin _ (EVar y) (EReal n)) =>
      if String.eqb x y then
        flag (n_eqb n nm1) ;;;
        yesM (m_value (S (EAdd (EDiv (EExp (EVar x) (EReal (n_add n n1))) (EReal (n_add n n1))) C_)))
      else no
    | _ => no
    end.
  Definition int_exp_euler (s : expr) (x : string) : rule :=      (* 56-65 *)
    match rcast (PBin OExp PEuler PVar) s with
    | Some (EBin _ _ p) =>
      flag (const_for (EVar x) p) ;;;
      yesM (m_value (S (EAdd (EExp EEuler p) C_)))
    | _ => no
    end.
  Definition int_exp (a b : expr) (x : string) : M (option expr) :=
    r <- m_try (S (EExp a b)) ;;
    match r with
    | inr _ => give_up (EExp a b)
    | inl s =>
      p <- int_exp_pow s x ;;
      match p with
      | Some e => ret (Some e)
      | None =>
        q <- int_exp_euler s x ;;
        match q with
        | Some e => ret (Some e)
        | None => unev (EExp a b) (EVar x)
        end
      end
    end.

  (** Log::Integrate, src/Log.cpp:30-113 *)
  Definition int_ln (a v : expr) : M (option expr) :=             (* 34-57, 112 *)
    q <- (if is_type TVar a then m_eq a v else ret false) ;;
    if q then some (m_value (S (EAdd (EMul v (ESub (ELog EEuler a) (real 1))) C_)))
    else
      flag (negb (is_var v && smooth a && safe_powers a)) ;;;
      r <- m_try (S (EDeriv a v)) ;;
      match r with
      | inr _ => give_up (ELog EEuler a)
      | inl d =>
        z <- m_eq d (real 0) ;;
        if z then some (m_value (S (EAdd (EMul v (ELog EEuler a)) C_)))
        else if is_type TReal d then
          some (m_value (S (EAdd (EDiv (EMul a (ESub (ELog EEuler a) (real 1))) d) C_)))
        else unev (ELog EEuler a) v
      end.
  Definition int_logb (b a v : expr) : M (option expr) :=         (* 89-112 *)
    let numer := ELog EEuler a in
    let denom := ELog EEuler b in
    q <- m_eq numer denom ;;
    flag (negb (is_var v)) ;;;
    if q then ret (Some (EAdd v C_))
    else
      flag (negb (smooth b && safe_powers b)) ;;;
      d <- m_value (S (EDeriv denom v)) ;;
      z <- m_eq d (real 0) ;;
      if z then
        nat <- m_value (S (EInt numer v)) ;;
        match as_bin (rcast pAdd nat) with
        | Some (f, k) =>
          flag (negb (const_for v k)) ;;; some (m_value (S (EAdd (EDiv f denom) C_)))
        | None => some (m_value (S (EDiv nat denom)))
        end
      else unev (ELog b a) v.
  Definition int_log (b a v : expr) : M (option expr) :=
    q <- m_eq b EEuler ;;
    if q then int_ln a v else int_logb b a v.

  (** Expression::Integrate, by the type of the node.  Imaginary, Pi and
      Undefined use LeafExpression.hpp:33-36, Derivative and Integral use
      BinaryExpression.hpp:200-203: both call Integrate on a copy of the same
      type.  Negate uses src/Expression.cpp:246-251, Matrix src/Matrix.cpp:67-72,
      Sine src/Sine.cpp:11-14, Magnitude include/Oasis/Magnitude.hpp:42-50. *)
  Definition integ_step (e v : expr) : M (option expr) :=
    match e with
    | EReal c => match v with EVar x => int_real c x | _ => unev e v end
    | EVar y => match v with EVar x => int_var y x | _ => unev e v end
    | EEuler => match v with EVar x => int_euler x | _ => unev e v end
    | EImag | EPi | EUndef => I e v
    | EBin ODeriv _ _ | EBin OInt _ _ => I e v
    | EBin OAdd a b => if is_var v then int_add a b v else unev e v
    | EBin OSub a b => if is_var v then int_sub a b v else unev e v
    | EBin OMul a b => if is_var v then int_mul a b v else unev e v
    | EBin ODiv a b => if is_var v then int_div a b v else unev e v
    | EBin OExp a b => match v with EVar x => int_exp a b x | _ => unev e v end
    | EBin OLog b a => int_log b a v
    | EUn ONeg _ => unev e v
    | EUn OSine _ => ret None
    | EUn OMag a => i <- deref (I a v) ;; give_up (EMag i)
    | EMat _ _ _ => unev e v
    end.
End Steps.

Section Knot.
  Context {num : Type} {N : NumOps num}.
  Notation expr := (expr num).

  (** The recursive calls among the visitors, with a bound [n] on the depth of
      the recursion: [OutOfFuel] says that the bound was not enough, nothing
      else.  [simp n prefer e] is [e.Accept(SimplifyVisitor)] with
      distributivePolicy PREFER iff [prefer]; the calculus code always makes
      visitors with default options. *)
  Fixpoint simp (n : nat) (prefer : bool) (e : expr) {struct n} : M expr :=
    match n with
    | O => oof
    | S n => simp_step (simp n prefer) (differentiate_with (diff n false)) (integ n) prefer e
    end
  with diff (n : nat) (multi : bool) (e v : expr) {struct n} : M expr :=
    match n with
    | O => oof
    | S n => diff_step (simp n false) (diff n multi) (differentiate_with (diff n false))
                       (integ n) multi e v
    end
  with integ (n : nat) (e v : expr) {struct n} : M (option expr) :=
    match n with
    | O => oof
    | S n => integ_step (simp n false) (differentiate_with (diff n false)) (integ n) e v
    end.

  (** Expression::Differentiate, src/Expression.cpp:226-234. *)
  Definition differentiate (n : nat) (e v : expr) : M expr :=
    differentiate_with (diff n false) e v.

  (** operator+, -, *, /, src/Expression.cpp:269-321. *)
  Definition operator (n : nat) (o : binop) (a b : expr) : M expr :=
    r <- m_try (simp n false (EBin o a b)) ;;
    match r with inl e => ret e | inr _ => ret (EBin o a b) end.

  (** Substitute: src/Variable.cpp:61-71, BinaryExpression.hpp:357-370,
      UnaryExpression.hpp:86-92, LeafExpression.hpp (leaves are copied).  The
      left operand is processed first. *)
  Fixpoint subst (n : nat) (e var val : expr) : M expr :=
    match e with
    | EVar y =>
      match rcast PVar var with
      | Some (EVar x) => if String.eqb x y then ret val else ret (EVar y)
      | _ => throw InvalidArgument
      end
    | EBin o a b =>
      a' <- subst n a var val ;;
      b' <- subst n b var val ;;
      r <- m_try (simp n false (EBin o a' b')) ;;
      match r with inl s => ret s | inr _ => ret (EBin o a' b') end
    | EUn o a => a' <- subst n a var val ;; ret (EUn o a')
    | _ => ret e
    end.

  (** Integral::IntegrateWithBounds, src/Integral.cpp:17-79, for
      Integral{e, v}; [None] is nullptr. *)
  Definition integrate_with_bounds (n : nat) (e v lower upper : expr) : M (option expr) :=
    q <- m_eq lower upper ;;
    if q then ret (Some (real 0))
    else
      z <- m_eq e (real 0) ;;
      if z then ret (Some (real 0))
      else
        i <- integ n e v ;;
        match i with
        | None => ret None
        | Some f =>
          same <- m_eq f e ;;
          if same then ret None
          else
            match as_bin (rcast pAdd f) with
            | None => ret None
            | Some (g, c) =>
              flag (negb (const_for v c && calculus_free g)) ;;;
              up <- subst n g v upper ;;
              lo <- subst n g v lower ;;
              up' <- m_try (simp n false up) ;;
              match up' with
              | inr _ => undef BadExpectedDeref                   (* 62 *)
              | inl up' =>
                lo' <- m_try (simp n false lo) ;;
                match lo' with
                | inr _ => undef BadExpectedDeref                 (* 63 *)
                | inl lo' =>
                  r <- m_try (simp n false (ESub up' lo')) ;;
                  match r with inl x => ret (Some x) | inr _ => ret None end
                end
              end
            end
        end.
End Knot.
