(** The mathematics the properties are stated in: what an expression is worth.
    This file does not mention the model of any algorithm; it only uses the
    type of expressions. *)
From Coq Require Import String Bool ZArith Reals List.
From Coquelicot Require Import Coquelicot.
From Verif Require Import Num Expr.
Import ListNotations.

(** Assignments of real numbers to the variables. *)
Definition env := string -> R.
Definition upd (rho : env) (x : string) (t : R) : env :=
  fun y => if String.eqb y x then t else rho y.

Open Scope R_scope.

Fixpoint cpow_nat (b : C) (n : nat) : C :=
  match n with
  | O => RtoC 1
  | S n => Cmult b (cpow_nat b n)
  end.

(** [cpow b p v]: the power b^p is defined and its value is v.
    - positive integer exponents: repeated multiplication;
    - b^0 = 1 and b^(-n) = 1/b^n for b different from 0;
    - positive real bases: exp (p * ln b), for any real p;
    - 0^p = 0 for real p > 0. *)
Inductive cpow (b p : C) : C -> Prop :=
| cpow_pos n : p = RtoC (INR (S n)) -> cpow b p (cpow_nat b (S n))
| cpow_zero : p = RtoC 0 -> b <> RtoC 0 -> cpow b p (RtoC 1)
| cpow_neg n : p = RtoC (- INR (S n)) -> b <> RtoC 0 -> cpow b p (Cinv (cpow_nat b (S n)))
| cpow_real x r : b = RtoC x -> 0 < x -> p = RtoC r -> cpow b p (RtoC (Rpower x r))
| cpow_base0 r : b = RtoC 0 -> p = RtoC r -> 0 < r -> cpow b p (RtoC 0).

(** log_b a for real a > 0, b > 0, b <> 1. *)
Definition clog (b a v : C) : Prop :=
  exists x y, b = RtoC x /\ a = RtoC y /\ 0 < x /\ x <> 1 /\ 0 < y /\ v = RtoC (ln y / ln x).

Section Value.
  Context {num : Type}.
  (** The real number a literal stands for. *)
  Variable toR : num -> R.

  (** [ev e rho v]: under the assignment [rho] the expression [e] has the
      value [v].  Undefined, matrices and indefinite integrals have no value.
      Derivative(a, x) has a value where [a] is a differentiable real function
      of [x]. *)
  Fixpoint ev (e : expr num) (rho : env) (v : C) {struct e} : Prop :=
    match e with
    | EReal c => v = RtoC (toR c)
    | EImag => v = Ci
    | EVar x => v = RtoC (rho x)
    | EEuler => v = RtoC (exp 1)
    | EPi => v = RtoC PI
    | EUndef | EMat _ _ _ => False
    | EUn ONeg a => exists w, ev a rho w /\ v = Copp w
    | EUn OSine a => exists t, ev a rho (RtoC t) /\ v = RtoC (sin t)
    | EUn OMag a => exists w, ev a rho w /\ v = RtoC (Cmod w)
    | EBin o a b =>
      match o with
      | OAdd => exists p q, ev a rho p /\ ev b rho q /\ v = Cplus p q
      | OSub => exists p q, ev a rho p /\ ev b rho q /\ v = Cminus p q
      | OMul => exists p q, ev a rho p /\ ev b rho q /\ v = Cmult p q
      | ODiv => exists p q, ev a rho p /\ ev b rho q /\ q <> RtoC 0 /\ v = Cdiv p q
      | OExp => exists p q, ev a rho p /\ ev b rho q /\ cpow p q v
      | OLog => exists p q, ev a rho p /\ ev b rho q /\ clog p q v
      | ODeriv =>
        match b with
        | EVar x =>
          exists f d, locally (rho x) (fun t => ev a (upd rho x t) (RtoC (f t)))
                      /\ is_derive f (rho x) d /\ v = RtoC d
        | _ => False
        end
      | OInt => False
      end
    end.
End Value.

(** Expressions of real calculus: built from literals, variables, e and pi by
    + - * / ^ log, negation and sine. *)
Fixpoint elementary {num : Type} (e : expr num) : Prop :=
  match e with
  | EReal _ | EVar _ | EEuler | EPi => True
  | EImag | EUndef | EMat _ _ _ => False
  | EBin ODeriv _ _ | EBin OInt _ _ => False
  | EBin _ a b => elementary a /\ elementary b
  | EUn OMag _ => False
  | EUn _ a => elementary a
  end.

(** At [rho], every power in [e] has an integer literal as its exponent or a
    base with a positive value.  (Elsewhere a power need not be a
    differentiable function of its exponent.) *)
Fixpoint regular {num : Type} (toR : num -> R) (rho : env) (e : expr num) : Prop :=
  match e with
  | EBin o a b =>
    regular toR rho a /\ regular toR rho b /\
    match o with
    | OExp => (exists c z, b = EReal c /\ toR c = IZR z)
              \/ (exists x, 0 < x /\ ev toR a rho (RtoC x))
    | _ => True
    end
  | EUn _ a => regular toR rho a
  | _ => True
  end.

(** Arithmetic without rounding: the operations on literals compute what they
    should.  pow and log2 are only required to be exact where [n_pow_exact] and
    [n_log2_exact] say so. *)
Record Exact {num : Type} (N : NumOps num) (toR : num -> R) : Prop := {
  ex_add : forall a b, toR (n_add a b) = toR a + toR b;
  ex_sub : forall a b, toR (n_sub a b) = toR a - toR b;
  ex_mul : forall a b, toR (n_mul a b) = toR a * toR b;
  ex_div : forall a b, toR b <> 0 -> toR (n_div a b) = toR a / toR b;
  ex_abs : forall a, toR (n_abs a) = Rabs (toR a);
  ex_opp : forall a, toR (n_opp a) = - toR a;
  ex_of_Z : forall z, toR (n_of_Z z) = IZR z;
  ex_half : toR n_half = / 2;
  ex_eqb : forall a b, n_eqb a b = true <-> toR a = toR b;
  ex_ltb : forall a b, n_ltb a b = true <-> toR a < toR b;
  ex_leb : forall a b, n_leb a b = true <-> toR a <= toR b;
  ex_pow : forall a b v, n_pow_exact a b = true ->
           cpow (RtoC (toR a)) (RtoC (toR b)) v -> v = RtoC (toR (n_pow a b));
  ex_log2 : forall a, n_log2_exact a = true -> 0 < toR a -> toR (n_log2 a) = ln (toR a) / ln 2;
  ex_rem4 : forall a z, toR a = IZR z -> n_rem4 a = Some (Z.rem z 4);
  ex_round : forall a z, toR a = IZR z -> n_round a = Some z
}.

(** Arithmetic on literals, with the operations of the machine. *)
Section Literals.
  Context {num : Type} {N : NumOps num}.

  Fixpoint literal (e : expr num) : Prop :=
    match e with
    | EReal _ => True
    | EBin (OAdd | OSub | OMul | ODiv | OExp) a b => literal a /\ literal b
    | _ => False
    end.

  Fixpoint double_value (e : expr num) : num :=
    match e with
    | EReal c => c
    | EBin OAdd a b => n_add (double_value a) (double_value b)
    | EBin OSub a b => n_sub (double_value a) (double_value b)
    | EBin OMul a b => n_mul (double_value a) (double_value b)
    | EBin ODiv a b => n_div (double_value a) (double_value b)
    | EBin OExp a b => n_pow (double_value a) (double_value b)
    | _ => n_of_Z 0
    end.

  (** No product has a left factor within EPSILON of 0, and no power has the
      base 0 with an exponent other than 0. *)
  Fixpoint ordinary (e : expr num) : Prop :=
    match e with
    | EBin o a b =>
      ordinary a /\ ordinary b /\
      match o with
      | OMul => n_leb (n_abs (double_value a)) n_eps = false
      | OExp => n_eqb (double_value a) (n_of_Z 0) = true -> n_eqb (double_value b) (n_of_Z 0) = true
      | _ => True
      end
    | _ => True
    end.
End Literals.

(** Two laws of IEEE arithmetic: 1 * y is y, and pow(x, 0) is 1. *)
Definition ieee_units {num : Type} (N : NumOps num) : Prop :=
  (forall c y, n_eqb c (n_of_Z 1) = true -> n_mul c y = y) /\
  (forall x p, n_eqb p (n_of_Z 0) = true -> n_pow x p = n_of_Z 1).

(** Comparisons of small integers come out as they should. *)
Definition small_ints {num : Type} (N : NumOps num) : Prop :=
  n_eqb (n_of_Z 1) (n_of_Z 1) = true /\ n_eqb (n_of_Z 2) (n_of_Z 1) = false /\
  n_leb (n_abs (n_of_Z 1)) n_eps = false /\ n_leb (n_abs (n_of_Z 2)) n_eps = false.

Definition is_leaf {num : Type} (e : expr num) : Prop :=
  match e with EBin _ _ _ | EUn _ _ => False | _ => True end.

(** Trees: reorderings of the operands of nodes whose category is Commutative
    (Add, Multiply and, in the source, Integral). *)
Section Trees.
  Context {num : Type}.
  Notation expr := (expr num).

  Definition commutative (o : binop) : Prop := o = OAdd \/ o = OMul \/ o = OInt.

  Inductive reorders : expr -> expr -> Prop :=
  | ro_refl e : reorders e e
  | ro_bin o a b a' b' :
      reorders a a' -> reorders b b' -> reorders (EBin o a b) (EBin o a' b')
  | ro_swap o a b a' b' : commutative o ->
      reorders a a' -> reorders b b' -> reorders (EBin o a b) (EBin o b' a')
  | ro_un o a a' : reorders a a' -> reorders (EUn o a) (EUn o a').

  (** [fits p e]: [e] is an instance of the C++ type described by [p]. *)
  Inductive fits : pat -> expr -> Prop :=
  | fit_any e : fits PAny e
  | fit_real c : fits PReal (EReal c)
  | fit_imag : fits PImag EImag
  | fit_var x : fits PVar (EVar x)
  | fit_undef : fits PUndef EUndef
  | fit_euler : fits PEuler EEuler
  | fit_pi : fits PPi EPi
  | fit_mat r c d : fits PMat (EMat r c d)
  | fit_bin o p q a b : fits p a -> fits q b -> fits (PBin o p q) (EBin o a b)
  | fit_un o p a : fits p a -> fits (PUn o p) (EUn o a).

  (** [tree_over o d l t]: [t] is a tree of [o]-nodes of depth at most [d] over
      the operands [l], from left to right; [nodes_over o n l t]: with exactly
      [n] nodes. *)
  Inductive tree_over (o : binop) : nat -> list expr -> expr -> Prop :=
  | to_leaf d e : tree_over o d [e] e
  | to_node d l1 l2 a b :
      tree_over o d l1 a -> tree_over o d l2 b -> tree_over o (S d) (l1 ++ l2) (EBin o a b).

  Inductive nodes_over (o : binop) : nat -> list expr -> expr -> Prop :=
  | no_leaf e : nodes_over o 0 [e] e
  | no_node n1 n2 l1 l2 a b :
      nodes_over o n1 l1 a -> nodes_over o n2 l2 b ->
      nodes_over o (1 + n1 + n2) (l1 ++ l2) (EBin o a b).

  (** [e] is not itself a node of type [o]. *)
  Definition not_node (o : binop) (e : expr) : Prop := forall a b, e <> EBin o a b.

  (** Predicates on all subterms of [e]. *)
  Fixpoint forall_sub (P : expr -> Prop) (e : expr) : Prop :=
    P e /\ match e with
           | EBin _ a b => forall_sub P a /\ forall_sub P b
           | EUn _ a => forall_sub P a
           | _ => True
           end.

  Definition no_pi : expr -> Prop := forall_sub (fun e => e <> EPi).
  Definition no_undef : expr -> Prop := forall_sub (fun e => e <> EUndef).
  Definition no_assoc : expr -> Prop :=
    forall_sub (fun e => forall o a b, e = EBin o a b -> ~ commutative o).
  (** [==] is reflexive on the literals of [e] (no NaN). *)
  Definition no_nan {N : NumOps num} : expr -> Prop :=
    forall_sub (fun e => match e with
                         | EReal c => n_eqb c c = true
                         | EMat _ _ d => List.Forall (fun c => n_eqb c c = true) d
                         | _ => True
                         end).

  (** Same tree structure: binary nodes of the same type over operands of the
      same structure; other nodes of the same type. *)
  Inductive same_shape : expr -> expr -> Prop :=
  | ss_bin o a b a' b' : same_shape a a' -> same_shape b b' -> same_shape (EBin o a b) (EBin o a' b')
  | ss_other e e' : type_of e = type_of e' -> (forall o a b, e <> EBin o a b) -> same_shape e e'.

  (** [x] occurs in [e]. *)
  Fixpoint mentions_var (x : string) (e : expr) : Prop :=
    match e with
    | EVar y => x = y
    | EBin _ a b => mentions_var x a \/ mentions_var x b
    | EUn _ a => mentions_var x a
    | _ => False
    end.
End Trees.
