(** Expression trees and the operations of BinaryExpression, UnaryExpression,
    LeafExpression and RecursiveCast. *)
From Coq Require Import String Bool Arith ZArith List.
From Verif Require Import Base Num.
Import ListNotations.

(** The binary node types, include/Oasis/Expression.hpp:22-43.  [Limit] and
    [Sqrt] have no class in the source. *)
Inductive binop := OAdd | OSub | OMul | ODiv | OExp | OLog | ODeriv | OInt.

(** The unary node types: Negate, Sine, Magnitude. *)
Inductive unop := ONeg | OSine | OMag.

(** Expressions.  Every node owns its operands (std::unique_ptr) and every
    operation copies, so trees are values.  Simplifications:
    - operands are never null (a default-constructed node has null operands;
      GetMostSigOp asserts that they are not, BinaryExpression.hpp:271-285);
    - the static operand types of a node (Add<Real, Variable> ...) are not
      part of the value: Generalize (BinaryExpression.hpp:185-198) forgets
      them before every visit, comparison and cast;
    - a matrix is its numbers of rows and columns and its entries row by row
      (Eigen::RowMajor, include/Oasis/Matrix.hpp:11).
    [EUndef] is Undefined, whose ExpressionType is None
    (include/Oasis/Undefined.hpp:22). *)
Inductive expr (num : Type) :=
| EReal (c : num)
| EImag
| EVar (x : string)
| EUndef
| EEuler
| EPi
| EMat (rows cols : nat) (d : list num)
| EBin (o : binop) (a b : expr num)
| EUn (o : unop) (a : expr num).
Arguments EReal {num} c.
Arguments EImag {num}.
Arguments EVar {num} x.
Arguments EUndef {num}.
Arguments EEuler {num}.
Arguments EPi {num}.
Arguments EMat {num} rows cols d.
Arguments EBin {num} o a b.
Arguments EUn {num} o a.

Notation EAdd := (EBin OAdd).
Notation ESub := (EBin OSub).
Notation EMul := (EBin OMul).
Notation EDiv := (EBin ODiv).
Notation EExp := (EBin OExp).
Notation ELog := (EBin OLog).
Notation EDeriv := (EBin ODeriv).
Notation EInt := (EBin OInt).
Notation ENeg := (EUn ONeg).
Notation ESine := (EUn OSine).
Notation EMag := (EUn OMag).

Definition binop_eqb (a b : binop) : bool :=
  match a, b with
  | OAdd, OAdd | OSub, OSub | OMul, OMul | ODiv, ODiv | OExp, OExp
  | OLog, OLog | ODeriv, ODeriv | OInt, OInt => true
  | _, _ => false
  end.

Definition unop_eqb (a b : unop) : bool :=
  match a, b with
  | ONeg, ONeg | OSine, OSine | OMag, OMag => true
  | _, _ => false
  end.

(** GetCategory() & Associative / Commutative: both bits are set for Add
    (include/Oasis/Add.hpp), Multiply (include/Oasis/Multiply.hpp) and also for
    Integral (include/Oasis/Integral.hpp), and for nothing else. *)
Definition assoc (o : binop) : bool :=
  match o with OAdd | OMul | OInt => true | _ => false end.
Definition commut (o : binop) : bool :=
  match o with OAdd | OMul | OInt => true | _ => false end.

(** ExpressionType of an expression, include/Oasis/Expression.hpp:22-43. *)
Inductive ety :=
| TNone | TReal | TImag | TVar | TEuler | TPi | TMat | TBin (o : binop) | TUn (o : unop).

Definition ety_eqb (a b : ety) : bool :=
  match a, b with
  | TNone, TNone | TReal, TReal | TImag, TImag | TVar, TVar | TEuler, TEuler
  | TPi, TPi | TMat, TMat => true
  | TBin o, TBin o' => binop_eqb o o'
  | TUn o, TUn o' => unop_eqb o o'
  | _, _ => false
  end.

(** Shapes that RecursiveCast can be asked for: the template argument. *)
Inductive pat :=
| PAny | PReal | PImag | PVar | PUndef | PEuler | PPi | PMat
| PBin (o : binop) (p q : pat)
| PUn (o : unop) (p : pat).

Section Model.
  Context {num : Type} {N : NumOps num}.
  Notation expr := (expr num).

  (** Expression::GetType, EXPRESSION_TYPE (include/Oasis/Expression.hpp:226-235). *)
  Definition type_of (e : expr) : ety :=
    match e with
    | EReal _ => TReal | EImag => TImag | EVar _ => TVar | EUndef => TNone
    | EEuler => TEuler | EPi => TPi | EMat _ _ _ => TMat
    | EBin o _ _ => TBin o | EUn o _ => TUn o
    end.

  (** Operands of [e] seen from a parent node of type [o]: Flatten's treatment
      of one operand, BinaryExpression.hpp:246-254 and 256-264. *)
  Fixpoint flat (o : binop) (e : expr) : list expr :=
    match e with
    | EBin o' a b => if binop_eqb o o' then flat o a ++ flat o b else [e]
    | _ => [e]
    end.

  (** BinaryExpression::Flatten on a node of type [o] with operands [a], [b],
      BinaryExpression.hpp:244-265. *)
  Definition flatten (o : binop) (a b : expr) : list expr := flat o a ++ flat o b.

  (** One pass of the inner for loop of BuildFromVector: adjacent operands are
      paired, an odd last operand is carried over (BinaryExpression.hpp:56-60). *)
  Fixpoint pair_pass (o : binop) (l : list expr) : list expr :=
    match l with
    | a :: b :: l' => EBin o a b :: pair_pass o l'
    | _ => l
    end.

  (** The while loop, run until one element is left (BinaryExpression.hpp:55-61).
      [n] bounds the number of passes; [build] supplies the number of operands,
      which is always enough (Tree proofs: [build_loop_fuel]). *)
  Fixpoint build_loop (n : nat) (o : binop) (l : list expr) : option expr :=
    match n with
    | O => None
    | S n' => match l with
              | [] => None
              | [e] => Some e
              | _ => build_loop n' o (pair_pass o l)
              end
    end.

  (** BuildFromVector, BinaryExpression.hpp:40-65. *)
  Definition build (o : binop) (l : list expr) : option expr :=
    match l with
    | [] | [_] => None
    | _ => build_loop (length l) o l
    end.

  (** The n-ary constructor, BinaryExpression.hpp:107-125: it copies the two
      operands of the tree BuildFromVector returns into the new node. *)
  Definition nary (o : binop) (a b : expr) (l : list expr) : option expr :=
    match build o (a :: b :: l) with
    | Some (EBin _ x y) => Some (EBin o x y)
    | _ => None
    end.

  (** RecursiveCast, include/Oasis/RecursiveCast.hpp:12-80.  The result keeps
      the reordering of operands that the cast performed. *)
  Fixpoint rcast (p : pat) (e : expr) : option expr :=
    match p with
    | PAny => Some e
    | PReal => match e with EReal _ => Some e | _ => None end
    | PImag => match e with EImag => Some e | _ => None end
    | PVar => match e with EVar _ => Some e | _ => None end
    | PUndef => match e with EUndef => Some e | _ => None end
    | PEuler => match e with EEuler => Some e | _ => None end
    | PPi => match e with EPi => Some e | _ => None end
    | PMat => match e with EMat _ _ _ => Some e | _ => None end
    | PBin o p q =>
      match e with
      | EBin o' a b =>
        if binop_eqb o o' then
          match rcast p a, rcast q b with
          | Some a', Some b' => Some (EBin o a' b')
          | _, _ =>
            if commut o then
              match rcast p b, rcast q a with
              | Some b', Some a' => Some (EBin o b' a')
              | _, _ => None
              end
            else None
          end
        else None
      | _ => None
      end
    | PUn o p =>
      match e with
      | EUn o' a => if unop_eqb o o' then option_map (EUn o) (rcast p a) else None
      | _ => None
      end
    end.

  (** Equals of the leaf classes.  [None] is an escaping std::bad_cast.
      Real: src/Real.cpp:21-24.  Imaginary: src/Imaginary.cpp:10-13.
      Variable: src/Variable.cpp:21-24.  EulerNumber: src/EulerNumber.cpp:17-20.
      Matrix: src/Matrix.cpp:34-39.  Undefined: include/Oasis/Undefined.hpp:20.
      Pi: src/Pi.cpp:11-14, where the reference dynamic_cast throws for every
      other type. *)
  Fixpoint all_eqb (a b : list num) : bool :=
    match a, b with
    | [], [] => true
    | x :: a, y :: b => n_eqb x y && all_eqb a b
    | _, _ => false
    end.

  Definition leaf_equals (a b : expr) : option bool :=
    match a with
    | EReal x => Some (match b with EReal y => n_eqb x y | _ => false end)
    | EImag => Some (match b with EImag => true | _ => false end)
    | EVar x => Some (match b with EVar y => String.eqb x y | _ => false end)
    | EEuler => Some (match b with EEuler => true | _ => false end)
    | EPi => match b with EPi => Some true | _ => None end
    | EMat r c d =>
      Some (match b with
            | EMat r' c' d' => Nat.eqb r r' && Nat.eqb c c' && all_eqb d d'
            | _ => false
            end)
    | _ => Some false
    end.

  (** std::find_if with an Equals predicate: stops at the first success, lets
      exceptions through (BinaryExpression.hpp:174-177). *)
  Fixpoint find_eq (f : expr -> option bool) (l : list expr) : option bool :=
    match l with
    | [] => Some false
    | y :: l => match f y with
                | None => None
                | Some true => Some true
                | Some false => find_eq f l
                end
    end.

  (** [eqm a] computes two functions by one structural recursion on [a]:
      [fst (eqm a) b] is a.Equals(b); [snd (eqm a) o l] checks that every
      operand of [flat o a] is Equal to some element of [l], in order
      (the for loop of BinaryExpression.hpp:173-180).  [equals_bin] and
      [all_found] in the proofs restate them as written in the source. *)
  Fixpoint eqm (a : expr) : (expr -> option bool) * (binop -> list expr -> option bool) :=
    match a with
    | EBin o l r =>
      let el := eqm l in
      let er := eqm r in
      let inv op lst :=
        match snd el op lst with
        | Some true => snd er op lst
        | x => x
        end in
      (* BinaryExpression::Equals, BinaryExpression.hpp:132-183: both operand
         comparisons are always evaluated. *)
      let e := fun b =>
        match b with
        | EBin o' l' r' =>
          if binop_eqb o o' then
            match fst el l' with
            | None => None
            | Some bl =>
              match fst er r' with
              | None => None
              | Some br =>
                if bl && br then Some true
                else if assoc o then inv o (flatten o' l' r')
                else Some false
              end
            end
          else Some false
        | _ => Some false
        end in
      (e, fun op lst => if binop_eqb op o then inv op lst else find_eq e lst)
    | EUn o x =>
      (* UnaryExpression::Equals, UnaryExpression.hpp:40-51 *)
      let ex := eqm x in
      let e := fun b =>
        match b with
        | EUn o' y => if unop_eqb o o' then fst ex y else Some false
        | _ => Some false
        end in
      (e, fun _ lst => find_eq e lst)
    | _ => (leaf_equals a, fun _ lst => find_eq (leaf_equals a) lst)
    end.

  (** Expression::Equals. *)
  Definition equals (a b : expr) : option bool := fst (eqm a) b.

  (** StructurallyEquivalent: BinaryExpression.hpp:205-231,
      UnaryExpression.hpp:72-75, LeafExpression.hpp:28-31. *)
  Fixpoint struct_equiv (a b : expr) : bool :=
    match a with
    | EBin o l r =>
      match b with
      | EBin o' l' r' => binop_eqb o o' && (struct_equiv l l' && struct_equiv r r')
      | _ => false
      end
    | _ => ety_eqb (type_of a) (type_of b)
    end.

  (** SetMostSigOp / SetLeastSigOp on a node whose declared operand type is
      [p], given as the new node and the returned bool
      (BinaryExpression.hpp:309-329 and 335-355).  The two
      [if constexpr] branches copy the operand; both agree with the cast for
      an argument of the declared type (proved). *)
  Definition set_most (p : pat) (o : binop) (a b : expr) (x : expr) : expr * bool :=
    match rcast p x with
    | Some x' => (EBin o x' b, true)
    | None => (EBin o a b, false)
    end.
  Definition set_least (p : pat) (o : binop) (a b : expr) (x : expr) : expr * bool :=
    match rcast p x with
    | Some x' => (EBin o a x', true)
    | None => (EBin o a b, false)
    end.

  (** BinaryExpression::SwapOperands, BinaryExpression.hpp:375-378. *)
  Definition swap_operands (o : binop) (a b : expr) : expr := EBin o b a.
End Model.
