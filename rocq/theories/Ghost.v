(** Decision procedures used only to record ghost events (see Base.v,
    [defect]): they have no counterpart in the source and never influence a
    result. *)
From Coq Require Import String Bool Arith ZArith List.
From Verif Require Import Base Num Expr.
Import ListNotations.

Section Ghost.
  Context {num : Type} {N : NumOps num}.
  Notation expr := (expr num).

  Fixpoint remove_first (f : expr -> bool) (l : list expr) : option (list expr) :=
    match l with
    | [] => None
    | y :: l => if f y then Some l else option_map (cons y) (remove_first f l)
    end.

  (** Equality up to associativity and commutativity of + and * only, as
      multisets.  [fst (seqm a) b]: a and b are the same; [snd (seqm a) o l]:
      remove the operands of [flat o a] from [l], one for one. *)
  Fixpoint seqm (a : expr) : (expr -> bool) * (binop -> list expr -> option (list expr)) :=
    match a with
    | EBin o l r =>
      let el := seqm l in
      let er := seqm r in
      let inv op lst :=
        match snd el op lst with
        | Some lst' => snd er op lst'
        | None => None
        end in
      let e := fun b =>
        match b with
        | EBin o' l' r' =>
          binop_eqb o o' &&
          ((fst el l' && fst er r')
           || (match o with OAdd | OMul => true | _ => false end
               && match inv o (flatten o' l' r') with Some [] => true | _ => false end))
        | _ => false
        end in
      (e, fun op lst => if binop_eqb op o then inv op lst else remove_first e lst)
    | EUn o x =>
      let ex := seqm x in
      let e := fun b =>
        match b with
        | EUn o' y => unop_eqb o o' && fst ex y
        | _ => false
        end in
      (e, fun _ lst => remove_first e lst)
    | _ =>
      let e := fun b => match leaf_equals a b with Some true => true | _ => false end in
      (e, fun _ lst => remove_first e lst)
    end.

  Definition eq_strict (a b : expr) : bool := fst (seqm a) b.

  (** Literals with an integral value. *)
  Definition is_int (c : num) : bool :=
    match n_round c with Some z => n_eqb c (n_of_Z z) | None => false end.
  Definition is_even (c : num) : bool :=
    match n_round c with Some z => n_eqb c (n_of_Z z) && Z.even z | None => true end.

  Definition int_literal (e : expr) : bool :=
    match e with EReal c => is_int c | _ => false end.
  Definition not_even_literal (e : expr) : bool :=
    match e with EReal c => negb (is_even c) | _ => false end.

  (** Expressions whose value is positive wherever it is defined. *)
  Fixpoint evident_pos (e : expr) : bool :=
    match e with
    | EReal c => n_ltb n0 c
    | EEuler | EPi => true
    | EBin OMul a b | EBin ODiv a b | EBin OAdd a b => evident_pos a && evident_pos b
    | EBin OExp a b => evident_pos a
    | _ => false
    end.

  (** No imaginary unit anywhere: the value, if defined, is real. *)
  Fixpoint imag_free (e : expr) : bool :=
    match e with
    | EImag => false
    | EBin _ a b => imag_free a && imag_free b
    | EUn OMag _ => true
    | EUn _ a => imag_free a
    | _ => true
    end.
End Ghost.

Section GhostCalculus.
  Context {num : Type} {N : NumOps num}.
  Notation expr := (expr num).

  (** Built from operations that are differentiable where they are defined:
      no imaginary unit, magnitude, derivative, integral, matrix, Undefined. *)
  Fixpoint smooth (e : expr) : bool :=
    match e with
    | EReal _ | EVar _ | EEuler | EPi => true
    | EImag | EUndef | EMat _ _ _ => false
    | EBin ODeriv _ _ | EBin OInt _ _ => false
    | EBin _ a b => smooth a && smooth b
    | EUn OMag _ => false
    | EUn _ a => smooth a
    end.

  (** Every power has an integer literal as exponent or an evidently positive
      base. *)
  Fixpoint safe_powers (e : expr) : bool :=
    match e with
    | EBin o a b =>
      (match o with OExp => int_literal b || evident_pos a | _ => true end)
      && safe_powers a && safe_powers b
    | EUn _ a => safe_powers a
    | _ => true
    end.

  (** [c] does not depend on the variable [v]. *)
  Definition const_for (v c : expr) : bool :=
    match v, c with
    | EVar x, EVar y => negb (String.eqb x y)
    | _, EReal _ => true
    | _, _ => false
    end.

  (** No Derivative and no Integral node. *)
  Fixpoint calculus_free (e : expr) : bool :=
    match e with
    | EBin ODeriv _ _ | EBin OInt _ _ => false
    | EBin _ a b => calculus_free a && calculus_free b
    | EUn _ a => calculus_free a
    | _ => true
    end.
End GhostCalculus.
