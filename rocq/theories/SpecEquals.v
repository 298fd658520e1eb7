(** Specification vocabulary for Equals. *)
From Coq Require Import String Bool List.
From Verif Require Import Num Expr Spec.
Import ListNotations.

Section Equal.
  Context {num : Type} {N : NumOps num}.
  Notation expr := (expr num).

  (** [rearranged a b]: [a] becomes [b] by exchanging and regrouping the
      operands of commutative nodes and replacing literals by equal ones,
      anywhere in the expression. *)
  Inductive rearranged : expr -> expr -> Prop :=
  | ra_refl e : rearranged e e
  | ra_sym a b : rearranged a b -> rearranged b a
  | ra_trans a b c : rearranged a b -> rearranged b c -> rearranged a c
  | ra_real x y : n_eqb x y = true -> rearranged (EReal x) (EReal y)
  | ra_mat r c d d' : Forall2 (fun x y => n_eqb x y = true) d d' -> rearranged (EMat r c d) (EMat r c d')
  | ra_bin o a a' b b' : rearranged a a' -> rearranged b b' -> rearranged (EBin o a b) (EBin o a' b')
  | ra_un o a a' : rearranged a a' -> rearranged (EUn o a) (EUn o a')
  | ra_comm o a b : commutative o -> rearranged (EBin o a b) (EBin o b a)
  | ra_assoc o a b c : commutative o -> rearranged (EBin o (EBin o a b) c) (EBin o a (EBin o b c)).

  (** In no commutative node of [e] does one operand Equal another one,
      operands of nested nodes of the same type included. *)
  Definition tidy : expr -> Prop :=
    forall_sub (fun e => match e with
                         | EBin o a b => commutative o ->
                           ForallOrdPairs (fun x y => equals x y <> Some true /\ equals y x <> Some true) (flatten o a b)
                         | _ => True
                         end).

  (** [covered a b]: what Equals looks at.  Commutative nodes are covered when
      every operand of the first occurs among the operands of the second,
      other nodes when their operands are, leaves when they are the same. *)
  Inductive covered : expr -> expr -> Prop :=
  | cv_real x y : n_eqb x y = true -> covered (EReal x) (EReal y)
  | cv_mat r c d d' : Forall2 (fun x y => n_eqb x y = true) d d' -> covered (EMat r c d) (EMat r c d')
  | cv_var x : covered (EVar x) (EVar x)
  | cv_imag : covered EImag EImag
  | cv_euler : covered EEuler EEuler
  | cv_pi : covered EPi EPi
  | cv_un o a a' : covered a a' -> covered (EUn o a) (EUn o a')
  | cv_bin o a a' b b' : ~ commutative o -> covered a a' -> covered b b' -> covered (EBin o a b) (EBin o a' b')
  | cv_node o a a' b b' : commutative o ->
      (forall x, In x (flatten o a b) -> exists y, In y (flatten o a' b') /\ covered x y) ->
      covered (EBin o a b) (EBin o a' b').
End Equal.
