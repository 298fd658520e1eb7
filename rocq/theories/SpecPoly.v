(** Sums of terms c, c*x, c*x^k and x^k*c with integer coefficients, and what it
    means to combine like terms.  This file does not mention the model of any
    algorithm; it only uses the type of expressions. *)
From Coq Require Import String Bool ZArith List.
From Verif Require Import Num Expr.
Import ListNotations.
Open Scope Z_scope.
Open Scope list_scope.

(** [IntLits N lit ok]: [lit c z] relates a literal to the integer it stands
    for, and the arithmetic is exact as long as the integers computed are
    [ok].  For double, [ok z] is |z| <= 2^53. *)
Record IntLits {num : Type} (N : NumOps num) (lit : num -> Z -> Prop) (ok : Z -> Prop) : Prop := {
  il_ok_le : forall x y, ok x -> Z.abs y <= Z.abs x -> ok y;
  il_ok_2 : ok 2;
  il_of_Z : forall z, ok z -> lit (n_of_Z z) z;
  il_add : forall a b x y, lit a x -> lit b y -> ok (x + y) -> lit (n_add a b) (x + y);
  il_sub : forall a b x y, lit a x -> lit b y -> ok (x - y) -> lit (n_sub a b) (x - y);
  il_mul : forall a b x y, lit a x -> lit b y -> ok (x * y) -> lit (n_mul a b) (x * y);
  il_eqb : forall a b x y, lit a x -> lit b y -> n_eqb a b = (x =? y);
  il_tiny : forall a x, lit a x -> n_leb (n_abs a) n_eps = (x =? 0)
}.

(** What a term is a multiple of: [None] is 1, [Some (x, k)] is x^k. *)
Definition key := option (string * Z).
(** A term: what it is a multiple of, and its coefficient. *)
Definition monomial := (key * Z)%type.

Definition key_eqb (a b : key) : bool :=
  match a, b with
  | None, None => true
  | Some (x, k), Some (y, j) => String.eqb x y && (k =? j)
  | _, _ => false
  end.

(** The coefficient of [k] in a list of terms. *)
Definition total (k : key) (ts : list monomial) : Z :=
  fold_right (fun t s => (if key_eqb k (fst t) then snd t else 0) + s) 0 ts.
(** The sum of the magnitudes of all coefficients. *)
Definition weight (ts : list monomial) : Z := fold_right (fun t s => Z.abs (snd t) + s) 0 ts.
Definition keys (ts : list monomial) : list key := map fst ts.
Definition scale (z : Z) (ts : list monomial) : list monomial := map (fun t => (fst t, z * snd t)) ts.
(** At least two terms are left when like terms are combined. *)
Definition two_left (ts : list monomial) : Prop :=
  exists k j, k <> j /\ total k ts <> 0 /\ total j ts <> 0.
(** Two operands can be told apart: one of them is a single term, or some
    power of a variable is left in the first and does not occur in the second. *)
Definition apart (ta tb : list monomial) : Prop :=
  length ta = 1%nat \/ length tb = 1%nat \/
  exists p, total (Some p) ta <> 0 /\ ~ In (Some p) (keys tb).

(** The number in the second operand, if only that is left, is not the
    coefficient of a power in the first. *)
Definition unshared (ta tb : list monomial) : Prop :=
  two_left ta \/ two_left tb \/ total None tb = 0 \/
  forall p, total (Some p) ta <> total None tb.

(** The derivative of a term, and of a list of terms, with respect to [x]. *)
Definition deriv1 (x : string) (t : monomial) : monomial :=
  match fst t with
  | Some (y, k) => if String.eqb y x then (if k =? 1 then (None, snd t) else (Some (x, k - 1), k * snd t)) else (None, 0)
  | None => (None, 0)
  end.
Definition deriv (x : string) (ts : list monomial) : list monomial := map (deriv1 x) ts.

Section Poly.
  Context {num : Type}.
  Variable lit : num -> Z -> Prop.
  Variable ok : Z -> Prop.
  Notation expr := (expr num).

  (** x is x^1; other powers are written with an exponent other than 0 and 1. *)
  Inductive power : expr -> string -> Z -> Prop :=
  | pw_var x : power (EVar x) x 1
  | pw_exp x c k : lit c k -> k <> 0 -> k <> 1 -> power (EExp (EVar x) (EReal c)) x k.

  (** c * e, and also e * c if [post]; [z] is the value of [c]. *)
  Inductive multiple (post : bool) (c : num) (z : Z) (e : expr) : expr -> Prop :=
  | ml_pre : multiple post c z e (EMul (EReal c) e)
  | ml_post : post = true -> z <> 0 -> multiple post c z e (EMul e (EReal c)).

  (** c, x^k, c * x^k, and also x^k * c if [post]. *)
  Inductive term (post : bool) : expr -> monomial -> Prop :=
  | tm_const c z : lit c z -> term post (EReal c) (None, z)
  | tm_power e x k : power e x k -> term post e (Some (x, k), 1)
  | tm_scaled c z e x k m : lit c z -> power e x k -> multiple post c z e m -> term post m (Some (x, k), z).

  (** [plain e ts]: [e] is a sum of the terms [ts], nested in any way, such
      that the operands of each sum can be told apart. *)
  Inductive plain (post : bool) : expr -> list monomial -> Prop :=
  | pl_term e t : term post e t -> plain post e [t]
  | pl_add a b ta tb : plain post a ta -> plain post b tb -> apart ta tb -> plain post (EAdd a b) (ta ++ tb).

  (** [poly prefer post e ts]: [e] is made from terms by sums, differences,
      negation and multiplication by integers, and [ts] are its terms after
      multiplying out.  Without [prefer] (the policy under which Simplify
      distributes products over sums) the only factor of a sum is -1.  With
      [post] a coefficient may follow its power outside of negations,
      products and the second operand of a difference. *)
  Inductive poly (prefer : bool) : bool -> expr -> list monomial -> Prop :=
  | po_term post e t : term post e t -> poly prefer post e [t]
  | po_pre e ts : poly prefer false e ts -> poly prefer true e ts
  | po_add post a b ta tb : poly prefer post a ta -> poly prefer post b tb -> apart ta tb ->
      poly prefer post (EAdd a b) (ta ++ tb)
  | po_sub post a b ta tb : poly prefer post a ta -> poly prefer false b tb -> apart ta tb ->
      (post = false \/ unshared ta tb) -> poly prefer post (ESub a b) (ta ++ scale (-1) tb)
  | po_neg a ta : poly prefer false a ta -> poly prefer false (ENeg a) (scale (-1) ta)
  | po_scale c z a ta : lit c z -> z <> 0 -> ok (Z.abs z + 1) -> (prefer = true \/ z = -1 \/ length ta = 1%nat) ->
      poly prefer false a ta -> poly prefer false (EMul (EReal c) a) (scale z ta).

  (** [polynomial e ts]: the same without the conditions on operands; [ts]
      are the terms of [e] after multiplying out. *)
  Inductive polynomial : expr -> list monomial -> Prop :=
  | pn_term e t : term true e t -> polynomial e [t]
  | pn_add a b ta tb : polynomial a ta -> polynomial b tb -> polynomial (EAdd a b) (ta ++ tb)
  | pn_sub a b ta tb : polynomial a ta -> polynomial b tb -> polynomial (ESub a b) (ta ++ scale (-1) tb)
  | pn_neg a ta : polynomial a ta -> polynomial (ENeg a) (scale (-1) ta)
  | pn_scale c z a ta : lit c z -> polynomial a ta -> polynomial (EMul (EReal c) a) (scale z ta).

  (** A term as Simplify should write it: no coefficient 0, and no
      coefficient 1 in front of a power. *)
  Inductive neat : expr -> monomial -> Prop :=
  | nt_const c z : lit c z -> z <> 0 -> neat (EReal c) (None, z)
  | nt_power e x k : power e x k -> neat e (Some (x, k), 1)
  | nt_scaled c z e x k : lit c z -> z <> 0 -> z <> 1 -> power e x k ->
      neat (EMul (EReal c) e) (Some (x, k), z).

  (** [combined l ts]: the expressions [l] are the terms of [ts] after
      combining like terms: each power occurs once, with its total
      coefficient, which is not 0. *)
  Definition combined (l : list expr) (ts : list monomial) : Prop :=
    exists tl, Forall2 neat l tl /\ NoDup (keys tl) /\ forall k, total k tl = total k ts.

  (** Two polynomials are the same: every power has the same coefficient. *)
  Definition same_polynomial (ts ts' : list monomial) : Prop := forall k, total k ts = total k ts'.
End Poly.
