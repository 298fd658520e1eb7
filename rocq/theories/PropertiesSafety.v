(** Properties C14-C17 and C23: termination, failures, idempotence and the
    variables of the result. *)
From Coq Require Import String Bool Arith ZArith QArith Lia List.
From Verif Require Import Base Num Expr Ghost Simplify Calculus Spec QNum TreeProofs FuelProofs Closure PropertiesSimplify PropertiesCalculus.
Import ListNotations.
Open Scope string_scope.

(** No node of [e] is an Integral. *)
Definition no_integral {num} : expr num -> Prop := forall_sub (fun e => forall a b, e <> EInt a b).

Definition anything : allowed := {| thr := True; und := fun _ => True; abt := True; bad := fun _ => false |}.

Section VarClass.
  Context {num : Type} {N : NumOps num}.
  Variable X : string -> Prop.

  Definition vars_in (e : expr num) : Prop := forall x, mentions_var x e -> X x.

  Lemma class_no_integral : class anything True (fun e => no_integral e /\ vars_in e).
  Proof.
    unfold no_integral, vars_in.
    constructor; simpl; intros; repeat split; simpl; intros; try easy; try tauto; try (intuition (auto; fail));
      try (left; repeat split; simpl; try easy; tauto).
    all: exfalso; destruct H as [[Hn _] _]; eapply Hn; reflexivity.
  Qed.

  Lemma class_integral : X "C" -> class anything True vars_in.
  Proof.
    intros HX. unfold vars_in.
    constructor; simpl; intros; repeat split; simpl; intros; try easy; try tauto; try (intuition (auto; fail));
      try (left; repeat split; simpl; try easy; tauto).
    now subst.
  Qed.
End VarClass.


Lemma no_bad l : existsb (bad anything) l = true -> False.
Proof. induction l; simpl; auto. Qed.

(** ** C14: Simplify terminates *)
Definition C14_statement : Prop :=
  forall (num : Type) (N : NumOps num) prefer (e : expr num),
  exists n, snd (simp n prefer e) <> OutOfFuel.

Lemma integ_imag_loops {num} {N : NumOps num} n v : snd (integ n EImag v : M (option (expr num))) = OutOfFuel.
Proof. induction n; [reflexivity|exact IHn]. Qed.

(** Integral(i, x): LeafExpression::Integrate calls itself on a copy. *)
Theorem c14_integral_loops :
  forall (num : Type) (N : NumOps num) prefer n x,
  snd (simp n prefer (EInt EImag (EVar x) : expr num)) = OutOfFuel.
Proof.
  intros num N prefer [|[|n]] x; [reflexivity|reflexivity|].
  change (snd (bind (integ (S n) EImag (EVar x)) (fun r => match r with Some e => ret e | None => abort end)
               : M (expr num)) = OutOfFuel).
  pose proof (integ_imag_loops (num := num) (S n) (EVar x)) as H.
  destruct (integ (S n) EImag (EVar x)) as [t o]. simpl in H. now subst o.
Qed.
Print Assumptions c14_integral_loops.

(** Derivative(Magnitude(x), x): the derivative is not implemented, so the
    node is its own derivative and is simplified again. *)
Theorem c14_derivative_loops :
  forall (num : Type) (N : NumOps num) prefer n x,
  snd (simp n prefer (EDeriv (EMag (EVar x)) (EVar x) : expr num)) = OutOfFuel.
Proof.
  intros num N prefer n x. induction n as [|n IH]; [reflexivity|].
  destruct n as [|n]; [reflexivity|]. destruct n as [|n]; [reflexivity|].
  change (snd (bind (simp (S (S n)) prefer (EDeriv (EMag (EVar x)) (EVar x)))
                    (fun s => m_value (simp (S (S n)) prefer s)) : M (expr num)) = OutOfFuel).
  destruct (simp (S (S n)) prefer (EDeriv (EMag (EVar x)) (EVar x))) as [t o].
  simpl in IH. now subst o.
Qed.
Print Assumptions c14_derivative_loops.

Theorem c14_refuted : ~ C14_statement.
Proof. intros H. destruct (H Q Q_ops false (EInt EImag (qv "x"))) as [n K]. apply K, c14_integral_loops. Qed.
Print Assumptions c14_refuted.

(** The bound on the recursion depth decides nothing: two depths that are
    enough give the same outcome. *)
Theorem c14_bound_irrelevant :
  forall (num : Type) (N : NumOps num) prefer n m (e : expr num),
  snd (simp n prefer e) <> OutOfFuel -> snd (simp m prefer e) <> OutOfFuel ->
  simp n prefer e = simp m prefer e.
Proof.
  intros num N prefer n m e Hn Hm.
  destruct (Nat.le_ge_cases n m) as [H|H].
  - now destruct (simp_mono n m prefer e H) as [K|K].
  - now destruct (simp_mono m n prefer e H) as [K|K].
Qed.
Print Assumptions c14_bound_irrelevant.

(** ** C17: Simplify introduces no variables *)
Theorem c17_no_new_variables :
  forall (num : Type) (N : NumOps num) n prefer (e r : expr num) x,
  no_integral e -> snd (simp n prefer e) = Ok r -> mentions_var x r -> mentions_var x e.
Proof.
  intros num N n prefer e r x He H Hx.
  destruct (proj1 (knot_closed _ _ _ (class_no_integral (fun y => mentions_var y e)) n) prefer e) as [K|K].
  - split; [assumption|now intros y].
  - destruct (no_bad _ K).
  - rewrite H in K. now apply K.
Qed.
Print Assumptions c17_no_new_variables.

(** With integrals, at most the constant of integration is new. *)
Theorem c17_integral_constant :
  forall (num : Type) (N : NumOps num) n prefer (e r : expr num) x,
  snd (simp n prefer e) = Ok r -> mentions_var x r -> mentions_var x e \/ x = "C".
Proof.
  intros num N n prefer e r x H Hx.
  destruct (proj1 (knot_closed _ _ _ (class_integral (fun y => mentions_var y e \/ y = "C") (or_intror eq_refl)) n) prefer e) as [K|K].
  - intros y. tauto.
  - destruct (no_bad _ K).
  - rewrite H in K. now apply K.
Qed.
Print Assumptions c17_integral_constant.

(** The same for Differentiate. *)
Theorem c17_differentiate_variables :
  forall (num : Type) (N : NumOps num) n (e d : expr num) x y,
  no_integral e -> snd (differentiate n e (EVar x)) = Ok d -> mentions_var y d -> mentions_var y e \/ y = x.
Proof.
  intros num N n e d x y He H Hy.
  destruct (differentiate_closed _ _ _ (class_no_integral (fun z => mentions_var z e \/ z = x)) n e (EVar x)) as [K|K].
  - split; [assumption|intros z; tauto].
  - split; [split; [discriminate|exact I]|simpl; intros z; tauto].
  - destruct (no_bad _ K).
  - rewrite H in K. now apply K.
Qed.
Print Assumptions c17_differentiate_variables.

Example c17_case :
  no_integral (EAdd (EMul (qv "x") (qv "y")) (ESub (qv "z") (qv "z"))) /\
  exists r, snd (simp 20 false (EAdd (EMul (qv "x") (qv "y")) (ESub (qv "z") (qv "z")))) = Ok r /\ mentions_var "y" r /\ ~ mentions_var "z" r.
Proof.
  split; [unfold no_integral; simpl; repeat split; discriminate|].
  eexists. split; [vm_compute; reflexivity|]. split; [vm_compute; tauto|].
  vm_compute. intros [H|H]; discriminate.
Qed.
Example c17_integral_case :
  exists r, snd (simp 20 false (EInt (qv "x") (qv "x"))) = Ok r /\ mentions_var "C" r.
Proof. eexists. split; [vm_compute; reflexivity|]. vm_compute. tauto. Qed.

(** ** C15: failures are reported through the result *)
Definition C15_statement : Prop :=
  forall (num : Type) (N : NumOps num) n prefer (e : expr num),
  match snd (simp n prefer e) with Ok _ | Err _ | OutOfFuel => True | _ => False end.

(** i^(-1): the transformer of the matching case returns no expression, value() throws. *)
Theorem c15_throws : snd (simp 40 false (EExp EImag (qr (-1)))) = Throw BadExpectedAccess.
Proof. vm_compute. reflexivity. Qed.
(** (x+y)^2 * ((x+y)+z): all factors merge into one, BuildFromVector gives null. *)
Theorem c15_aborts :
  snd (simp 40 false (EMul (EExp (EAdd (qv "x") (qv "y")) (qr 2)) (EAdd (EAdd (qv "x") (qv "y")) (qv "z")))) = Abort.
Proof. vm_compute. reflexivity. Qed.
(** Difference of a 1x1 and a 1x2 matrix. *)
Theorem c15_undefined_behaviour :
  snd (simp 40 false (ESub (EMat 1 1 [1%Q]) (EMat 1 2 [1%Q; 2%Q]))) = Undef EigenMismatch.
Proof. vm_compute. reflexivity. Qed.
(** pi + x: Pi::Equals casts a reference. *)
Theorem c15_pi_throws : snd (simp 40 false (EAdd EPi (qv "x"))) = Throw BadCast.
Proof. vm_compute. reflexivity. Qed.

Theorem c15_refuted : ~ C15_statement.
Proof.
  intros H. specialize (H Q Q_ops 40%nat false (EExp EImag (qr (-1)))). rewrite c15_throws in H. exact H.
Qed.
Print Assumptions c15_refuted.

(** Expressions built from literals, variables, e and Undefined by
    + - * / ^ log, negation and Derivative. *)
Definition plain {num} : expr num -> Prop :=
  forall_sub (fun e => e <> EPi /\ e <> EImag /\ (forall r c d, e <> EMat r c d) /\
                       (forall a b, e <> EInt a b) /\ (forall a, e <> ESine a) /\ (forall a, e <> EMag a)).

Definition plain_failures : allowed :=
  {| thr := False; und := fun _ => False; abt := True;
     bad := fun d => match d with SqrtNegative => true | _ => false end |}.

Lemma class_plain {num} {N : NumOps num} :
  (forall c, n_ltb c (n_of_Z 0) = true -> n_leb c (n_of_Z 0) = true) ->
  class plain_failures False (plain : expr num -> Prop).
Proof.
  intros HN. unfold plain. constructor; simpl; intros; repeat split; simpl; intros; try easy; try tauto; try (now right).
  all: exfalso; decompose [and] H; match goal with K : _ |- _ => now eapply K end.
Qed.

(** On these, Simplify answers, or aborts, or takes the square root of a
    product with a negative coefficient (which introduces i).  The error
    value is never used.
    Missing: Pi, i, matrices, Sine, Magnitude and Integral (each has a failing
    input above or in C14), and the absence of aborts. *)
Theorem c15_simplify_answers_partial :
  forall (num : Type) (N : NumOps num),
  (forall c, n_ltb c (n_of_Z 0) = true -> n_leb c (n_of_Z 0) = true) ->
  forall n prefer (e : expr num), plain e ->
  In SqrtNegative (fst (simp n prefer e)) \/
  match snd (simp n prefer e) with Ok r => plain r | Abort | OutOfFuel => True | _ => False end.
Proof.
  intros num N HN n prefer e He.
  destruct (proj1 (knot_closed _ _ _ (class_plain HN) n) prefer e He) as [K|K]; [left|right].
  - apply existsb_exists in K. destruct K as (d & K1 & K2). destruct d; try discriminate. exact K1.
  - destruct (snd (simp n prefer e)); auto. now destruct K.
Qed.
Print Assumptions c15_simplify_answers_partial.

(** No visitor ever returns the error value: every failure is an exception,
    an abort or undefined behaviour. *)
Theorem c15_error_value_unused :
  forall (num : Type) (N : NumOps num) n prefer (e : expr num) s, snd (simp n prefer e) <> Err s.
Proof.
  intros num N n prefer e s H.
  destruct (proj1 (knot_closed _ _ _ (class_integral (fun _ => True) I) n) prefer e) as [K|K].
  - now intros y.
  - destruct (no_bad _ K).
  - now rewrite H in K.
Qed.
Print Assumptions c15_error_value_unused.

Lemma Q_ltb_leb c : n_ltb c (n_of_Z 0) = true -> n_leb c (n_of_Z 0) = true.
Proof.
  intros H. simpl in *. apply negb_true_iff in H.
  destruct (Qle_bool c (inject_Z 0)) eqn:E; auto.
  destruct (Qlt_le_dec (inject_Z 0) c) as [L|L].
  - apply Qlt_le_weak, Qle_bool_iff in L. rewrite L in H. discriminate.
  - apply Qle_bool_iff in L. now rewrite L in E.
Qed.
Example c15_case :
  plain (EDiv (EDeriv (EExp (qv "x") (qv "y")) (qv "x")) (ELog EEuler (ENeg (qv "y")))) /\
  exists r, snd (simp 40 false (EDiv (EDeriv (EExp (qv "x") (qv "y")) (qv "x")) (ELog EEuler (ENeg (qv "y"))))) = Ok r.
Proof.
  split; [unfold plain; simpl; repeat split; discriminate|]. eexists. vm_compute. reflexivity.
Qed.

(** ** C23: Differentiate answers.  Missing, beside what is missing in C15:
    differentiation variables that are not variables are covered, but only
    plain ones. *)
Theorem c23_differentiate_answers_partial :
  forall (num : Type) (N : NumOps num),
  (forall c, n_ltb c (n_of_Z 0) = true -> n_leb c (n_of_Z 0) = true) ->
  forall n (e v : expr num), plain e -> plain v ->
  In SqrtNegative (fst (differentiate n e v)) \/
  match snd (differentiate n e v) with Ok r => plain r | Abort | OutOfFuel => True | _ => False end.
Proof.
  intros num N HN n e v He Hv.
  destruct (differentiate_closed _ _ _ (class_plain HN) n e v He Hv) as [K|K]; [left|right].
  - apply existsb_exists in K. destruct K as (d & K1 & K2). destruct d; try discriminate. exact K1.
  - destruct (snd (differentiate n e v)); auto. now destruct K.
Qed.
Print Assumptions c23_differentiate_answers_partial.
Example c23_case :
  plain (EMul (EExp (qv "x") (qr 3)) (ELog EEuler (qv "y"))) /\ plain (qv "x") /\
  exists r, differentiate 40 (EMul (EExp (qv "x") (qr 3)) (ELog EEuler (qv "y"))) (qv "x") = ([], Ok r).
Proof.
  split; [|split]; try (unfold plain; simpl; repeat split; discriminate). eexists. vm_compute. reflexivity.
Qed.

(** ** C16: Simplify is idempotent *)
Definition C16_statement : Prop :=
  forall (num : Type) (N : NumOps num) n prefer (e r r' : expr num),
  snd (simp n prefer e) = Ok r -> snd (simp n prefer r) = Ok r' -> r' = r.

(** x + (-1)*x simplifies to 0*x, and that to 0. *)
Theorem c16_refuted : ~ C16_statement.
Proof.
  intros H.
  assert (K : qr 0 = EMul (qr 0) (qv "x")).
  { refine (H Q Q_ops 40%nat false (EAdd (qv "x") (EMul (qr (-1)) (qv "x"))) _ _ _ _); vm_compute; reflexivity. }
  discriminate K.
Qed.
Print Assumptions c16_refuted.

(** Simplifying again changes nothing when the first result is a leaf; this
    covers every literal expression (C13).  Missing: results that are nodes. *)
Theorem c16_idempotent_partial :
  forall (num : Type) (N : NumOps num) n prefer (e r r' : expr num),
  snd (simp n prefer e) = Ok r -> is_leaf r \/ literal e -> snd (simp n prefer r) = Ok r' -> r' = r.
Proof.
  intros num N n prefer e r r' H He K.
  assert (L : is_leaf r).
  { destruct He as [He|He]; [exact He|].
    destruct (c13_single_literal num N e He) as (c & k & Hk).
    destruct (simp_mono n (Nat.max k n) prefer e (Nat.le_max_r k n)) as [E|E]; [now rewrite E in H|].
    rewrite E, (Hk _ prefer (Nat.le_max_l k n)) in H. now injection H as <-. }
  destruct n as [|n]; [discriminate|]. destruct r; try destruct L; now inversion K.
Qed.
Print Assumptions c16_idempotent_partial.
Example c16_case : exists r, snd (simp 20 false (EMul (EAdd (qr 1) (qr 2)) (qr 5))) = Ok r /\ is_leaf r.
Proof. eexists. split; [vm_compute; reflexivity|exact I]. Qed.
