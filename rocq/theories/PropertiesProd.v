(** Properties C69 and C70: what Simplify and Equals do with products of
    integers and powers of variables, in exact arithmetic and in IEEE doubles. *)
From Coq Require Import String Bool Arith ZArith QArith Reals Lra Lia.
From Coquelicot Require Import Coquelicot.
From Coq Require Import List.
From Flocq Require Import Core BinarySingleNaN.
From Verif Require Import Base Num Expr Ghost Simplify Calculus Spec SpecPoly SpecProd QNum PowProofs TreeProofs MonadProofs FuelProofs PolyProofs ProdProofs ProdSem SemProofs DoubleNum PropertiesSimplify PropertiesPoly.
Import ListNotations.
Open Scope string_scope.
Open Scope Z_scope.
Open Scope list_scope.

(** ** C69: Like factors are combined *)
Definition C69_statement : Prop :=
  forall (num : Type) (N : NumOps num) lit ok, IntLits N lit ok -> (forall z, ok z) ->
  forall (e : expr num) fs, product lit e fs ->
  exists l r n, snd (simp n true e) = Ok r /\ product_of lit l r /\ gathered lit l fs.

(** x^2 * x^2 becomes (x^2)^2. *)
Definition x_squared : expr Q := EExp (qv "x") (qr 2).
Theorem c69_refuted : ~ C69_statement.
Proof.
  intros S. destruct (S Q Q_ops q_int any q_ints (fun _ => I) (EMul x_squared x_squared) ([(Some "x", 2)] ++ [(Some "x", 2)]))
    as (l & r & n & Hr & Hs & fl & Fl & Dl & Tl).
  - assert (P : product q_int x_squared [(Some "x", 2)]).
    { apply pd_fac, fc_pow; [|lia]. apply pw_exp; [reflexivity|discriminate|discriminate]. }
    now apply pd_mul.
  - assert (R : r = EExp x_squared (qr 2)).
    { symmetry. refine (run_unique 20 n true _ _ r [] _ Hr). vm_compute. reflexivity. }
    subst r. destruct Fl as [|e f l fl He Fl]; [destruct Hs as (c & _ & Hs); discriminate Hs|].
    destruct Hs as (d & Hs). remember (e :: l) as el eqn:El. remember (EExp x_squared (qr 2)) as r eqn:Er.
    destruct Hs as [d e'|d l1 l2 a b H1 H2]; [|discriminate Er]. injection El as E1 E2. subst e e'.
    inversion He as [|p x k Hp K]; subst. inversion Hp.
Qed.
Print Assumptions c69_refuted.

(** Not even the value is kept for all products: in (x*y)*((x*y)*z) the
    second operand is taken for x*y, and z is lost. *)
Theorem c69_lost_factor : forall n r,
  snd (simp n true (EMul (EMul (qv "x") (qv "y")) (EMul (EMul (qv "x") (qv "y")) (qv "z")))) = Ok r ->
  r = EExp (EMul (qv "x") (qv "y")) (qr 2).
Proof.
  intros n r H. symmetry. refine (run_unique 40 n true _ _ r [LooseEquals] _ H). vm_compute. reflexivity.
Qed.
Print Assumptions c69_lost_factor.
Example c69_lost_factor_case : exists n r,
  snd (simp n true (EMul (EMul (qv "x") (qv "y")) (EMul (EMul (qv "x") (qv "y")) (qv "z")))) = Ok r.
Proof. exists 40%nat. eexists. vm_compute. reflexivity. Qed.

(** Proved: products nested in any way, when of any two operands that share a
    variable or both have a number one is a single factor, which is a variable
    to the power 1 or differs from what the other operand has.  The result is
    a balanced product of the combined factors, or a single one.  [roomy]
    bounds the product of the numbers and every sum of exponents: it is no
    restriction in exact arithmetic, and 2^53 for doubles.  Missing: operands
    with two or more factors that share one, equal powers and equal numbers,
    exponents that are not positive and the numbers 0 and 1. *)
Theorem c69_like_factors_partial : forall (num : Type) (N : NumOps num) lit ok, IntLits N lit ok ->
  forall prefer (e : expr num) fs, easy_product lit e fs -> (forall n, ok (amount n fs)) ->
  exists l r, always prefer e r /\ tree_over OMul (Nat.log2_up (length l)) l r /\ gathered lit l fs.
Proof.
  intros num N lit ok IL prefer e fs He Hw.
  destruct (easy_gathered lit ok IL prefer e fs He Hw) as (l & r & Y & B & C & _).
  exists l, r. split; [now apply yields_always|]. auto.
Qed.
Print Assumptions c69_like_factors_partial.

(** Every such expression is in the class of the full statement, and a balanced product is a product. *)
Lemma easy_is_product {num} (lit : num -> Z -> Prop) e fs : easy_product lit e fs -> product lit e fs.
Proof. induction 1; eauto using pd_fac, pd_mul. Qed.

(** The value is kept, for all values of the variables. *)
Theorem c69_value : forall (num : Type) (N : NumOps num) lit ok, IntLits N lit ok ->
  forall toR, (forall c z, lit c z -> toR c = IZR z) ->
  forall prefer (e : expr num) fs, easy_product lit e fs -> (forall n, ok (amount n fs)) ->
  exists r, always prefer e r /\ forall rho v, ev toR e rho v <-> ev toR r rho v.
Proof.
  intros num N lit ok IL toR HR prefer e fs He Hw.
  destruct (easy_gathered lit ok IL prefer e fs He Hw) as (l & r & Y & B & (fl & Fl & Dl & Al) & _).
  exists r. split; [now apply yields_always|].
  apply easy_is_product in He. pose proof (tree_product lit _ _ _ _ B Fl) as P.
  intros rho v. pose proof (ev_product lit toR HR rho e fs He) as V. pose proof (ev_product lit toR HR rho r fl P) as V'.
  assert (E : cprod rho fs = cprod rho fl).
  { eapply (cprod_amounts rho (length fs)); [lia|eapply product_fine; eauto|eapply product_fine; eauto|]. intros n. now rewrite Al. }
  rewrite E in V. split; intros K.
  - now rewrite (ev_fun toR _ _ _ _ K V).
  - now rewrite (ev_fun toR _ _ _ _ K V').
Qed.
Print Assumptions c69_value.

(** Simplifying the result again changes nothing. *)
Theorem c69_idempotent : forall (num : Type) (N : NumOps num) lit ok, IntLits N lit ok ->
  forall prefer (e : expr num) fs, easy_product lit e fs -> (forall n, ok (amount n fs)) ->
  exists r, always prefer e r /\ always prefer r r.
Proof.
  intros num N lit ok IL prefer e fs He Hw.
  destruct (easy_gathered lit ok IL prefer e fs He Hw) as (l & r & Y & B & C & Y').
  exists r. split; now apply yields_always.
Qed.
Print Assumptions c69_idempotent.

(** All of it for doubles, whatever pow and log2 compute. *)
Theorem c69_doubles : forall pw lg pwx lgx, let N := double_ops pw lg pwx lgx in
  forall prefer (e : expr double) fs, easy_product d_int e fs -> (forall n, Z.abs (amount n fs) <= 2 ^ 53) ->
  exists l r, always prefer e r /\ always prefer r r /\ tree_over OMul (Nat.log2_up (length l)) l r /\
    gathered d_int l fs /\ forall rho v, ev B2R e rho v <-> ev B2R r rho v.
Proof.
  intros pw lg pwx lgx N prefer e fs He Hw.
  pose proof (double_ints pw lg pwx lgx) as IL. fold N in IL.
  destruct (c69_like_factors_partial double N d_int d_ok IL prefer e fs He Hw) as (l & r & A & T & C).
  destruct (c69_value double N d_int d_ok IL B2R (fun c z H => proj2 H) prefer e fs He Hw) as (r1 & A1 & V).
  destruct (c69_idempotent double N d_int d_ok IL prefer e fs He Hw) as (r2 & A2 & I2).
  rewrite <- (always_fun prefer e r r1 A A1) in V. rewrite <- (always_fun prefer e r r2 A A2) in I2.
  exists l, r. auto.
Qed.
Print Assumptions c69_doubles.

(** ((2*x^3) * (y*x)) ... is out; ((2*x^3)*y) * x, then times 5, then times z*w^2 is in. *)
Definition prod_example : expr double :=
  EMul (EMul (EMul (EMul (EMul (dr 2) (EExp (EVar "x") (dr 3))) (EVar "y")) (EVar "x")) (dr 5))
       (EMul (EVar "z") (EExp (EVar "w") (dr 2))).
Definition prod_factors : list factor :=
  [(None, 2); (Some "x", 3); (Some "y", 1); (Some "x", 1); (None, 5); (Some "z", 1); (Some "w", 2)].
Lemma amounts_small (b : Z) fs : fold_right (fun f s => Z.max 1 (Z.abs (snd f)) * s) 1 fs <= b ->
  fold_right (fun f s => Z.abs (snd f) + s) 0 fs <= b -> forall n, Z.abs (amount n fs) <= b.
Proof.
  intros H K n. destruct n as [x|].
  - refine (Z.le_trans _ _ _ _ K). clear. induction fs as [|f fs IH]; [reflexivity|]. rewrite amount_cons. cbn [fold_right].
    destruct (name_eqb _ _); cbn [join]; lia.
  - refine (Z.le_trans _ _ _ _ H). clear.
    assert (P : 1 <= fold_right (fun f s => Z.max 1 (Z.abs (snd f)) * s) 1 fs /\
      Z.abs (amount None fs) <= fold_right (fun f s => Z.max 1 (Z.abs (snd f)) * s) 1 fs); [|tauto].
    induction fs as [|f fs [I1 I2]]; [split; reflexivity|]. rewrite amount_cons. cbn [fold_right].
    set (p := fold_right _ 1 fs) in *. split; [nia|]. destruct (name_eqb _ _); cbn [join]; [rewrite Z.abs_mul|]; nia.
Qed.
Example c69_case : easy_product d_int prod_example prod_factors /\ (forall n, Z.abs (amount n prod_factors) <= 2 ^ 53).
Proof.
  assert (V : forall x, easy_product d_int (EVar x) [(Some x, 1)]) by (intros x; apply ep_fac, fc_pow; [apply pw_var|lia]).
  split.
  - apply (ep_mul _ _ _ [(None, 2); (Some "x", 3); (Some "y", 1); (Some "x", 1); (None, 5)] [(Some "z", 1); (Some "w", 2)]).
    + apply (ep_mul _ _ _ [(None, 2); (Some "x", 3); (Some "y", 1); (Some "x", 1)] [(None, 5)]).
      * apply (ep_mul _ _ _ [(None, 2); (Some "x", 3); (Some "y", 1)] [(Some "x", 1)]); [|apply V|right; left; exists (Some "x"), 1; auto].
        apply (ep_mul _ _ _ [(None, 2); (Some "x", 3)] [(Some "y", 1)]); [|apply V|right; left; exists (Some "y"), 1; auto].
        apply (ep_mul _ _ _ [(None, 2)] [(Some "x", 3)]).
        -- apply ep_fac, fc_lit; [now apply d_lit|discriminate|discriminate].
        -- apply ep_fac, fc_pow; [apply pw_exp; [now apply d_lit|discriminate|discriminate]|lia].
        -- left. intros n [<-|[]] [H|[]]. discriminate.
      * apply ep_fac, fc_lit; [now apply d_lit|discriminate|discriminate].
      * right; left. exists None, 5. split; [reflexivity|]. right. discriminate.
    + apply (ep_mul _ _ _ [(Some "z", 1)] [(Some "w", 2)]); [apply V| |left; intros n [<-|[]] [H|[]]; discriminate].
      apply ep_fac, fc_pow; [apply pw_exp; [now apply d_lit|discriminate|discriminate]|lia].
    + left. intros n H K. cbn in H, K. intuition (subst; discriminate).
  - apply amounts_small; vm_compute; discriminate.
Qed.

(** ** C70: Equals decides equality of simplified products *)
Definition same_product (fs fs' : list factor) : Prop := forall n, amount n fs = amount n fs'.
Definition C70_statement : Prop :=
  forall (num : Type) (N : NumOps num) lit ok, IntLits N lit ok -> (forall z, ok z) ->
  forall (e e' r r' : expr num) fs fs' n, product lit e fs -> product lit e' fs' ->
  snd (simp n true e) = Ok r -> snd (simp n true e') = Ok r' ->
  (equals r r' = Some true <-> same_product fs fs').

(** x*y Equals (x*y)*z, because only the factors of the first are looked up. *)
Theorem c70_refuted : ~ C70_statement.
Proof.
  intros S.
  specialize (S Q Q_ops q_int any q_ints (fun _ => I)
    (EMul (qv "x") (qv "y")) (EMul (EMul (qv "x") (qv "y")) (qv "z")) (EMul (qv "x") (qv "y")) (EMul (EMul (qv "x") (qv "y")) (qv "z"))
    ([(Some "x", 1)] ++ [(Some "y", 1)]) (([(Some "x", 1)] ++ [(Some "y", 1)]) ++ [(Some "z", 1)]) 20%nat).
  assert (K : amount (Some "z") [(Some "x", 1); (Some "y", 1)] =
              amount (Some "z") [(Some "x", 1); (Some "y", 1); (Some "z", 1)]); [|discriminate K].
  assert (V : forall x, product q_int (qv x) [(Some x, 1)]) by (intros x; apply pd_fac, fc_pow; [apply pw_var|lia]).
  apply S; try (vm_compute; reflexivity).
  - apply pd_mul; apply V.
  - apply pd_mul; [apply pd_mul|]; apply V.
Qed.
Print Assumptions c70_refuted.

(** Proved on the class above: the same products give Equal results, and
    results that are Equal both ways come from the same product.  One way, a
    yes says that what the first has occurs in the second to the same power.
    Missing: that Equals one way is enough, which is false, and the rest of
    the class. *)
Theorem c70_decides_partial : forall (num : Type) (N : NumOps num) lit ok, IntLits N lit ok ->
  forall prefer (e e' : expr num) fs fs', easy_product lit e fs -> easy_product lit e' fs' ->
  (forall n, ok (amount n fs)) -> (forall n, ok (amount n fs')) ->
  exists r r', always prefer e r /\ always prefer e' r' /\
    (same_product fs fs' -> equals r r' = Some true) /\
    (equals r r' = Some true /\ equals r' r = Some true <-> same_product fs fs') /\
    (equals r r' = Some true -> forall n, amount n fs <> SpecProd.unit n -> amount n fs' = amount n fs) /\
    equals r r' <> None.
Proof.
  intros num N lit ok IL prefer e e' fs fs' He He' Hw Hw'.
  destruct (easy_gathered lit ok IL prefer e fs He Hw) as (l & r & Y & B & C & _).
  destruct (easy_gathered lit ok IL prefer e' fs' He' Hw') as (l' & r' & Y' & B' & C' & _).
  exists r, r'. split; [now apply yields_always|]. split; [now apply yields_always|].
  pose proof (gathered_equal lit ok IL _ _ _ _ _ _ _ _ B B' C C') as E.
  pose proof (gathered_equal lit ok IL _ _ _ _ _ _ _ _ B' B C' C) as E'.
  destruct (gathered_equals lit ok IL _ _ _ _ _ _ _ _ B B' C C') as (q & Q1 & Q2).
  destruct (gathered_equals lit ok IL _ _ _ _ _ _ _ _ B' B C' C) as (q' & Q1' & Q2').
  split; [exact E|]. split; [split|split].
  - intros [K K']. rewrite Q1 in K. rewrite Q1' in K'. injection K as ->. injection K' as ->. intros n.
    destruct (Z.eq_dec (amount n fs) (SpecProd.unit n)) as [Z0|Z0]; [|now rewrite (Q2 eq_refl n Z0)].
    destruct (Z.eq_dec (amount n fs') (SpecProd.unit n)) as [Z1|Z1]; [congruence|]. rewrite (Q2' eq_refl n Z1) in Z0. contradiction.
  - intros K. split; [now apply E|apply E'; intros n; symmetry; apply K].
  - intros K. rewrite Q1 in K. injection K as ->. now apply Q2.
  - congruence.
Qed.
Print Assumptions c70_decides_partial.

(** (3*x)*(y*2) has numbers on both sides of a product of products and is out;
    ((3*x)*y)*2 and y*(x*6) are the same product. *)
Definition p_left : expr Q := EMul (EMul (EMul (qr 3) (qv "x")) (qv "y")) (qr 2).
Definition p_right : expr Q := EMul (qv "y") (EMul (qv "x") (qr 6)).
Example c70_case : exists fs fs', easy_product q_int p_left fs /\ easy_product q_int p_right fs' /\ same_product fs fs'.
Proof.
  exists ((([(None, 3)] ++ [(Some "x", 1)]) ++ [(Some "y", 1)]) ++ [(None, 2)]), ([(Some "y", 1)] ++ [(Some "x", 1)] ++ [(None, 6)]).
  assert (V : forall x, easy_product q_int (qv x) [(Some x, 1)]) by (intros x; apply ep_fac, fc_pow; [apply pw_var|lia]).
  assert (L : forall z, z <> 0 -> z <> 1 -> easy_product q_int (qr z) [(None, z)]) by (intros z H0 H1; apply ep_fac, fc_lit; [reflexivity|exact H0|exact H1]).
  repeat split.
  - apply ep_mul; [apply ep_mul; [apply ep_mul|..]|..]; try apply V; try (apply L; discriminate).
    + left. intros n [<-|[]] [H|[]]. discriminate.
    + right; left. exists (Some "y"), 1. auto.
    + right; left. exists None, 2. split; [reflexivity|]. right. discriminate.
  - apply ep_mul; [|apply ep_mul|]; try apply V; try (apply L; discriminate).
    + left. intros n [<-|[]] [H|[]]. discriminate.
    + right; right. exists (Some "y"), 1. auto.
  - intros n. unfold amount. cbn -[Z.mul Z.add]. destruct n as [v|]; cbn -[String.eqb Z.mul Z.add]; [|reflexivity].
    destruct (String.eqb v "x"), (String.eqb v "y"); reflexivity.
Qed.
