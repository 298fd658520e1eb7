(** Property C97: the derivative of an integral. *)
From Coq Require Import String Bool Arith ZArith QArith Reals Lra Lia.
From Coquelicot Require Import Coquelicot.
From Coq Require Import List.
From Verif Require Import Base Num Expr Ghost Simplify Calculus Spec QNum PowProofs SemProofs MonadProofs SimplifySound DiffSound IntSound FuelProofs Closure PropertiesSimplify PropertiesCalculus PropertiesSafety PropertiesSubst PropertiesIntegral PropertiesUnevaluated.
Import ListNotations.
Open Scope string_scope.

(** ** C97: Differentiating an integral gives the integrand back
    Differentiate on Integral(f, x) with respect to x answers, and the answer
    has the value of [f] wherever [f] is a function of [x]. *)
Definition C97_statement : Prop :=
  forall (num : Type) (N : NumOps num) (toR : num -> R), Exact N toR ->
  forall (f : expr num) x,
  exists d k, (forall n, (k <= n)%nat -> snd (differentiate n (EInt f (EVar x)) (EVar x)) = Ok d) /\
    forall rho g, is_function toR x rho f g -> ev toR d rho (RtoC (g (rho x))).

Section Loop.
  Context {num : Type} {N : NumOps num}.

  Lemma stays (f v : expr num) k : (forall n, (k <= n)%nat -> snd (integ n f v) = Ok (Some (EInt f v))) ->
    forall n, snd (integ n f v) = OutOfFuel \/ snd (integ n f v) = Ok (Some (EInt f v)).
  Proof.
    intros H n. destruct (integ_mono n (Nat.max k n) f v (Nat.le_max_r _ _)) as [K|K]; [now left|right].
    rewrite K. apply H, Nat.le_max_l.
  Qed.

  Lemma bind_oof {A B} (m : M A) (g : A -> M B) : snd m = OutOfFuel -> snd (bind m g) = OutOfFuel.
  Proof. destruct m as [t o]. cbn. now intros ->. Qed.
  Lemma bind_ok {A B} (m : M A) (g : A -> M B) a : snd m = Ok a -> snd (bind m g) = snd (g a).
  Proof. destruct m as [t o]. cbn. now intros ->. Qed.
  Lemma try_oof {A} (m : M A) : snd m = OutOfFuel -> snd (m_try m) = OutOfFuel.
  Proof. destruct m as [t o]. cbn. now intros ->. Qed.

  Lemma diff_loops (f v : expr num) k y : (forall n, (k <= n)%nat -> snd (integ n f v) = Ok (Some (EInt f v))) ->
    forall n multi, snd (diff n multi (EInt f v) (EVar y)) = OutOfFuel.
  Proof.
    intros H n multi. induction n as [|n IH]; [reflexivity|].
    change (snd (diff_int (diff n multi) (integ n) f v (EVar y)) = OutOfFuel). unfold diff_int.
    destruct (stays f v k H n) as [K|K]; [now apply bind_oof|]. rewrite (bind_ok _ _ _ K). now apply bind_oof, try_oof.
  Qed.
End Loop.

(** Where Integrate answers with the unevaluated integral, the derivative of
    that integral, with respect to any variable, is never returned: the
    integral is asked for its derivative again. *)
Theorem c97_never_returns :
  forall (num : Type) (N : NumOps num) (f v : expr num) k,
  (forall n, (k <= n)%nat -> snd (integ n f v) = Ok (Some (EInt f v))) ->
  forall n y, snd (differentiate n (EInt f v) (EVar y)) = OutOfFuel.
Proof.
  intros num N f v k H n y. unfold differentiate, differentiate_with. apply bind_oof, try_oof. now apply (diff_loops f v k).
Qed.
Print Assumptions c97_never_returns.

(** So it is for negations and matrices, for powers that are neither x^c nor
    e^y, and for quotients that are not multiples. *)
Theorem c97_never_returns_classes :
  forall (num : Type) (N : NumOps num) (f : expr num) x,
  (exists a, f = ENeg a) \/ (exists r c d, f = EMat r c d) \/
  (exists a b s k, f = EExp a b /\ (forall n, (k <= n)%nat -> snd (simp n false f) = Ok s) /\
     (forall c, s <> EExp (EVar x) (EReal c)) /\ (forall y, s <> EExp EEuler (EVar y))) \/
  (exists a b s k, f = EDiv a b /\ (forall n, (k <= n)%nat -> snd (simp n false f) = Ok s) /\
     (forall c t, s <> EMul (EReal c) t /\ s <> EMul t (EReal c))) ->
  forall n y, snd (differentiate n (EInt f (EVar x)) (EVar y)) = OutOfFuel.
Proof.
  intros num N f x [H|[H|[(a & b & s & k & -> & H & H1 & H2)|(a & b & s & k & -> & H & H1)]]].
  - apply (c97_never_returns num N f (EVar x) 1). intros [|n] Hn; [lia|]. apply c72_never_evaluated. now left.
  - apply (c97_never_returns num N f (EVar x) 1). intros [|n] Hn; [lia|]. apply c72_never_evaluated. now right.
  - apply (c97_never_returns num N _ (EVar x) (S k)). intros [|n] Hn; [lia|]. apply (c72_powers num N n a b s); auto. apply H. lia.
  - apply (c97_never_returns num N _ (EVar x) (S k)). intros [|n] Hn; [lia|]. apply (c72_quotients num N n a b s); auto. apply H. lia.
Qed.
Print Assumptions c97_never_returns_classes.

(** d/dx of the integral of -x over x is never returned. *)
Theorem c97_refuted : ~ C97_statement.
Proof.
  intros S. destruct (S Q Q_ops Q2R Q_exact (ENeg (qv "x")) "x") as (d & k & H & _). specialize (H k (le_n _)).
  rewrite (c97_never_returns_classes Q Q_ops (ENeg (qv "x")) "x") in H by (left; now eexists). discriminate H.
Qed.
Print Assumptions c97_refuted.

(** Otherwise the derivative of an integral, with respect to any variable, is
    the derivative of what Integrate answers. *)
Theorem c97_delegates :
  forall (num : Type) (N : NumOps num) (f w F d : expr num) y k,
  (forall n, (k <= n)%nat -> snd (integ n f w) = Ok (Some F)) ->
  (forall n, (k <= n)%nat -> snd (differentiate n F (EVar y)) = Ok d) ->
  forall n, (k < n)%nat -> snd (differentiate n (EInt f w) (EVar y)) = Ok d.
Proof.
  intros num N f w F d y k HF HD [|n] Hn; [lia|]. specialize (HF n ltac:(lia)). specialize (HD n ltac:(lia)).
  unfold differentiate, differentiate_with in *.
  change (diff (S n) false (EInt f w) (EVar y)) with (diff_int (diff n false) (integ n) f w (EVar y)). unfold diff_int.
  destruct (integ n f w) as [t o]. cbn in HF. subst o. cbn [bind].
  destruct (diff n false F (EVar y)) as [t' [r|s0|s0| |u|]]; cbn in *; congruence.
Qed.
Print Assumptions c97_delegates.

(** Proved: where Integrate and Differentiate run without a flagged rule
    application, the answer has the value of the integrand.  [F] is what
    Integrate answers; it must be a smooth function at the point.
    Missing: runs with a flagged rule application, and the variable C. *)
Theorem c97_integrand_partial :
  forall (num : Type) (N : NumOps num) (toR : num -> R), Exact N toR ->
  forall n (f F d : expr num) x, x <> "C" ->
  integ n f (EVar x) = ([], Ok (Some F)) -> elementary F ->
  differentiate (S n) (EInt f (EVar x)) (EVar x) = ([], Ok d) ->
  forall rho g, regular toR rho F -> is_function toR x rho f g -> ev toR d rho (RtoC (g (rho x))).
Proof.
  intros num N toR HE n f F d x Hx HF El HD rho g Hr Hg.
  destruct (c26_antiderivative_partial num N toR HE n f F x Hx HF rho g Hg) as (G & HG & DG).
  pose proof (proj2 (smooth_elementary F) El) as Hs.
  assert (K : runs (diff (S n) false (EInt f (EVar x)) (EVar x)) d \/ exists t, diff (S n) false (EInt f (EVar x)) (EVar x) = ([], Err t)).
  { unfold differentiate, differentiate_with in HD. destruct (diff (S n) false (EInt f (EVar x)) (EVar x)) as [t [r|s|s| |u|]]; cbn in HD; inversion HD; subst.
    - left. rewrite app_nil_r in *. subst. reflexivity.
    - right. rewrite app_nil_r in *. subst. now eexists. }
  assert (E : diff (S n) false (EInt f (EVar x)) (EVar x) = diff_int (diff n false) (integ n) f (EVar x) (EVar x)) by reflexivity.
  rewrite E in K. unfold diff_int in K. rewrite HF in K. cbn [bind] in K.
  destruct (diff n false F (EVar x)) as [t o] eqn:Ed. 
  assert (DV : dv toR x F rho (RtoC (g (rho x)))) by (exists G, (g (rho x)); auto).
  assert (Ko : o = Ok d /\ t = [] \/ d = EDeriv F (EVar x)).
  { destruct o as [r|s|s| |u|]; cbn in K; destruct K as [K|[u' K]]; inversion K; subst; try (rewrite app_nil_r in *; subst); auto. }
  destruct Ko as [[-> ->]| ->]; [|exact DV].
  exact (proj2 (knot_sound toR HE n) false x F d Hs Ed rho _ Hr DV).
Qed.
Print Assumptions c97_integrand_partial.

(** 3x^2 + x meets the hypotheses; the answer is shown. *)
Definition c97_f : expr Q := EAdd (EMul (qr 3) (EExp (qv "x") (qr 2))) (qv "x").
Example c97_case : exists F d, integ 39 c97_f (EVar "x") = ([], Ok (Some F)) /\ elementary F /\
  differentiate 40 (EInt c97_f (EVar "x")) (EVar "x") = ([], Ok d) /\ regular Q2R (at2 3 0) F /\
  is_function Q2R "x" (at2 3 0) c97_f (fun t => 3 * (t * t) + t)%R.
Proof.
  eexists _, _. split; [vm_compute; reflexivity|]. split; [simpl; tauto|]. split; [vm_compute; reflexivity|]. split.
  - simpl. repeat split; left; [exists (inject_Z 2), 2%Z|exists (inject_Z 3), 3%Z]; (split; [reflexivity|apply Q2R_Z]).
  - apply is_function_now. intros t. rewrite RtoC_plus, RtoC_mult. apply ev_add; [apply ev_mul|reflexivity].
    + simpl. now rewrite Q2R_Z.
    + eapply ev_exp; [reflexivity|reflexivity|]. change (upd (at2 3 0) "x" t "x") with t.
      replace (RtoC (t * t)) with (cpow_nat (RtoC t) 2) by (simpl; rewrite RtoC_mult; ring). apply cpow_pos. rewrite Q2R_Z, INR_IZR_INZ. reflexivity.
Qed.

(** The same integrand, and the derivative with respect to another variable. *)
Example c97_delegates_case : exists F, snd (integ 39 c97_f (EVar "x")) = Ok (Some F) /\
  snd (differentiate 39 F (EVar "y")) = Ok (qr 0) /\ snd (differentiate 40 (EInt c97_f (EVar "x")) (EVar "y")) = Ok (qr 0).
Proof. eexists. split; [vm_compute; reflexivity|]. split; vm_compute; reflexivity. Qed.
