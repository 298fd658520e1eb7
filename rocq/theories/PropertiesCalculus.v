(** Properties C21-C23: differentiation. *)
From Coq Require Import String Bool Arith ZArith QArith Reals Lra Lia.
From Coquelicot Require Import Coquelicot.
From Coq Require Import List.
From Verif Require Import Base Num Expr Ghost Simplify Calculus Spec QNum PowProofs SemProofs MonadProofs SimplifySound DiffSound PropertiesSimplify.
Import ListNotations.
Open Scope string_scope.

(** [e] denotes the real function [f] of [x] near [rho]. *)
Definition denotes {num} (toR : num -> R) (e : expr num) (x : string) (rho : env) (f : R -> R) : Prop :=
  locally (rho x) (fun t => ev toR e (upd rho x t) (RtoC (f t))).

Definition no_derivative {num} : expr num -> Prop :=
  forall_sub (fun e => forall a b, e <> EDeriv a b).

(** ** C21: Differentiate computes the derivative *)
Definition C21_statement : Prop :=
  forall (num : Type) (N : NumOps num) (toR : num -> R), Exact N toR ->
  forall n (e d : expr num) x, snd (differentiate n e (EVar x)) = Ok d -> no_derivative d ->
  forall rho f l, denotes toR e x rho f -> is_derive f (rho x) l -> ev toR d rho (RtoC l).

(** d/dx (sin(x)/2) is given as 1/2. *)
Theorem c21_refuted : ~ C21_statement.
Proof.
  intros H.
  assert (K : ev Q2R (qq (1 # 2)) (at2 PI 0) (RtoC (- (1 / 2)))).
  { refine (H Q Q_ops Q2R Q_exact 40%nat (EDiv (ESine (qv "x")) (qr 2)) _ "x" _ _ (at2 PI 0) (fun t => sin t / 2)%R _ _ _).
    - vm_compute. reflexivity.
    - split; [discriminate|exact I].
    - unfold denotes. apply filter_forall. intros t.
      rewrite RtoC_div by lra. apply ev_div.
      + exists t. split; [|reflexivity]. simpl. unfold upd. reflexivity.
      + simpl. now rewrite Q2R_Z.
      + apply RtoC_neq. lra.
    - simpl. unfold at2. simpl. auto_derive; [exact I|]. rewrite cos_PI. field. }
  simpl in K. apply RtoC_inj in K. unfold Q2R in K. simpl in K. lra.
Qed.
Print Assumptions c21_refuted.

Lemma denotes_derive {num} (toR : num -> R) (e : expr num) x rho f l :
  denotes toR e x rho f -> dv toR x e rho (RtoC l) -> is_derive f (rho x) l.
Proof.
  intros Hf (g & l' & Hg & Hd & El). apply RtoC_inj in El. subst l'.
  apply (is_derive_ext_loc g f); [|exact Hd].
  unfold denotes in Hf. generalize (filter_and _ _ Hf Hg). apply filter_imp. intros t [H1 H2].
  pose proof (ev_fun toR _ _ _ _ H2 H1) as E. now apply RtoC_inj in E.
Qed.

(** For every elementary expression and every point where its powers are
    differentiable: if [e] denotes a function near the point, that function
    has a derivative there and the answer has its value.
    Missing: runs with a flagged rule application, and expressions with
    Magnitude, Derivative or Integral nodes. *)
Theorem c21_differentiate_partial :
  forall (num : Type) (N : NumOps num) (toR : num -> R), Exact N toR ->
  forall n (e d : expr num) x, differentiate n e (EVar x) = ([], Ok d) -> elementary e ->
  forall rho f, regular toR rho e -> denotes toR e x rho f ->
  exists l, is_derive f (rho x) l /\ ev toR d rho (RtoC l).
Proof.
  intros num N toR HE n e d x H He rho f Hr Hf.
  pose proof (proj2 (smooth_elementary e) He) as Hs.
  destruct (near_dv toR x e rho Hs Hr) as [l Hl].
  { unfold near, denotes in *. generalize Hf. apply filter_imp. eauto. }
  exists l. split.
  - exact (denotes_derive toR e x rho f l Hf Hl).
  - apply (differentiate_with_sound toR (diff n false) x e d); auto.
    intros e' d' Hs' R'. exact (proj2 (knot_sound toR HE n) false x e' d' Hs' R').
Qed.
Print Assumptions c21_differentiate_partial.

(** x^2 * ln x *)
Definition c21_example : expr Q := EMul (EExp (qv "x") (qr 2)) (ELog EEuler (qv "x")).
Example c21_case :
  (exists d, differentiate 40 c21_example (EVar "x") = ([], Ok d) /\ no_derivative d) /\
  elementary c21_example /\ regular Q2R (at2 3 0) c21_example /\
  denotes Q2R c21_example "x" (at2 3 0) (fun t => (t * t) * (ln t / ln (exp 1)))%R.
Proof.
  split; [|split; [|split]].
  - eexists. split; [vm_compute; reflexivity|]. unfold no_derivative. simpl. repeat split; discriminate.
  - simpl. tauto.
  - simpl. repeat split. left. exists (inject_Z 2), 2%Z. split; [reflexivity|apply Q2R_Z].
  - unfold denotes. apply (filter_imp (fun t => 0 < t)%R).
    + intros t Ht. rewrite RtoC_mult. apply ev_mul.
      * eapply ev_exp; [reflexivity|simpl; reflexivity|].
        replace (upd (at2 3 0) "x" t "x") with t by reflexivity.
        rewrite RtoC_mult. replace (Cmult t t) with (cpow_nat (RtoC t) 2).
        -- apply cpow_pos. now rewrite Q2R_Z, INR_IZR_INZ.
        -- simpl. ring.
      * eapply ev_log; [reflexivity|reflexivity|]. replace (upd (at2 3 0) "x" t "x") with t by reflexivity.
        exists (exp 1), t. repeat split; auto using exp_pos.
        intros E. apply (f_equal ln) in E. rewrite ln_exp, ln_1 in E. lra.
    + unfold at2. simpl. apply (open_gt 0 3). lra.
Qed.

(** ** C22: Differentiating a Derivative node *)
Definition C22_statement : Prop :=
  forall (num : Type) (N : NumOps num) (toR : num -> R), Exact N toR ->
  forall n (a d : expr num) x y, snd (differentiate n (EDeriv a (EVar y)) (EVar x)) = Ok d -> no_derivative d ->
  forall rho v, ev toR (EDeriv (EDeriv a (EVar y)) (EVar x)) rho v -> ev toR d rho v.

Lemma d2_cube (t0 : R) :
  ev Q2R (EDeriv (EDeriv (EExp (qv "x") (qr 3)) (qv "x")) (qv "x")) (at2 t0 0) (RtoC (6 * t0)).
Proof.
  exists (fun t => 3 * t ^ 2)%R, (6 * t0)%R. split; [|split; [|reflexivity]].
  - apply filter_forall. intros t. exists (fun s => s ^ 3)%R, (3 * t ^ 2)%R. split; [|split; [|reflexivity]].
    + apply filter_forall. intros s. eapply ev_exp; [reflexivity|reflexivity|].
      replace (upd (upd (at2 t0 0) "x" t) "x" s "x") with s by reflexivity.
      replace (RtoC (s ^ 3)) with (cpow_nat (RtoC s) 3).
      * apply cpow_pos. rewrite Q2R_Z, INR_IZR_INZ. reflexivity.
      * simpl. rewrite !RtoC_mult. ring.
    + replace (upd (at2 t0 0) "x" t "x") with t by reflexivity. auto_derive; [exact I|]. ring.
  - unfold at2. simpl. auto_derive; [exact I|]. ring.
Qed.

(** The derivative of Derivative(x^3, x) with respect to x is given as x^2*3. *)
Theorem c22_refuted : ~ C22_statement.
Proof.
  intros H.
  assert (K : ev Q2R (EMul (EExp (qv "x") (qr 2)) (qr 3)) (at2 1 0) (RtoC (6 * 1))).
  { refine (H Q Q_ops Q2R Q_exact 40%nat (EExp (qv "x") (qr 3)) _ "x" "x" _ _ _ _ (d2_cube 1)).
    - vm_compute. reflexivity.
    - unfold no_derivative. simpl. repeat split; discriminate. }
  assert (K2 : ev Q2R (EMul (EExp (qv "x") (qr 2)) (qr 3)) (at2 1 0) (RtoC 3)).
  { replace (RtoC 3) with (Cmult (RtoC 1) (RtoC 3)) by ring. apply ev_mul.
    - eapply ev_exp; [reflexivity|reflexivity|]. change (at2 1 0 "x") with 1%R.
      replace (RtoC 1) with (cpow_nat (RtoC 1) 2) at 2 by (simpl; ring). apply cpow_pos. rewrite Q2R_Z, INR_IZR_INZ. reflexivity.
    - simpl. now rewrite Q2R_Z. }
  pose proof (ev_fun Q2R _ _ _ _ K K2) as E. apply RtoC_inj in E. lra.
Qed.
Print Assumptions c22_refuted.

(** What Differentiate gives instead of the second derivative: the derivative
    of the inner operand with respect to the outer variable. *)
Theorem c22_inner_only :
  forall (num : Type) (N : NumOps num) (toR : num -> R), Exact N toR ->
  forall n (a d : expr num) x y, differentiate n (EDeriv a (EVar y)) (EVar x) = ([NestedDerivative], Ok d) ->
  elementary a ->
  forall rho f, regular toR rho a -> denotes toR a x rho f ->
  exists l, is_derive f (rho x) l /\ ev toR d rho (RtoC l).
Proof.
  intros num N toR HE n a d x y H He rho f Hr Hf.
  pose proof (proj2 (smooth_elementary a) He) as Hs.
  assert (Hn : near toR x a rho) by (unfold near, denotes in *; generalize Hf; apply filter_imp; eauto).
  destruct (near_dv toR x a rho Hs Hr Hn) as [l Hl].
  exists l. split; [exact (denotes_derive toR a x rho f l Hf Hl)|].
  destruct n as [|n]; [discriminate|].
  assert (R : runs (diff_deriv (simp n false) (diff n false) a (EVar y) (EVar x)) d).
  { unfold runs.
    change (bind (m_try (bind (emit true NestedDerivative) (fun _ => diff_deriv (simp n false) (diff n false) a (EVar y) (EVar x))))
                 (fun r => match r with inl d => ret d | inr _ => ret (EDeriv (EDeriv a (EVar y)) (EVar x)) end)
            = ([NestedDerivative], Ok d)) in H.
    assert (NE : forall s, snd (diff_deriv (simp n false) (diff n false) a (EVar y) (EVar x)) <> Err s).
    { intros s. unfold diff_deriv. destruct (diff n false a (EVar x)) as [t1 [r1|s1|x1| |u1|]]; simpl; try discriminate.
      destruct (simp n false r1) as [t2 [r2|s2|x2| |u2|]]; simpl; discriminate. }
    destruct (diff_deriv (simp n false) (diff n false) a (EVar y) (EVar x)) as [t [r|s|e| |u|]]; simpl in H; try discriminate.
    - rewrite ?app_nil_r in H. injection H as -> ->. reflexivity.
    - exfalso. now apply (NE s). }
  unfold diff_deriv in R. minv. apply (proj1 (runs_try _ _)) in Hr0.
  destruct Hr0 as [(b & R1 & ->)|(s & R1 & ->)]; minv.
  - apply (proj1 (runs_try _ _)) in Hr0.
    destruct Hr0 as [(c & R2 & ->)|(s & R2 & ->)]; minv.
    + apply (proj1 (knot_sound toR HE n) false _ _ R2).
      apply (proj2 (knot_sound toR HE n) false x a b Hs R1 rho (RtoC l) Hr Hl).
Qed.
Print Assumptions c22_inner_only.
Example c22_inner_case : exists d,
  differentiate 40 (EDeriv c21_example (EVar "y")) (EVar "x") = ([NestedDerivative], Ok d) /\ elementary c21_example.
Proof. eexists. split; [vm_compute; reflexivity|simpl; tauto]. Qed.

(** Through Simplify the nested derivative is right: the inner node is replaced
    by its derivative first.  Missing: Differentiate itself, and runs with a
    flagged rule application. *)
Theorem c22_simplify_nested_partial :
  forall (num : Type) (N : NumOps num) (toR : num -> R), Exact N toR ->
  forall n prefer (a r : expr num) x y,
  simp n prefer (EDeriv (EDeriv a (EVar y)) (EVar x)) = ([], Ok r) ->
  forall rho f l, denotes toR (EDeriv a (EVar y)) x rho f -> is_derive f (rho x) l -> ev toR r rho (RtoC l).
Proof.
  intros num N toR HE n prefer a r x y H rho f l Hf Hl.
  apply (proj1 (knot_sound toR HE n) prefer _ _ H).
  exists f, l. auto.
Qed.
Print Assumptions c22_simplify_nested_partial.
Example c22_case :
  simp 40 false (EDeriv (EDeriv (EExp (qv "x") (qr 3)) (qv "x")) (qv "x")) = ([], Ok (EMul (qv "x") (qr 6))) /\
  exists f l, denotes Q2R (EDeriv (EExp (qv "x") (qr 3)) (qv "x")) "x" (at2 5 0) f /\ is_derive f 5%R l.
Proof.
  split; [vm_compute; reflexivity|]. destruct (d2_cube 5) as (f & l & H1 & H2 & _). exists f, l. split; assumption.
Qed.

(** ** C23: Differentiate always answers *)
Definition C23_statement : Prop :=
  forall (num : Type) (N : NumOps num) n (e v : expr num),
  exists d, snd (differentiate n e v) = Ok d \/ snd (differentiate n e v) = OutOfFuel.

(** x + sin x: the error of the right addend is not looked at, value() throws. *)
Theorem c23_refuted : ~ C23_statement.
Proof.
  intros H. destruct (H Q Q_ops 40%nat (EAdd (qv "x") (ESine (qv "x"))) (qv "x")) as [d [K|K]];
    vm_compute in K; discriminate.
Qed.
Print Assumptions c23_refuted.
