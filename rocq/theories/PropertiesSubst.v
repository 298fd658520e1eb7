(** Properties C24 and C25: Substitute. *)
From Coq Require Import String Bool Arith ZArith QArith Reals Lra Lia.
From Coquelicot Require Import Coquelicot.
From Coq Require Import List.
From Verif Require Import Base Num Expr Ghost Simplify Calculus Spec QNum PowProofs SemProofs MonadProofs SimplifySound DiffSound Closure PropertiesSimplify PropertiesCalculus PropertiesSafety.
Import ListNotations.
Open Scope string_scope.

(** ** C24: Substitute is semantic substitution *)
Definition C24_statement : Prop :=
  forall (num : Type) (N : NumOps num) (toR : num -> R), Exact N toR ->
  forall n (e val r : expr num) x, snd (subst n e (EVar x) val) = Ok r ->
  forall rho t v, ev toR val rho (RtoC t) -> ev toR e (upd rho x t) v -> ev toR r rho v.

(** Derivative(x^2, x) at x = 3 is given as 0: both operands are replaced. *)
Theorem c24_refuted : ~ C24_statement.
Proof.
  intros H.
  assert (K : ev Q2R (qr 0) (at2 0 0) (RtoC 6)).
  { refine (H Q Q_ops Q2R Q_exact 40%nat (EDeriv (EExp (qv "x") (qr 2)) (qv "x")) (qr 3) _ "x" _ (at2 0 0) 3%R _ _ _).
    - vm_compute. reflexivity.
    - simpl. now rewrite Q2R_Z.
    - exists (fun t => t ^ 2)%R, 6%R. split; [|split; [|reflexivity]].
      + apply filter_forall. intros t. eapply ev_exp; [reflexivity|reflexivity|].
        replace (upd (upd (at2 0 0) "x" 3) "x" t "x") with t by reflexivity.
        replace (RtoC (t ^ 2)) with (cpow_nat (RtoC t) 2).
        * apply cpow_pos. rewrite Q2R_Z, INR_IZR_INZ. reflexivity.
        * simpl. rewrite !RtoC_mult. ring.
      + replace (upd (at2 0 0) "x" 3 "x") with 3%R by reflexivity. auto_derive; [exact I|]. ring. }
  simpl in K. apply RtoC_inj in K. rewrite Q2R_Z in K. lra.
Qed.
Print Assumptions c24_refuted.

(** No Derivative and no Integral node. *)
Definition no_calculus {num} : expr num -> Prop :=
  forall_sub (fun e => (forall a b, e <> EDeriv a b) /\ (forall a b, e <> EInt a b)).

Section Subst.
  Context {num : Type} {N : NumOps num}.
  Notation expr := (expr num).
  Variable toR : num -> R.
  Hypothesis HE : Exact N toR.

  Lemma subst_sound n x (val : expr) rho t : ev toR val rho (RtoC t) ->
    forall e r v, no_calculus e -> runs (subst n e (EVar x) val) r ->
    ev toR e (upd rho x t) v -> ev toR r rho v.
  Proof.
    intros Hval. induction e as [c| |y| | | |rr c d|o a IHa b IHb|o a IHa]; intros r v Hc H Hv;
      simpl in H; try (apply (proj1 (runs_ret _ _)) in H; subst r; exact Hv).
    - destruct (String.eqb x y) eqn:E; apply (proj1 (runs_ret _ _)) in H; subst r.
      + apply String.eqb_eq in E. subst y. simpl in Hv. rewrite upd_same in Hv. now subst v.
      + simpl in *. rewrite upd_other in Hv; auto. intros ->. now rewrite String.eqb_refl in E.
    - destruct Hc as [[Hd Hi] [Ca Cb]].
      minv. rename y into a', y0 into b'. apply (proj1 (runs_try _ _)) in Hr1.
      assert (Kv : ev toR (EBin o a' b') rho v).
      { simpl in Hv. destruct o; simpl; try contradiction; try (destruct (Hd a b eq_refl));
          destruct Hv as (p & q & Hp & Hq & Hv); exists p, q;
          (split; [eapply IHa; eauto|split; [eapply IHb; eauto|exact Hv]]). }
      destruct Hr1 as [(s & R1 & ->)|(s & R1 & ->)]; minv; [|exact Kv].
      exact (proj1 (knot_sound toR HE n) false _ _ R1 _ _ Kv).
    - destruct Hc as [_ Ca]. minv. simpl in *. destruct o; destruct Hv as (p & Hp & Hv); exists p; split; auto; eapply IHa; eauto.
  Qed.
End Subst.

(** For every expression without Derivative and Integral nodes.
    Missing: those, and runs with a flagged rule application. *)
Theorem c24_substitute_partial :
  forall (num : Type) (N : NumOps num) (toR : num -> R), Exact N toR ->
  forall n (e val r : expr num) x, no_calculus e -> subst n e (EVar x) val = ([], Ok r) ->
  forall rho t v, ev toR val rho (RtoC t) -> ev toR e (upd rho x t) v -> ev toR r rho v.
Proof. intros. eapply subst_sound; eauto. Qed.
Print Assumptions c24_substitute_partial.

Definition c24_example : expr Q := EDiv (EMul (qv "x") (EExp (qv "y") (qr 2))) (EMag (ESub (qv "x") (qr 5))).
Example c24_case :
  no_calculus c24_example /\
  (exists r, subst 40 c24_example (EVar "x") (EAdd (qv "y") (qr 1)) = ([], Ok r)) /\
  ev Q2R (EAdd (qv "y") (qr 1)) (at2 0 2) (RtoC (2 + 1)).
Proof.
  split; [unfold no_calculus; simpl; repeat split; discriminate|].
  split; [eexists; vm_compute; reflexivity|].
  rewrite RtoC_plus. apply ev_add; simpl; [reflexivity|now rewrite Q2R_Z].
Qed.

(** ** C25: Substitute eliminates the variable *)
Definition C25_statement : Prop :=
  forall (num : Type) (N : NumOps num) n (e val : expr num),
  (* the variable is eliminated *)
  (forall x r, snd (subst n e (EVar x) val) = Ok r -> ~ mentions_var x val -> ~ mentions_var x r) /\
  (* substituting for a variable that does not occur changes no value *)
  (forall x r, snd (subst n e (EVar x) val) = Ok r -> ~ mentions_var x e ->
   forall toR, Exact N toR -> forall rho v, ev toR e rho v -> ev toR r rho v) /\
  (* a target that is not a variable is rejected if [e] has a variable *)
  (forall target, (forall x, target <> EVar x) ->
   (snd (subst n e target val) = Throw InvalidArgument <-> exists x, mentions_var x e)).

(** i^(-1) + x with the target 2: simplifying i^(-1) throws another exception first. *)
Theorem c25_refuted : ~ C25_statement.
Proof.
  intros H. destruct (H Q Q_ops 40%nat (EAdd (EExp EImag (qr (-1))) (qv "x")) (qr 3)) as (_ & _ & K).
  assert (E : snd (subst 40 (EAdd (EExp EImag (qr (-1))) (qv "x")) (qr 2) (qr 3)) = Throw InvalidArgument).
  { apply K; [discriminate|]. exists "x". simpl. tauto. }
  vm_compute in E. discriminate.
Qed.
Print Assumptions c25_refuted.

(** Integrating y with respect to y introduces C. *)
Theorem c25_integral_constant :
  exists r, snd (subst 40 (EInt (qv "y") (qv "y")) (EVar "C") (qr 3)) = Ok r /\ mentions_var "C" r.
Proof. eexists. split; [vm_compute; reflexivity|vm_compute; tauto]. Qed.

(** The variable is gone, unless it is the constant of integration of an
    Integral. *)
Theorem c25_eliminates :
  forall (num : Type) (N : NumOps num) n (e val r : expr num) x,
  x <> "C" \/ (no_integral e /\ no_integral val) ->
  snd (subst n e (EVar x) val) = Ok r -> ~ mentions_var x val -> ~ mentions_var x r.
Proof.
  intros num N n e val r x Hx H Hval.
  assert (K : forall (P : expr num -> Prop), class anything True P -> P val -> (forall r, P r -> ~ mentions_var x r) ->
            forall Q : expr num -> Prop,
            (forall o a b, Q (EBin o a b) -> Q a /\ Q b /\ (forall a' b', P a' -> P b' -> P (EBin o a' b'))) ->
            (forall o a, Q (EUn o a) -> Q a /\ (forall a', P a' -> P (EUn o a'))) ->
            (forall y, y <> x -> P (EVar y)) ->
            (forall e, Q e -> is_leaf e -> (forall y, e <> EVar y) -> P e) ->
            forall e, Q e -> spec anything False (subst n e (EVar x) val) P).
  { clear. intros P HC Pval HP Q Qb Qu Pv Ql.
    induction e as [c| |y| | | |rr c d|o a IHa b IHb|o a IHa]; intros He; simpl;
      try (apply spec_ret, Ql; [exact He|exact I|discriminate]).
    - destruct (String.eqb x y) eqn:E; apply spec_ret; auto. apply Pv. intros ->. now rewrite String.eqb_refl in E.
    - destruct (Qb _ _ _ He) as (Ha & Hb & Hc).
      eapply spec_bind; [apply IHa, Ha|]. intros a' Ha'. eapply spec_bind; [apply IHb, Hb|]. intros b' Hb'.
      eapply spec_bind; [apply spec_try, (knot_closed _ _ _ HC), Hc; assumption|].
      intros [s|s] Hs; [now apply spec_ret|contradiction].
    - destruct (Qu _ _ He) as (Ha & Hc). eapply spec_bind; [apply IHa, Ha|]. intros a' Ha'. apply spec_ret. auto. }
  destruct Hx as [Hx|[Hi Hi']].
  - pose proof (class_integral (num := num) (fun y => y <> x) (fun E => Hx (eq_sym E))) as HC.
    destruct (K _ HC) with (Q := fun _ : expr num => True) (e := e) as [B|B]; auto.
    + intros y Hy ->. contradiction.
    + intros r' Hr Hm. now apply (Hr x).
    + intros o a b _. split; [|split]; auto. intros a' b' Ha Hb y [Hy|Hy]; auto.
    + intros y Hy z ->. exact Hy.
    + intros e' _ Hl Hv y Hy. destruct e'; simpl in *; try contradiction. destruct (Hv x0 eq_refl).
    + destruct (no_bad _ B).
    + rewrite H in B. intros Hm. now apply (B x).
  - pose proof (class_no_integral (num := num) (fun y => y <> x)) as HC.
    destruct (K _ HC) with (Q := fun e : expr num => no_integral e) (e := e) as [B|B]; auto.
    + split; [exact Hi'|]. intros y Hy ->. contradiction.
    + intros r' [_ Hr] Hm. now apply (Hr x).
    + intros o a b [Hn [Ha Hb]]. split; [|split]; auto. intros a' b' [Ha1 Ha2] [Hb1 Hb2]. split.
      * split; [|split]; auto. intros c d E. injection E as -> _ _. exact (Hn a b eq_refl).
      * intros y [Hy|Hy]; auto.
    + intros o a [_ Ha]. split; auto. intros a' [Ha1 Ha2]. split; auto. split; [discriminate|auto].
    + intros y Hy. split; [split; [discriminate|exact I]|]. intros z ->. exact Hy.
    + intros e' Hn Hl Hv. split; [exact Hn|]. intros y Hy. destruct e'; simpl in *; try contradiction. destruct (Hv x0 eq_refl).
    + destruct (no_bad _ B).
    + rewrite H in B. intros Hm. now apply (proj2 B x).
Qed.
Print Assumptions c25_eliminates.

(** Substituting for a variable that does not occur changes no value.
    Missing: runs with a flagged rule application. *)
Theorem c25_absent_variable_partial :
  forall (num : Type) (N : NumOps num) (toR : num -> R), Exact N toR ->
  forall n (e val r : expr num) x, subst n e (EVar x) val = ([], Ok r) -> ~ mentions_var x e ->
  forall rho v, ev toR e rho v -> ev toR r rho v.
Proof.
  intros num N toR HE n e val r x. revert r.
  induction e as [c| |y| | | |rr c d|o a IHa b IHb|o a IHa]; intros r H Hx;
    match type of H with ?m = _ => change (runs m r) in H end; simpl in H;
    try (apply (proj1 (runs_ret _ _)) in H; subst r; auto; fail).
  - destruct (String.eqb x y) eqn:E; apply (proj1 (runs_ret _ _)) in H; subst r; auto.
    apply String.eqb_eq in E. now destruct Hx.
  - simpl in Hx. minv. rename y into a', y0 into b'. intros rho v Hv.
    assert (Ka : forall rho v, ev toR a rho v -> ev toR a' rho v) by (apply IHa; [exact Hr|tauto]).
    assert (Kb : forall rho v, ev toR b rho v -> ev toR b' rho v) by (apply IHb; [exact Hr0|tauto]).
    assert (Kv : ev toR (EBin o a' b') rho v).
    { destruct o; try contradiction;
        try (destruct Hv as (p & q & Hp & Hq & Hv); exists p, q; (split; [apply Ka, Hp|split; [apply Kb, Hq|exact Hv]])).
      destruct b as [| |y| | | | | |]; try contradiction.
      simpl in Hr0. destruct (String.eqb x y) eqn:E.
      { apply String.eqb_eq in E. subst y. destruct Hx. now right. }
      apply (proj1 (runs_ret _ _)) in Hr0. subst b'.
      destruct Hv as (f & d & Hf & Hd & Hv). exists f, d. split; [|now split].
      generalize Hf. apply filter_imp. intros t. apply Ka. }
    apply (proj1 (runs_try _ _)) in Hr1.
    destruct Hr1 as [(s & R1 & ->)|(s & R1 & ->)]; minv; [|exact Kv].
    exact (proj1 (knot_sound toR HE n) false _ _ R1 _ _ Kv).
  - simpl in Hx. minv. intros rho v Hv. simpl in *.
    destruct o; destruct Hv as (p & Hp & Hv); exists p; split; auto; now apply IHa.
Qed.
Print Assumptions c25_absent_variable_partial.
Example c25_absent_case :
  ~ mentions_var "w" c24_example /\ exists r, subst 40 c24_example (EVar "w") (qr 7) = ([], Ok r).
Proof.
  split; [|eexists; vm_compute; reflexivity]. simpl. intros H. repeat destruct H as [H|H]; try discriminate; contradiction.
Qed.

Section NonVariable.
  Context {num : Type} {N : NumOps num}.
  Notation expr := (expr num).
  Variable target : expr.
  Hypothesis HT : forall x, target <> EVar x.

  Lemma simp_no_invalid n prefer (e : expr) : snd (simp n prefer e) <> Throw InvalidArgument.
  Proof.
    intros H. destruct (proj1 (knot_closed _ _ _ (class_integral (fun _ => True) I) n) prefer e) as [K|K].
    - now intros y.
    - destruct (no_bad _ K).
    - rewrite H in K. destruct K. congruence.
  Qed.

  Lemma not_var : rcast PVar target = None.
  Proof. destruct target; try reflexivity. now destruct (HT x). Qed.

  Lemma subst_nonvar n (e val : expr) :
    (snd (subst n e target val) = Throw InvalidArgument -> exists x, mentions_var x e) /\
    ((exists x, mentions_var x e) -> forall r, snd (subst n e target val) <> Ok r).
  Proof.
    induction e as [c| |y| | | |rr c d|o a IHa b IHb|o a IHa]; simpl;
      try (split; [discriminate|intros [x []]]; fail).
    - pose proof not_var as E. cbn in E. rewrite E. split; [intros _; now exists y|discriminate].
    - destruct IHa as [A1 A2], IHb as [B1 B2].
      destruct (subst n a target val) as [ta [a'|s|x| |u|]]; simpl in *;
        try (split; [discriminate|intros _ r; discriminate]; fail).
      + destruct (subst n b target val) as [tb [b'|s|x| |u|]]; simpl in *;
          try (split; [discriminate|intros _ r; discriminate]; fail).
        * split.
          -- intros H. exfalso. pose proof (simp_no_invalid n false (EBin o a' b')) as K.
             destruct (simp n false (EBin o a' b')) as [tc [c'|s|x| |u|]]; simpl in *; try discriminate. now injection H as ->.
          -- intros [x [Hx|Hx]]; exfalso; [apply (A2 (ex_intro _ x Hx) a')|apply (B2 (ex_intro _ x Hx) b')]; reflexivity.
        * split; [|intros _ r; discriminate]. intros H. destruct (B1 H) as [y Hy]. eauto.
      + split; [|intros _ r; discriminate]. intros H. destruct (A1 H) as [y Hy]. eauto.
    - destruct IHa as [A1 A2].
      destruct (subst n a target val) as [ta [a'|s|x| |u|]]; simpl in *;
        try (split; [discriminate|intros _ r; discriminate]; fail).
      + split; [discriminate|]. intros H. exfalso. now apply (A2 H a').
      + split; [exact A1|discriminate].
  Qed.
End NonVariable.

(** A target that is not a variable is never accepted when [e] has a variable,
    and never rejected with invalid_argument when it has none.
    Missing: the exception may be another one, or none if a simplification of
    a constant part does not end. *)
Theorem c25_nonvariable_target_partial :
  forall (num : Type) (N : NumOps num) n (e val target : expr num), (forall x, target <> EVar x) ->
  (snd (subst n e target val) = Throw InvalidArgument -> exists x, mentions_var x e) /\
  ((exists x, mentions_var x e) -> forall r, snd (subst n e target val) <> Ok r).
Proof. intros. now apply subst_nonvar. Qed.
Print Assumptions c25_nonvariable_target_partial.
Example c25_nonvariable_case :
  snd (subst 40 (EAdd (qr 1) (EMul (qr 2) (qv "x"))) (qr 2) (qr 3)) = Throw InvalidArgument /\
  exists r, snd (subst 40 (EAdd (qr 1) (qr 2)) (qr 2) (qr 3)) = Ok r.
Proof. split; [vm_compute; reflexivity|eexists; vm_compute; reflexivity]. Qed.
Example c25_eliminates_case :
  exists r, snd (subst 40 c24_example (EVar "x") (EAdd (qv "y") (qr 1))) = Ok r /\
            mentions_var "y" r /\ ~ mentions_var "x" (EAdd (qv "y") (qr 1)) /\ mentions_var "x" c24_example.
Proof.
  eexists. split; [vm_compute; reflexivity|]. split; [vm_compute; tauto|].
  split; [simpl; intros [H|H]; [discriminate|contradiction]|simpl; tauto].
Qed.
