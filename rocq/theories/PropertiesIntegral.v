(** Properties C26 and C27: Integrate and IntegrateWithBounds. *)
From Coq Require Import String Bool Arith ZArith QArith Reals Lra Lia.
From Coquelicot Require Import Coquelicot.
From Coq Require Import List.
From Verif Require Import Base Num Expr Ghost Simplify Calculus Spec QNum PowProofs SemProofs MonadProofs SimplifySound DiffSound IntSound Closure PropertiesSimplify PropertiesCalculus PropertiesSafety PropertiesSubst.
Import ListNotations.
Open Scope string_scope.

(** [e] is the real function [f] of the variable [x] near the point [rho]. *)
Definition is_function {num} (toR : num -> R) (x : string) (rho : env) (e : expr num) (f : R -> R) : Prop :=
  locally (rho x) (fun t => ev toR e (upd rho x t) (RtoC (f t))).

(** Near [rho], [r] is a function whose derivative at [rho] is the value of [e]. *)
Definition antiderivative_at {num} (toR : num -> R) (x : string) (rho : env) (e r : expr num) : Prop :=
  forall f, is_function toR x rho e f ->
  exists F, is_function toR x rho r F /\ is_derive F (rho x) (f (rho x)).

(** ** C26: Integrate returns an antiderivative *)
Definition C26_statement : Prop :=
  forall (num : Type) (N : NumOps num) (toR : num -> R), Exact N toR ->
  forall n (e r : expr num) x, snd (integ n e (EVar x)) = Ok (Some r) -> no_integral r ->
  forall rho, antiderivative_at toR x rho e r.

Section Aux.
  Context {num : Type}.
  Variable toR : num -> R.

  (* a function is determined near the point *)
  Lemma is_function_unique x rho (e : expr num) f g :
    is_function toR x rho e f -> is_function toR x rho e g -> locally (rho x) (fun t => f t = g t).
  Proof.
    intros H1 H2. generalize (filter_and _ _ H1 H2). apply filter_imp. intros t [A B].
    exact (RtoC_inj _ _ (ev_fun toR _ _ _ _ A B)).
  Qed.

  Lemma not_antiderivative x rho (e r : expr num) f F d : is_function toR x rho e f -> is_function toR x rho r F ->
    is_derive F (rho x) d -> d <> f (rho x) -> ~ antiderivative_at toR x rho e r.
  Proof.
    intros He Hr Hd Hne H. destruct (H _ He) as (G & HG & DG).
    pose proof (is_function_unique _ _ _ _ _ HG Hr) as E.
    apply (is_derive_ext_loc G F) in DG; [|exact E].
    apply is_derive_unique in DG. apply is_derive_unique in Hd. congruence.
  Qed.

  Lemma is_function_now x rho (e : expr num) (f : R -> R) :
    (forall t, ev toR e (upd rho x t) (RtoC (f t))) -> is_function toR x rho e f.
  Proof. intros H. unfold is_function. apply filter_forall. exact H. Qed.
End Aux.

(** The integral of e^y with respect to x is given as e^y + C. *)
Theorem c26_refuted : ~ C26_statement.
Proof.
  intros H.
  refine (not_antiderivative Q2R "x" (at2 0 0) _ _ (fun _ => 1%R) (fun _ => 2%R) 0 _ _ _ _
           (H Q Q_ops Q2R Q_exact 40%nat (EExp EEuler (qv "y")) (EAdd (EExp EEuler (qv "y")) (EVar "C")) "x" _ _ (at2 0 0))).
  - apply is_function_now. intros t. eapply ev_exp; [reflexivity|reflexivity|].
    change (upd (at2 0 0) "x" t "y") with 0%R. apply (cpow_zero); [reflexivity|]. apply RtoC_neq. pose proof (exp_pos 1). lra.
  - apply is_function_now. intros t. replace (RtoC 2) with (Cplus (RtoC 1) (RtoC 1)) by (rewrite <- RtoC_plus; f_equal; ring). apply ev_add; [|reflexivity].
    eapply ev_exp; [reflexivity|reflexivity|].
    change (upd (at2 0 0) "x" t "y") with 0%R. apply (cpow_zero); [reflexivity|]. apply RtoC_neq. pose proof (exp_pos 1). lra.
  - apply (is_derive_const (K:=R_AbsRing) (V:=R_NormedModule)).
  - lra.
  - vm_compute. reflexivity.
  - unfold no_integral. simpl. repeat split; discriminate.
Qed.
Print Assumptions c26_refuted.

(** The integral of 1/x, written x^(-1), is given as C. *)
Theorem c26_reciprocal : exists r,
  snd (integ 40 (EExp (qv "x") (qr (-1))) (EVar "x")) = Ok (Some r) /\
  ~ antiderivative_at Q2R "x" (at2 2 0) (EExp (qv "x") (qr (-1))) r.
Proof.
  eexists. split; [vm_compute; reflexivity|].
  apply (not_antiderivative Q2R "x" (at2 2 0) _ _ (fun t => / t)%R (fun _ => 1%R) 0).
  - unfold is_function. change (at2 2 0 "x") with 2%R.
    assert (L : locally 2%R (fun t => 0 < t)%R) by (apply (open_gt 0); lra).
    generalize L. apply filter_imp. intros t Ht. eapply ev_exp; [reflexivity|reflexivity|].
    rewrite Q2R_Z. apply cpow_m1_iff. change (upd (at2 2 0) "x" t "x") with t.
    split; [apply RtoC_neq; lra|]. apply RtoC_inv. lra.
  - apply is_function_now. intros t. reflexivity.
  - apply (is_derive_const (K:=R_AbsRing) (V:=R_NormedModule)).
  - change (at2 2 0 "x") with 2%R. lra.
Qed.

(** Sums of seven or more powers: the integral of x + x^2 + ... + x^7 lacks
    the term x^6/6. *)
Definition seven : expr Q :=
  fold_left (fun e k => EAdd e (EExp (qv "x") (qr k))) [2; 3; 4; 5; 6; 7]%Z (qv "x").

Lemma ev_mono (c : Q) (k : nat) rho : ev Q2R (EMul (EReal c) (EExp (qv "x") (qr (Z.of_nat (S k))))) rho (RtoC (Q2R c * rho "x" ^ S k)).
Proof.
  rewrite RtoC_mult. apply ev_mul; [reflexivity|]. rewrite <- cpow_nat_R. eapply ev_exp; [reflexivity|reflexivity|].
  apply cpow_pos. rewrite Q2R_Z, INR_IZR_INZ. reflexivity.
Qed.
Lemma ev_power (k : nat) rho : ev Q2R (EExp (qv "x") (qr (Z.of_nat (S k)))) rho (RtoC (rho "x" ^ S k)).
Proof.
  rewrite <- cpow_nat_R. eapply ev_exp; [reflexivity|reflexivity|].
  apply cpow_pos. rewrite Q2R_Z, INR_IZR_INZ. reflexivity.
Qed.

Theorem c26_seven_terms : exists r,
  snd (integ 60 seven (EVar "x")) = Ok (Some r) /\
  ~ antiderivative_at Q2R "x" (at2 1 0) seven r.
Proof.
  eexists. split; [vm_compute; reflexivity|].
  apply (not_antiderivative Q2R "x" (at2 1 0) _ _
    (fun t => t + t ^ 2 + t ^ 3 + t ^ 4 + t ^ 5 + t ^ 6 + t ^ 7)%R
    (fun t => Q2R (1 # 8) * t ^ 8 + Q2R (1 # 7) * t ^ 7 + (Q2R (1 # 5) * t ^ 5 + Q2R (1 # 4) * t ^ 4)
              + (Q2R (1 # 3) * t ^ 3 + Q2R (1 # 2) * t ^ 2 + 1))%R 6).
  - apply is_function_now. intros t. rewrite !RtoC_plus. unfold seven. simpl fold_left.
    repeat apply ev_add; [reflexivity|exact (ev_power 1 _)|exact (ev_power 2 _)|exact (ev_power 3 _)|
      exact (ev_power 4 _)|exact (ev_power 5 _)|exact (ev_power 6 _)].
  - apply is_function_now. intros t. rewrite !(RtoC_plus _ (_ + _)), !RtoC_plus.
    repeat apply ev_add; [exact (ev_mono _ 7 _)|exact (ev_mono _ 6 _)|exact (ev_mono _ 4 _)|
      exact (ev_mono _ 3 _)|exact (ev_mono _ 2 _)|exact (ev_mono _ 1 _)|reflexivity].
  - change (at2 1 0 "x") with 1%R. auto_derive; [exact I|]. unfold Q2R; simpl. field.
  - change (at2 1 0 "x") with 1%R. lra.
Qed.

(** The variable must not be called C, the name of the constant of
    integration: x integrated with respect to C is x*C + C. *)
Theorem c26_variable_C :
  integ 40 (qv "x") (EVar "C") = ([], Ok (Some (EAdd (EMul (qv "x") (qv "C")) (qv "C")))) /\
  ~ antiderivative_at Q2R "C" (at2 2 0) (qv "x") (EAdd (EMul (qv "x") (qv "C")) (qv "C")).
Proof.
  split; [vm_compute; reflexivity|].
  apply (not_antiderivative Q2R "C" (at2 2 0) _ _ (fun _ => 2%R) (fun t => 2 * t + t)%R 3).
  - apply is_function_now. intros t. reflexivity.
  - apply is_function_now. intros t. rewrite RtoC_plus, RtoC_mult.
    apply ev_add; [apply ev_mul|]; reflexivity.
  - auto_derive; [exact I|]. ring.
  - lra.
Qed.

(** Missing: runs with a flagged rule application, and the variable C. *)
Theorem c26_antiderivative_partial :
  forall (num : Type) (N : NumOps num) (toR : num -> R), Exact N toR ->
  forall n (e r : expr num) x, x <> "C" -> integ n e (EVar x) = ([], Ok (Some r)) ->
  forall rho, antiderivative_at toR x rho e r.
Proof.
  intros num N toR HE n e r x Hx H rho f Hf.
  destruct (integ_sound toR HE n x Hx) as [K _]. specialize (K e r H).
  assert (Hn : near toR x e rho) by (unfold near, is_function in *; generalize Hf; apply filter_imp; eauto).
  destruct (K rho (f (rho x)) Hn (near_here toR x e rho f Hf)) as (F & d & HF & HD & E).
  apply RtoC_inj in E. rewrite E. exists F. auto.
Qed.
Print Assumptions c26_antiderivative_partial.

(** x e^x, 3x^2 + x, log_2 x and a product with a parameter meet the
    hypotheses. *)
Example c26_case :
  Forall (fun e : expr Q => exists r, integ 40 e (EVar "x") = ([], Ok (Some r)))
    [EMul (qv "x") (EExp EEuler (qv "x")); EAdd (EMul (qr 3) (EExp (qv "x") (qr 2))) (qv "x");
     ELog (qr 2) (qv "x"); EMul (qr 5) (qv "y"); ESub (EExp (qv "x") (qr (-3))) (qr 4);
     EDiv (qv "x") (qr 7); ELog EEuler (EAdd (EMul (qr 3) (qv "x")) (qr 1))].
Proof. repeat constructor; eexists; vm_compute; reflexivity. Qed.
Example c26_case_function :
  is_function Q2R "x" (at2 1 0) (EExp (qv "x") (qr 2)) (fun t => t ^ 2)%R.
Proof. apply is_function_now. intros t. exact (ev_power 1 _). Qed.

(** ** C27: definite integrals *)

(** Between [a] and [b], in either order, [e] is the continuous function [f]. *)
Definition integrand {num} (toR : num -> R) (x : string) (rho : env) (a b : R) (e : expr num) (f : R -> R) : Prop :=
  forall t, (Rmin a b <= t <= Rmax a b)%R -> is_function toR x (upd rho x t) e f /\ continuous f t.

Definition C27_statement : Prop :=
  forall (num : Type) (N : NumOps num) n (e lower upper : expr num) x,
  (* equal bounds give zero *)
  (equals lower upper = Some true ->
   snd (integrate_with_bounds n e (EVar x) lower upper) = Ok (Some (real 0))) /\
  (* a result that is not null is the Riemann integral *)
  (forall toR, Exact N toR ->
   forall r rho a b f, snd (integrate_with_bounds n e (EVar x) lower upper) = Ok (Some r) ->
   ev toR lower rho (RtoC a) -> ev toR upper rho (RtoC b) -> integrand toR x rho a b e f ->
   exists v, is_RInt f a b v /\ ev toR r rho (RtoC v)).

(** The integral of e^y over x from 0 to 2 is given as 0. *)
Theorem c27_refuted : ~ C27_statement.
Proof.
  intros H. destruct (H Q Q_ops 40%nat (EExp EEuler (qv "y")) (qr 0) (qr 2) "x") as [_ K].
  destruct (K Q2R Q_exact (qr 0) (at2 0 0) 0 2 (fun _ => 1%R))%R as (v & Hv & E).
  - vm_compute. reflexivity.
  - simpl. now rewrite Q2R_Z.
  - simpl. now rewrite Q2R_Z.
  - intros t _. split; [|apply continuous_const]. apply is_function_now. intros s.
    eapply ev_exp; [reflexivity|reflexivity|].
    apply (cpow_zero); [reflexivity|]. apply RtoC_neq. pose proof (exp_pos 1). lra.
  - simpl in E. apply RtoC_inj in E. rewrite Q2R_Z in E. subst v.
    pose proof (is_RInt_const (V := R_NormedModule) 0 2 1%R) as K1.
    apply (is_RInt_unique (V := R_CompleteNormedModule)) in Hv. apply (is_RInt_unique (V := R_CompleteNormedModule)) in K1. rewrite Hv in K1.
    unfold scal in K1; simpl in K1; unfold mult in K1; simpl in K1. lra.
Qed.
Print Assumptions c27_refuted.

(** Bounds which Equals takes for equal although their values differ: the
    integral of 1 from x+x+y to x+y+y is given as 0 (with respect to z). *)
Theorem c27_loose_bounds :
  snd (integrate_with_bounds 40 (qr 1) (EVar "z") (EAdd (EAdd (qv "x") (qv "x")) (qv "y"))
         (EAdd (EAdd (qv "x") (qv "y")) (qv "y"))) = Ok (Some (qr 0)).
Proof. vm_compute. reflexivity. Qed.

Theorem c27_equal_bounds :
  forall (num : Type) (N : NumOps num) n (e v lower upper : expr num),
  equals lower upper = Some true ->
  snd (integrate_with_bounds n e v lower upper) = Ok (Some (real 0)).
Proof.
  intros num N n e v lower upper H. unfold integrate_with_bounds, m_eq. rewrite H.
  unfold emit. destruct (true && negb (eq_strict lower upper)); reflexivity.
Qed.
Print Assumptions c27_equal_bounds.

Section Bounds.
  Context {num : Type} {N : NumOps num}.
  Variable toR : num -> R.
  Hypothesis HE : Exact N toR.
  Notation expr := (expr num).

  Lemma calculus_free_spec (e : expr) : calculus_free e = true -> no_calculus e.
  Proof.
    unfold no_calculus. induction e as [c| |y| | | |rr c d|o a IHa b IHb|o a IHa]; simpl; intros H;
      try (repeat split; discriminate).
    - assert (K : calculus_free a = true /\ calculus_free b = true)
        by (destruct o; try discriminate; now apply andb_prop in H).
      destruct K as [Ka Kb]. split; [|auto]. split; intros a' b' E; injection E as -> _ _; discriminate.
    - split; [repeat split; discriminate|auto].
  Qed.

  Lemma dv_at x t rho (g : expr) d : dv toR x g (upd rho x t) (RtoC d) ->
    exists F, locally t (fun s => ev toR g (upd rho x s) (RtoC (F s))) /\ is_derive F t d.
  Proof.
    intros (F & d' & HF & HD & E). apply RtoC_inj in E. subst d'. rewrite upd_same in HF, HD. exists F. split; [|exact HD].
    generalize HF. apply filter_imp. intros s Hs. eapply ev_ext; [|exact Hs]. intros y. apply upd_upd.
  Qed.

  (* the values of [g] on the interval form a function whose derivative is f *)
  Lemma primitive x rho a b e (g : expr) f : integrand toR x rho a b e f -> AD toR x e g ->
    exists G : R -> R, (forall t, (Rmin a b <= t <= Rmax a b)%R -> ev toR g (upd rho x t) (RtoC (G t)) /\ is_derive G t (f t)).
  Proof.
    intros Hf HA.
    exists (fun t => iota (T := R_CompleteSpace) (fun y : R => ev toR g (upd rho x t) (RtoC y))).
    assert (U : forall t y, ev toR g (upd rho x t) (RtoC y) ->
              iota (T := R_CompleteSpace) (fun y : R => ev toR g (upd rho x t) (RtoC y)) = y).
    { intros t y Hy. apply (iota_unique (V := R_CompleteNormedModule)); [|exact Hy].
      intros z Hz. exact (RtoC_inj _ _ (ev_fun toR _ _ _ _ Hz Hy)). }
    intros t Ht. destruct (Hf t Ht) as [He _].
    assert (D : dv toR x g (upd rho x t) (RtoC (f t))).
    { apply HA.
      - unfold near, is_function in *. generalize He. apply filter_imp. eauto.
      - pose proof (near_here toR x e (upd rho x t) f He) as K. rewrite upd_same in K. exact K. }
    destruct (dv_at _ _ _ _ _ D) as (F & HF & DF). split.
    - apply locally_singleton in HF. rewrite (U _ _ HF). exact HF.
    - eapply is_derive_ext_loc; [|exact DF]. generalize HF. apply filter_imp. intros s Hs. symmetry. now apply U.
  Qed.
End Bounds.

(** Missing: runs with a flagged rule application, and the variable C. *)
Theorem c27_definite_partial :
  forall (num : Type) (N : NumOps num) (toR : num -> R), Exact N toR ->
  forall n (e lower upper r : expr num) x rho a b f, x <> "C" ->
  integrate_with_bounds n e (EVar x) lower upper = ([], Ok (Some r)) ->
  ev toR lower rho (RtoC a) -> ev toR upper rho (RtoC b) -> integrand toR x rho a b e f ->
  exists v, is_RInt f a b v /\ ev toR r rho (RtoC v).
Proof.
  intros num N toR HE n e lower upper r x rho a b f Hx H Ha Hb Hf.
  match type of H with ?m = _ => change (runs m (Some r)) in H end.
  unfold integrate_with_bounds in H. minv. destruct y.
  { minv. apply (m_eq_true toR HE _ _ rho (RtoC b)) in Hr. apply Hr in Hb.
    pose proof (RtoC_inj _ _ (ev_fun toR _ _ _ _ Ha Hb)). subst b.
    exists 0%R. split; [apply (is_RInt_point (V := R_NormedModule))|apply (ev_real toR HE)]. }
  minv. destruct y.
  { minv. exists 0%R. split; [|apply (ev_real toR HE)].
    apply (is_RInt_ext (fun _ => 0%R)).
    - intros t Ht. destruct (Hf t) as [He _]; [lra|].
      pose proof (near_here toR x e (upd rho x t) f He) as K. rewrite upd_same in K.
      apply (m_eq_true toR HE _ _ _ _ Hr0) in K.
      exact (RtoC_inj _ _ (ev_fun toR _ _ _ _ (ev_real toR HE 0 _) K)).
    - pose proof (is_RInt_const (V := R_NormedModule) a b 0%R) as K.
      replace (scal (b - a)%R (0%R : R_NormedModule)) with (0%R : R_NormedModule) in K; [exact K|].
      unfold scal; simpl; unfold mult; simpl; ring. }
  minv. destruct y as [F|]; minv.
  destruct y; minv.
  destruct (as_bin (rcast pAdd F)) as [[g c]|] eqn:Ec; minv.
  apply runs_flag, negb_false_iff, andb_prop in Hr3. destruct Hr3 as [Hc Hg].
  apply (proj1 (runs_try _ _)) in Hr6. destruct Hr6 as [(u & Ru & ->)|(s & _ & ->)]; minv.
  apply (proj1 (runs_try _ _)) in Hr3. destruct Hr3 as [(l & Rl & ->)|(s & _ & ->)]; minv.
  apply (proj1 (runs_try _ _)) in Hr3. destruct Hr3 as [(r' & Rr & ->)|(s & _ & ->)]; minv.
  destruct (integ_sound toR HE n x Hx) as [K _]. specialize (K e F Hr1).
  destruct (knot_sound toR HE n) as [Ks _].
  assert (Ag : AD toR x e g) by (eapply AD_drop; eauto).
  destruct (primitive toR x rho a b e g f Hf Ag) as (G & HG).
  exists (G b - G a)%R. split.
  - apply (is_RInt_derive G f a b).
    + intros t Ht. now apply HG.
    + intros t Ht. now apply Hf.
  - apply (Ks _ _ _ Rr). rewrite RtoC_minus. apply ev_sub.
    + apply (Ks _ _ _ Ru). eapply (subst_sound toR HE); [exact Hb|apply calculus_free_spec; exact Hg|exact Hr4|].
      apply HG. split; [apply Rmin_r|apply Rmax_r].
    + apply (Ks _ _ _ Rl). eapply (subst_sound toR HE); [exact Ha|apply calculus_free_spec; exact Hg|exact Hr5|].
      apply HG. split; [apply Rmin_l|apply Rmax_l].
Qed.
Print Assumptions c27_definite_partial.

(** The integral of 3x^2 + x from 0 to 2 is 10; of e^x from 0 to y, e^y - 1. *)
Example c27_case :
  integrate_with_bounds 40 (EAdd (EMul (qr 3) (EExp (qv "x") (qr 2))) (qv "x")) (EVar "x") (qr 0) (qr 2) = ([], Ok (Some (qr 10))) /\
  integrate_with_bounds 40 (EExp EEuler (qv "x")) (EVar "x") (qr 0) (qv "y") =
    ([], Ok (Some (EAdd (EExp EEuler (EVar "y")) (qr (-1))))) /\
  integrand Q2R "x" (at2 0 0) 0 2 (EExp (qv "x") (qr 2)) (fun t => t ^ 2)%R.
Proof.
  split; [vm_compute; reflexivity|]. split; [vm_compute; reflexivity|].
  intros t _. split; [apply is_function_now; intros s; exact (ev_power 1 _)|].
  apply (ex_derive_continuous (K:=R_AbsRing) (V:=R_NormedModule)). auto_derive. exact I.
Qed.

Example c27_equal_bounds_case :
  equals (EAdd (qv "x") (qv "y")) (EAdd (qv "y") (qv "x")) = Some true.
Proof. vm_compute. reflexivity. Qed.
