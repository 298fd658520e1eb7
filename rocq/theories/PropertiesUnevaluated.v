(** Property C72: what Integrate returns when it finds no antiderivative. *)
From Coq Require Import String Bool Arith ZArith QArith Reals Lra Lia.
From Coquelicot Require Import Coquelicot.
From Coq Require Import List.
From Verif Require Import Base Num Expr Ghost Simplify Calculus Spec QNum PowProofs SemProofs MonadProofs SimplifySound DiffSound IntSound ZerosProofs PropertiesSimplify PropertiesSafety PropertiesSubst PropertiesIntegral.
Import ListNotations.
Open Scope string_scope.

(** ** C72: Integrate answers with an antiderivative or with an integral *)
Definition C72_statement : Prop :=
  forall (num : Type) (N : NumOps num) (toR : num -> R), Exact N toR ->
  forall n (e r : expr num) x, x <> "C" -> snd (integ n e (EVar x)) = Ok (Some r) ->
  ~ no_integral r \/ forall rho, antiderivative_at toR x rho e r.

(** The integral of y^2 + z with respect to x is given as y^2 + z. *)
Theorem c72_refuted : ~ C72_statement.
Proof.
  intros H.
  destruct (H Q Q_ops Q2R Q_exact 40%nat (EAdd (EExp (qv "y") (qr 2)) (qv "z")) (EAdd (EExp (qv "y") (qr 2)) (qv "z")) "x") as [K|K].
  - discriminate.
  - vm_compute. reflexivity.
  - apply K. unfold no_integral. simpl. repeat split; discriminate.
  - assert (F : is_function Q2R "x" (at2 0 1) (EAdd (EExp (qv "y") (qr 2)) (qv "z")) (fun _ => 2%R)).
    { apply is_function_now. intros t. replace (RtoC 2) with (Cplus (RtoC 1) (RtoC 1)) by (rewrite <- RtoC_plus; f_equal; ring).
      apply ev_add; [|reflexivity]. eapply ev_exp; [reflexivity|reflexivity|].
      replace (RtoC 1) with (cpow_nat (RtoC (upd (at2 0 1) "x" t "y")) 2).
      - apply (cpow_pos _ _ 1). rewrite Q2R_Z, INR_IZR_INZ. reflexivity.
      - change (upd (at2 0 1) "x" t "y") with 1%R. cbn. rewrite <- !RtoC_mult. f_equal. ring. }
    refine (not_antiderivative Q2R "x" (at2 0 1) _ _ (fun _ => 2%R) (fun _ => 2%R) 0 F F _ _ (K (at2 0 1))).
    + apply (is_derive_const (K:=R_AbsRing) (V:=R_NormedModule)).
    + lra.
Qed.
Print Assumptions c72_refuted.

(** What is returned instead, for all integrands. *)
Section Steps.
  Context {num : Type} {N : NumOps num}.
  Notation expr := (expr num).
  Lemma oks_emit b ev : oks (emit b ev) tt.
  Proof. unfold oks, emit. now destruct b. Qed.
  Lemma oks_unev (e v : expr) : oks (unev e v) (Some (EInt e v)).
  Proof. unfold unev. apply (proj2 (oks_bind _ _ _)). exists tt. split; [apply oks_emit|reflexivity]. Qed.
  Lemma oks_give_up (e : expr) : oks (give_up e) (Some e).
  Proof. unfold give_up. apply (proj2 (oks_bind _ _ _)). exists tt. split; [apply oks_emit|reflexivity]. Qed.
  Lemma oks_try_ok {A} (m : M A) a : snd m = Ok a -> oks (m_try m) (inl a).
  Proof. destruct m as [t o]. cbn. intros ->. reflexivity. Qed.
  Lemma oks_deref (m : M (option expr)) a : snd m = Ok (Some a) -> oks (deref m) a.
  Proof. destruct m as [t o]. cbn. intros ->. unfold deref. cbn. reflexivity. Qed.
End Steps.
Ltac step := apply (proj2 (oks_bind _ _ _)); eexists; split; [|cbv beta].

(** With respect to anything but a variable: the same integral.  ([Log],
    [Sine], [Magnitude], i, pi, and nested integrals and derivatives are left out.) *)
Definition plain_integrand {num} (e : expr num) : Prop :=
  match e with
  | EReal _ | EVar _ | EEuler | EMat _ _ _ | EUn ONeg _ => True
  | EBin (OAdd | OSub | OMul | ODiv | OExp) _ _ => True
  | _ => False
  end.
Theorem c72_no_variable : forall (num : Type) (N : NumOps num) n (e v : expr num),
  plain_integrand e -> (forall x, v <> EVar x) ->
  snd (integ (S n) e v) = Ok (Some (EInt e v)).
Proof.
  intros num N n e v He Hv. cbn [integ integ_step].
  destruct e as [c| |y| | | |r c d|o a b|o a]; try destruct He;
    try (destruct o; try destruct He); destruct v; try (exfalso; now apply (Hv _)); try apply oks_unev;
    exfalso; now apply (Hv x).
Qed.
Print Assumptions c72_no_variable.

(** Negations and matrices: always the same integral. *)
Theorem c72_never_evaluated : forall (num : Type) (N : NumOps num) n (e v : expr num),
  (exists a, e = ENeg a) \/ (exists r c d, e = EMat r c d) ->
  snd (integ (S n) e v) = Ok (Some (EInt e v)).
Proof. intros num N n e v [[a ->]|(r & c & d & ->)]; cbn [integ integ_step]; apply oks_unev. Qed.
Print Assumptions c72_never_evaluated.

(** Powers: the same integral, unless Simplify makes them x^c or e^y. *)
Theorem c72_powers : forall (num : Type) (N : NumOps num) n (a b s : expr num) x,
  snd (simp n false (EExp a b)) = Ok s ->
  (forall c, s <> EExp (EVar x) (EReal c)) -> (forall y, s <> EExp EEuler (EVar y)) ->
  snd (integ (S n) (EExp a b) (EVar x)) = Ok (Some (EInt (EExp a b) (EVar x))).
Proof.
  intros num N n a b s x H H1 H2. cbn [integ integ_step]. unfold int_exp. step; [exact (oks_try_ok _ _ H)|].
  apply (proj2 (oks_bind _ _ _)). exists None. split; [|apply (proj2 (oks_bind _ _ _)); exists None; split; [|apply oks_unev]].
  - unfold int_exp_pow. destruct s as [| | | | | | |o p q|]; try reflexivity. destruct o; try reflexivity.
    destruct p; try reflexivity. destruct q; try reflexivity. cbn.
    destruct (String.eqb x x0) eqn:E; [|reflexivity]. apply String.eqb_eq in E. subst x0. now destruct (H1 c).
  - unfold int_exp_euler. destruct s as [| | | | | | |o p q|]; try reflexivity. destruct o; try reflexivity.
    destruct p; try reflexivity. destruct q; try reflexivity. cbn. now destruct (H2 x0).
Qed.
Print Assumptions c72_powers.

(** Quotients: the same integral, unless Simplify makes them a multiple of a number. *)
Theorem c72_quotients : forall (num : Type) (N : NumOps num) n (a b s : expr num) x,
  snd (simp n false (EDiv a b)) = Ok s ->
  (forall c t, s <> EMul (EReal c) t /\ s <> EMul t (EReal c)) ->
  snd (integ (S n) (EDiv a b) (EVar x)) = Ok (Some (EInt (EDiv a b) (EVar x))).
Proof.
  intros num N n a b s x H H1. cbn [integ integ_step is_var]. unfold int_div.
  step; [apply (proj2 (oks_value _ _)); exact H|].
  replace (as_bin (rcast (PBin OMul PAny PReal) s)) with (@None (expr num * expr num)); [apply oks_unev|].
  destruct s as [| | | | | | |o p q|]; try reflexivity. destruct o; try reflexivity.
  destruct q; try (destruct (H1 c p) as [_ K]; now destruct K); destruct p; try reflexivity;
    match goal with H : forall c t, EBin OMul (EReal ?c0) ?u <> _ /\ _ |- _ => destruct (H c0 u) as [K _]; now destruct K end.
Qed.
Print Assumptions c72_quotients.

(** Products of a number and something whose integral is not F + C: the same integral. *)
Theorem c72_products : forall (num : Type) (N : NumOps num) n (a b t i : expr num) c x,
  snd (simp n false (EMul a b)) = Ok (EMul (EReal c) t) ->
  snd (integ n t (EVar x)) = Ok (Some i) ->
  (forall f y, i <> EAdd f (EVar y) /\ i <> EAdd (EVar y) f) ->
  snd (integ (S n) (EMul a b) (EVar x)) = Ok (Some (EInt (EMul a b) (EVar x))).
Proof.
  intros num N n a b t i c x H Hi H1. cbn [integ integ_step is_var]. unfold int_mul.
  step; [exact (oks_try_ok _ _ H)|]. change (as_bin (rcast pMulRE (EMul (EReal c) t))) with (Some (EReal c, t)). cbv iota beta.
  step; [apply oks_emit|]. step; [exact (oks_deref _ _ Hi)|].
  replace (as_bin (rcast (PBin OAdd PAny PVar) i)) with (@None (expr num * expr num)); [apply oks_unev|].
  destruct i as [| | | | | | |o p q|]; try reflexivity. destruct o; try reflexivity.
  destruct q; try (destruct (H1 p x0) as [K _]; now destruct K); destruct p; try reflexivity;
    match goal with H : forall f y, EBin OAdd (EVar ?y0) ?u <> _ /\ _ |- _ => destruct (H u y0) as [_ K]; now destruct K end.
Qed.
Print Assumptions c72_products.

(** Sums and differences of which one part has an integral that is no sum: the
    sum or difference itself is returned, in place of its integral. *)
Theorem c72_sums : forall (num : Type) (N : NumOps num) n o (a b m l il im : expr num) x,
  o = OAdd \/ o = OSub ->
  snd (simp n false (EBin o a b)) = Ok (EBin o m l) ->
  snd (integ n l (EVar x)) = Ok (Some il) -> snd (integ n m (EVar x)) = Ok (Some im) ->
  (forall p q, il <> EAdd p q) \/ (forall p q, im <> EAdd p q) ->
  snd (integ (S n) (EBin o a b) (EVar x)) = Ok (Some (EBin o a b)).
Proof.
  intros num N n o a b m l il im x Ho H Hl Hm H1.
  assert (K : as_bin (rcast pAdd il) = None \/ as_bin (rcast pAdd im) = None).
  { assert (K0 : forall i : expr num, (forall p q, i <> EAdd p q) -> as_bin (rcast pAdd i) = None).
    { intros i Hi. destruct i as [| | | | | | |o' p q|]; try reflexivity. destruct o'; try reflexivity. now destruct (Hi p q). }
    destruct H1 as [H1|H1]; [left|right]; now apply K0. }
  cbn [integ]. destruct Ho as [->| ->]; cbn [integ_step is_var]; [unfold int_add|unfold int_sub];
    (step; [exact (oks_try_ok _ _ H)|];
     change (as_bin (rcast pAdd (EAdd m l))) with (Some (m, l)); change (as_bin (rcast pSub (ESub m l))) with (Some (m, l)); cbv iota beta;
     step; [apply oks_emit|]; step; [exact (oks_deref _ _ Hl)|]; step; [exact (oks_deref _ _ Hm)|];
     destruct K as [K|K]; rewrite K; [apply oks_give_up|];
     destruct (as_bin (rcast pAdd il)) as [[? ?]|]; apply oks_give_up).
Qed.
Print Assumptions c72_sums.

(** y^2, y/z, 3*y^2 and y^2 + z, all with respect to x. *)
Example c72_case :
  snd (simp 20 false (EExp (qv "y") (qr 2))) = Ok (EExp (qv "y") (qr 2)) /\
  snd (simp 20 false (EDiv (qv "y") (qv "z"))) = Ok (EDiv (qv "y") (qv "z")) /\
  snd (simp 20 false (EMul (qr 3) (EExp (qv "y") (qr 2)))) = Ok (EMul (qr 3) (EExp (qv "y") (qr 2))) /\
  snd (integ 20 (EExp (qv "y") (qr 2)) (EVar "x")) = Ok (Some (EInt (EExp (qv "y") (qr 2)) (EVar "x"))) /\
  snd (simp 20 false (EAdd (EExp (qv "y") (qr 2)) (qv "z"))) = Ok (EAdd (EExp (qv "y") (qr 2)) (qv "z")).
Proof. repeat split; try (vm_compute; reflexivity). Qed.
