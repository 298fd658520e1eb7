(** Properties C12-C13 and C18-C20, C52: SimplifyVisitor and the operators. *)
From Coq Require Import String Bool Arith ZArith QArith Reals Lra Lia.
From Coquelicot Require Import Coquelicot.
From Coq Require Import List Permutation.
From Verif Require Import Base Num Expr Ghost Simplify Calculus Spec QNum PowProofs SemProofs MonadProofs SimplifySound DiffSound.
Import ListNotations.
Open Scope string_scope.

Definition qr (n : Z) : expr Q := EReal (inject_Z n).
Definition qq (a : Q) : expr Q := EReal a.
Definition qv (x : string) : expr Q := EVar x.

(** ** C12: Simplify preserves the value

    [simp n prefer e] is the result of simplifying [e] with recursion depth at
    most [n]; [prefer] is the distributive policy. *)
Definition C12_statement : Prop :=
  forall (num : Type) (N : NumOps num) (toR : num -> R), Exact N toR ->
  forall n prefer (e r : expr num), snd (simp n prefer e) = Ok r ->
  forall rho v, ev toR e rho v -> ev toR r rho v.

(** Over the rationals, simplifying [e] gives an expression without the value
    that [e] has at some point. *)
Definition miscomputed (e : expr Q) : Prop :=
  exists n r rho v, snd (simp n false e) = Ok r /\ ev Q2R e rho v /\ ~ ev Q2R r rho v.

Definition at2 (x : R) (y : R) (s : string) : R :=
  if String.eqb s "x" then x else if String.eqb s "y" then y else 1%R.

Lemma Q2R_Z z : Q2R (inject_Z z) = IZR z.
Proof. apply Q2R_inject. Qed.

(** The sine is dropped: Sine(1) becomes 1. *)
Theorem c12_wrong_sine : miscomputed (ESine (qr 1)).
Proof.
  exists 5%nat, (qr 1), (at2 0 0), (RtoC (sin 1)). split; [reflexivity|]. split.
  - exists 1%R. split; [simpl; now rewrite Q2R_Z|reflexivity].
  - simpl. rewrite Q2R_Z. intros H. apply RtoC_inj in H. pose proof (sin_lt_x 1 Rlt_0_1). lra.
Qed.

(** (x+y) / ((x+y)+z) becomes 1, because Equals(x+y, (x+y)+z) is true. *)
Theorem c12_wrong_equals :
  miscomputed (EDiv (EAdd (qv "x") (qv "y")) (EAdd (EAdd (qv "x") (qv "y")) (qv "z"))).
Proof.
  exists 20%nat, (qr 1), (at2 1 1), (Cdiv (Cplus (RtoC 1) (RtoC 1)) (Cplus (Cplus (RtoC 1) (RtoC 1)) (RtoC 1))).
  split; [vm_compute; reflexivity|]. split.
  - apply ev_div; [repeat eexists|repeat eexists|].
    rewrite <- !RtoC_plus. apply RtoC_neq. lra.
  - simpl. rewrite Q2R_Z. rewrite <- !RtoC_plus, <- RtoC_div by lra. intros H. apply RtoC_inj in H. lra.
Qed.

(** (2*x^2)*(y^2*x) becomes (2*x)*x^3. *)
Theorem c12_wrong_factor :
  miscomputed (EMul (EMul (qr 2) (EExp (qv "x") (qr 2))) (EMul (EExp (qv "y") (qr 2)) (qv "x"))).
Proof.
  exists 20%nat, (EMul (EMul (qr 2) (qv "x")) (EExp (qv "x") (qr 3))), (at2 1 2), 
    (Cmult (Cmult (RtoC 2) (Cmult (RtoC 1) (RtoC 1))) (Cmult (Cmult (RtoC 2) (RtoC 2)) (RtoC 1))).
  split; [vm_compute; reflexivity|]. split.
  - apply ev_mul; apply ev_mul.
    + simpl. now rewrite Q2R_Z.
    + eapply ev_exp; [reflexivity|simpl; rewrite Q2R_Z; reflexivity|apply cpow_2].
    + eapply ev_exp; [reflexivity|simpl; rewrite Q2R_Z; reflexivity|apply cpow_2].
    + reflexivity.
  - intros (p & q & (p1 & p2 & -> & -> & ->) & (q1 & q2 & -> & -> & Hq) & E).
    simpl in Hq, E. rewrite Q2R_Z in *. unfold at2 in Hq. simpl in Hq. apply cpow_base1 in Hq. subst q.
    unfold at2 in E. simpl in E. rewrite <- !RtoC_mult in E. apply RtoC_inj in E. lra.
Qed.

(** x + 0.00000001*y becomes x. *)
Theorem c12_wrong_tiny : miscomputed (EAdd (qv "x") (EMul (qq (1 # 100000000)) (qv "y"))).
Proof.
  exists 20%nat, (qv "x"), (at2 0 1), (Cplus (RtoC 0) (Cmult (RtoC (Q2R (1 # 100000000))) (RtoC 1))).
  split; [vm_compute; reflexivity|]. split; [repeat eexists|].
  simpl. unfold at2. simpl. rewrite <- RtoC_mult, <- RtoC_plus. intros H. apply RtoC_inj in H.
  unfold Q2R in H. simpl in H. lra.
Qed.

(** (x^2)^0.5 becomes x^1. *)
Theorem c12_wrong_power_of_power : miscomputed (EExp (EExp (qv "x") (qr 2)) (qq (1 # 2))).
Proof.
  exists 20%nat, (EExp (qv "x") (qr 1)), (at2 (-1) 0), (RtoC (Rpower 1 (Q2R (1 # 2)))).
  split; [vm_compute; reflexivity|]. split.
  - eapply ev_exp; [|reflexivity|].
    + eapply ev_exp; [reflexivity|simpl; rewrite Q2R_Z; reflexivity|apply cpow_2].
    + unfold at2. simpl. rewrite <- RtoC_mult. replace (-1 * -1)%R with 1%R by ring. apply cpow_real_iff; auto. lra.
  - intros (p & q & -> & -> & H). rewrite Q2R_Z in H. apply cpow_1_iff in H. unfold at2 in H. simpl in H.
    apply RtoC_inj in H. unfold Rpower in H. pose proof (exp_pos (Q2R (1 # 2) * ln 1)). lra.
Qed.

(** (-1*x)^0.5 becomes (1*x^0.5)*i, also for negative x. *)
Theorem c12_wrong_sqrt : miscomputed (EExp (EMul (qr (-1)) (qv "x")) (qq (1 # 2))).
Proof.
  exists 20%nat, (EMul (EMul (qr 1) (EExp (qv "x") (qq (1 # 2)))) EImag), (at2 (-1) 0), (RtoC (Rpower 1 (Q2R (1 # 2)))).
  split; [vm_compute; reflexivity|]. split.
  - eapply ev_exp; [apply ev_mul; [simpl; rewrite Q2R_Z; reflexivity|reflexivity]|reflexivity|].
    unfold at2. simpl. rewrite <- RtoC_mult. replace (-1 * -1)%R with 1%R by ring. apply cpow_real_iff; auto. lra.
  - intros (p & q & (p1 & p2 & _ & (b & c & -> & -> & H) & _) & _).
    unfold at2 in H. simpl in H. apply cpow_inv in H.
    destruct H as [(z & E & _)|[(y & s & E & Hy & _)|(s & E & _)]].
    + apply RtoC_inj in E. unfold Q2R in E. simpl in E.
      assert (1 = IZR (2 * z))%R as K by (rewrite mult_IZR; lra). apply eq_IZR in K. lia.
    + apply RtoC_inj in E. lra.
    + apply RtoC_inj in E. lra.
Qed.

(** log_2(x^2) becomes 2*log_2(x). *)
Theorem c12_wrong_log : miscomputed (ELog (qr 2) (EExp (qv "x") (qr 2))).
Proof.
  exists 20%nat, (EMul (qr 2) (ELog (qr 2) (qv "x"))), (at2 (-1) 0), (RtoC (ln 1 / ln 2)).
  split; [vm_compute; reflexivity|]. split.
  - eapply ev_log; [simpl; rewrite Q2R_Z; reflexivity|eapply ev_exp; [reflexivity|simpl; rewrite Q2R_Z; reflexivity|apply cpow_2]|].
    exists 2%R, 1%R. unfold at2. simpl. rewrite <- RtoC_mult. repeat split; try lra. f_equal. ring.
  - intros (p & q & _ & (b & c & _ & -> & (u & w & _ & E & _ & _ & Hw & _)) & _).
    unfold at2 in E. simpl in E. apply RtoC_inj in E. lra.
Qed.

(** |i*y + i| becomes ((i*y)^2 + 1)^0.5. *)
Theorem c12_wrong_magnitude : miscomputed (EMag (EAdd (EMul EImag (qv "y")) EImag)).
Proof.
  exists 20%nat, (EExp (EAdd (EExp (EMul EImag (qv "y")) (qr 2)) (qr 1)) (qq (1 # 2))), (at2 0 1),
    (RtoC (Cmod (Cplus (Cmult Ci (RtoC 1)) Ci))).
  split; [vm_compute; reflexivity|]. split; [repeat eexists|].
  intros (p & q & (p1 & p2 & (b & c & (b1 & b2 & -> & -> & ->) & -> & H1) & -> & ->) & -> & H2).
  unfold at2 in *. simpl in H1, H2. rewrite !Q2R_Z in *.
  apply cpow_2_iff in H1. subst p1.
  replace (Cplus (Cmult (Cmult Ci (RtoC 1)) (Cmult Ci (RtoC 1))) (RtoC 1)) with (RtoC 0) in H2.
  2:{ unfold Cplus, Cmult, Ci, RtoC. simpl. f_equal; ring. }
  apply cpow_base0_inv in H2. destruct H2 as (r & _ & _ & H).
  apply RtoC_inj in H. apply Cmod_eq_0 in H. unfold Cplus, Cmult, Ci, RtoC in H. simpl in H.
  injection H as H3 H4. lra.
Qed.

(** x^(-2*y) / z becomes 1 / (x^y * z). *)
Theorem c12_wrong_exponent : miscomputed (EDiv (EExp (qv "x") (EMul (qr (-2)) (qv "y"))) (qv "z")).
Proof.
  exists 20%nat, (EDiv (qr 1) (EMul (EExp (qv "x") (qv "y")) (qv "z"))), (at2 2 1), (Cdiv (Cinv (Cmult (RtoC 2) (RtoC 2))) (RtoC 1)).
  split; [vm_compute; reflexivity|]. split.
  - apply ev_div; [|reflexivity|apply C1_neq_0].
    eapply ev_exp; [reflexivity|apply ev_mul; [simpl; rewrite Q2R_Z; reflexivity|reflexivity]|].
    unfold at2. simpl. rewrite <- RtoC_mult. replace (-2 * 1)%R with (IZR (-2)) by (simpl; lra).
    replace (Cinv (Cmult (RtoC 2) (RtoC 2))) with (cpowz (RtoC 2) (-2)).
    + apply cpow_cpowz. left. apply RtoC_neq. lra.
    + rewrite cpowz_R by lra. rewrite <- RtoC_mult, <- RtoC_Cinv by lra. f_equal. simpl. field.
  - intros (p & q & -> & (q1 & q2 & (b & c & -> & -> & H) & -> & ->) & _ & E).
    rewrite Q2R_Z in E. unfold at2 in *. simpl in H, E. apply cpow_1_iff in H. subst q1.
    rewrite <- !RtoC_mult, <- RtoC_Cinv, <- !RtoC_div in E by lra. apply RtoC_inj in E. lra.
Qed.

(** x^(-1*y) / z becomes 1 / (x^y * z), which has no value for x = 0. *)
Theorem c12_wrong_flip : miscomputed (EDiv (EExp (qv "x") (EMul (qr (-1)) (qv "y"))) (qv "z")).
Proof.
  exists 20%nat, (EDiv (qr 1) (EMul (EExp (qv "x") (qv "y")) (qv "z"))), (at2 0 (-1)), (Cdiv (RtoC 0) (RtoC 1)).
  split; [vm_compute; reflexivity|]. split.
  - apply ev_div; [|reflexivity|apply C1_neq_0].
    eapply ev_exp; [reflexivity|apply ev_mul; [simpl; rewrite Q2R_Z; reflexivity|reflexivity]|].
    unfold at2. simpl. rewrite <- RtoC_mult. apply cpow_base0_intro. lra.
  - intros (p & q & -> & (q1 & q2 & (b & c & -> & -> & H) & -> & ->) & _ & E).
    unfold at2 in H. simpl in H. apply cpow_base0_inv in H. destruct H as (r & E1 & Hr & _). apply RtoC_inj in E1. lra.
Qed.

(** (2*x^3)*(y^x) becomes 2*x^(y+3). *)
Theorem c12_wrong_base : miscomputed (EMul (EMul (qr 2) (EExp (qv "x") (qr 3))) (EExp (qv "y") (qv "x"))).
Proof.
  exists 20%nat, (EMul (qr 2) (EExp (qv "x") (EAdd (qv "y") (qr 3)))), (at2 1 2),
    (Cmult (Cmult (RtoC 2) (RtoC (Rpower 1 3))) (RtoC 2)).
  split; [vm_compute; reflexivity|]. split.
  - apply ev_mul; [apply ev_mul|].
    + simpl. now rewrite Q2R_Z.
    + eapply ev_exp; [reflexivity|simpl; rewrite Q2R_Z; reflexivity|]. apply cpow_real_iff; auto. unfold at2. simpl. lra.
    + eapply ev_exp; [reflexivity|reflexivity|]. unfold at2. simpl. apply cpow_1.
  - intros (p & q & -> & (b & c & -> & _ & H) & E).
    unfold at2 in H. simpl in H. apply cpow_base1 in H. subst q. rewrite Q2R_Z in E.
    rewrite <- !RtoC_mult in E. apply RtoC_inj in E. unfold Rpower in E. rewrite ln_1, Rmult_0_r, exp_0 in E. lra.
Qed.

(** Derivative(x^y, x) becomes x^(y-1)*y, which has no value for x = 0, y = 1. *)
Theorem c12_wrong_derivative : miscomputed (EDeriv (EExp (qv "x") (qv "y")) (qv "x")).
Proof.
  exists 20%nat, (EMul (EExp (qv "x") (EAdd (qv "y") (qr (-1)))) (qv "y")), (at2 0 1), (RtoC 1).
  split; [vm_compute; reflexivity|]. split.
  - exists (fun t => t)%R, 1%R. split; [|split; [|reflexivity]].
    + apply filter_forall. intros t. eapply ev_exp; [reflexivity|reflexivity|].
      unfold upd, at2. simpl. apply cpow_1.
    + apply (is_derive_id (K:=R_AbsRing)).
  - intros (p & q & (b & c & -> & (c1 & c2 & -> & -> & ->) & H) & _).
    unfold at2 in H. simpl in H. apply cpow_base0_inv in H. destruct H as (r & E & Hr & _).
    rewrite Q2R_Z, <- RtoC_plus in E. apply RtoC_inj in E. lra.
Qed.

Theorem c12_refuted : ~ C12_statement.
Proof.
  intros H. destruct c12_wrong_sine as (n & r & rho & v & Hr & Hv & Hn).
  apply Hn. exact (H Q Q_ops Q2R Q_exact n false _ _ Hr rho v Hv).
Qed.
Print Assumptions c12_refuted.

(** Every rule application that is not flagged (Base.v, [defect]: one flag for
    each of the ways to go wrong shown above, and [Inexact] for powers and
    logarithms the arithmetic does not promise to compute exactly) keeps the
    value. *)
Theorem c12_simplify_value_partial :
  forall (num : Type) (N : NumOps num) (toR : num -> R), Exact N toR ->
  forall n prefer (e r : expr num), simp n prefer e = ([], Ok r) ->
  forall rho v, ev toR e rho v -> ev toR r rho v.
Proof.
  intros num N toR HE n prefer e r H rho v Hv.
  exact (proj1 (knot_sound toR HE n) prefer e r H rho v Hv).
Qed.
Print Assumptions c12_simplify_value_partial.

(* ((2*x + 3*x) * x^2) / (x*y) + log_2(8) * (x - y) *)
Definition c12_expr : expr Q :=
  EAdd (EDiv (EMul (EAdd (EMul (qr 2) (qv "x")) (EMul (qr 3) (qv "x"))) (EExp (qv "x") (qr 2)))
             (EMul (qv "x") (qv "y")))
       (EMul (ELog (qr 2) (qr 8)) (ESub (qv "x") (qv "y"))).
Example c12_case :
  (exists r, simp 30 false c12_expr = ([], Ok r)) /\ (exists v, ev Q2R c12_expr (at2 1 1) v).
Proof.
  split; [eexists; vm_compute; reflexivity|]. eexists. apply ev_add; [apply ev_div|apply ev_mul].
  - apply ev_mul; [repeat eexists|]. eapply ev_exp; [reflexivity|simpl; rewrite Q2R_Z; reflexivity|apply cpow_2].
  - repeat eexists.
  - unfold at2. simpl. rewrite <- RtoC_mult. apply RtoC_neq. lra.
  - eapply ev_log; [reflexivity|reflexivity|]. rewrite !Q2R_Z. exists 2%R, 8%R. repeat split; lra.
  - repeat eexists.
Qed.

(** ** C13: Simplify folds constants *)

(** With enough recursion depth and under both policies, simplifying [e] gives [r]. *)
Definition simplifies_to {num : Type} {N : NumOps num} (e r : expr num) : Prop :=
  exists m, forall n prefer, (m <= n)%nat -> snd (simp n prefer e) = Ok r.

Definition C13_statement : Prop :=
  forall (num : Type) (N : NumOps num), ieee_units N ->
  forall (e : expr num), literal e ->
  simplifies_to e (EReal (double_value e)).


Section Fold.
  Context {num : Type} {N : NumOps num}.

  Lemma snd_bind_ok {A B} (m : M A) (k : A -> M B) a : snd m = Ok a -> snd (bind m k) = snd (k a).
  Proof. destruct m as [t [x|s|x| |u|]]; simpl; intros H; try discriminate. now injection H as ->. Qed.
  Lemma snd_try_ok {A} (m : M A) a : snd m = Ok a -> snd (m_try m) = Ok (inl a).
  Proof. destruct m as [t [x|s|x| |u|]]; simpl; intros H; try discriminate. now injection H as ->. Qed.

  Lemma operands_ok S (a b a' b' : expr num) k : snd (S a) = Ok a' -> snd (S b) = Ok b' ->
    snd (operands S a b k) = snd (k a' b').
  Proof.
    intros Ha Hb. unfold operands.
    rewrite (snd_bind_ok _ _ _ (snd_try_ok _ _ Ha)), (snd_bind_ok _ _ _ (snd_try_ok _ _ Hb)). reflexivity.
  Qed.

  (* what each visit does with two literals *)
  Definition fold2 (o : binop) (x y : num) : num :=
    match o with
    | OAdd => n_add x y
    | OSub => n_sub x y
    | OMul => if tiny x then n_of_Z 0 else if n_eqb x n1 then y else n_mul x y
    | ODiv => n_div x y
    | OExp => if n_eqb y n0 then n_of_Z 1 else if n_eqb x n0 then n_of_Z 0 else n_pow x y
    | _ => x
    end.

  Fixpoint fold_lit (e : expr num) : num :=
    match e with
    | EReal c => c
    | EBin o a b => fold2 o (fold_lit a) (fold_lit b)
    | _ => n_of_Z 0
    end.

  Fixpoint height (e : expr num) : nat :=
    match e with EBin _ a b => Datatypes.S (max (height a) (height b)) | _ => 1 end.

  Lemma literal_fold (e : expr num) : literal e ->
    forall n prefer, (height e <= n)%nat -> snd (simp n prefer e) = Ok (EReal (fold_lit e)).
  Proof.
    induction e as [c| |x| | | |r c d|o a IHa b IHb|o a IHa]; simpl; try contradiction;
      intros L n prefer Hn; destruct n as [|n]; try lia.
    - reflexivity.
    - assert (K : literal a /\ literal b) by (destruct o; tauto). destruct K as [La Lb].
      assert (Ra : snd (simp n prefer a) = Ok (EReal (fold_lit a))) by (apply IHa; auto; lia).
      assert (Rb : snd (simp n prefer b) = Ok (EReal (fold_lit b))) by (apply IHb; auto; lia).
      destruct o; try contradiction; cbn [simp simp_step];
        [unfold visit_add|unfold visit_sub|unfold visit_mul|unfold visit_div|unfold visit_exp];
        rewrite (operands_ok _ _ _ _ _ _ Ra Rb); generalize (fold_lit a) (fold_lit b); intros x y.
      + reflexivity.
      + reflexivity.
      + cbn. destruct (tiny x); [destruct (n_eqb x n0); reflexivity|]. destruct (n_eqb x n1) eqn:E; [|reflexivity].
        destruct n as [|n]; [discriminate Ra|]. reflexivity.
      + reflexivity.
      + cbn. destruct (n_eqb y n0); [reflexivity|]. destruct (n_eqb x n0); reflexivity.
  Qed.

  Lemma fold_double (e : expr num) : ieee_units N -> literal e -> ordinary e -> fold_lit e = double_value e.
  Proof.
    intros [H1 H2]. induction e as [c| |x| | | |r c d|o a IHa b IHb|o a IHa]; simpl; try contradiction; auto.
    intros L (Oa & Ob & Oo).
    assert (K : literal a /\ literal b) by (destruct o; tauto). destruct K as [La Lb].
    rewrite IHa, IHb by assumption. destruct o; try contradiction; simpl; auto.
    - unfold tiny. rewrite Oo. destruct (n_eqb (double_value a) n1) eqn:E; auto. now rewrite H1.
    - destruct (n_eqb (double_value b) n0) eqn:E; [now rewrite H2|].
      destruct (n_eqb (double_value a) n0) eqn:E'; auto. apply Oo in E'. unfold n0 in E. congruence.
  Qed.
End Fold.

Lemma R_ieee : ieee_units R_ops.
Proof.
  split; cbn.
  - intros c y H. destruct (Req_EM_T c 1) as [->|]; [ring|discriminate].
  - intros x p H. destruct (Req_EM_T p 0) as [->|]; [|discriminate].
    pose proof (Int_part_IZR 0) as E. destruct (r_is_int 0) as [|Hn]; [now rewrite E|].
    now rewrite E in Hn.
Qed.

(** 0.00000001 * 5 becomes 0. *)
Theorem c13_refuted : ~ C13_statement.
Proof.
  intros H. destruct (H R R_ops R_ieee (EMul (EReal (/ 100000000)%R) (EReal 5%R))) as [m Hm]; [simpl; auto|].
  specialize (Hm (m + 2)%nat false ltac:(lia)). rewrite literal_fold in Hm; [|simpl; auto|simpl; lia].
  injection Hm as E. unfold fold_lit, fold2, tiny in E. simpl in E.
  destruct (Rle_dec (Rabs (/ 100000000)) (/ 8388608)) as [Hl|Hl].
  - lra.
  - apply Hl. rewrite Rabs_pos_eq; lra.
Qed.
Print Assumptions c13_refuted.

(** Any literal expression becomes one literal. *)
Theorem c13_single_literal :
  forall (num : Type) (N : NumOps num) (e : expr num), literal e ->
  exists c, simplifies_to e (EReal c).
Proof. intros num N e L. exists (fold_lit e), (height e). intros. now apply literal_fold. Qed.
Print Assumptions c13_single_literal.

(** Missing: products by a number within EPSILON of 0 and powers of 0, which
    are not computed with the machine operations. *)
Theorem c13_fold_constants_partial :
  forall (num : Type) (N : NumOps num), ieee_units N ->
  forall (e : expr num), literal e -> ordinary e ->
  simplifies_to e (EReal (double_value e)).
Proof.
  intros num N H e L O. exists (height e). intros n prefer Hn. rewrite <- fold_double by assumption.
  now apply literal_fold.
Qed.
Print Assumptions c13_fold_constants_partial.

Example c13_case :
  ieee_units R_ops /\
  literal (EExp (EMul (EReal 3%R) (ESub (EReal 7%R) (EReal 2%R))) (EReal 2%R)) /\
  @ordinary R R_ops (EExp (EMul (EReal 3%R) (ESub (EReal 7%R) (EReal 2%R))) (EReal 2%R)).
Proof.
  split; [exact R_ieee|]. split; [simpl; tauto|]. simpl. repeat split.
  - destruct (Rle_dec (Rabs 3) (/ 8388608)) as [Hl|Hl]; [|reflexivity]. rewrite Rabs_pos_eq in Hl; lra.
  - destruct (Req_EM_T (3 * (7 - 2)) 0); [lra|discriminate].
Qed.

(** ** C18: leaves and elementary identities *)
Theorem c18_leaves :
  forall (num : Type) (N : NumOps num) (e : expr num), is_leaf e -> simplifies_to e e.
Proof.
  intros num N e H. exists 1%nat. intros [|n] prefer Hn; [lia|].
  destruct e; try contradiction; reflexivity.
Qed.
Print Assumptions c18_leaves.
Example c18_leaves_case : is_leaf (EMat 1 1 [1%Q] : expr Q) /\ is_leaf (EPi : expr Q).
Proof. simpl. auto. Qed.

Section Identities.
  Context (num : Type) (N : NumOps num).
  Hypothesis HN : small_ints N.
  Notation E := (expr num).
  Notation tinyb c := (n_leb (n_abs c) n_eps).

  Ltac fuel k :=
    exists k; let n := fresh "n" in let p := fresh "prefer" in let H := fresh "Hn" in
    intros n p H; repeat (destruct n as [|n]; [exfalso; lia|]); clear H.
  Ltac run := cbn -[String.eqb];
    repeat (rewrite ?String.eqb_refl; unfold tiny, n0, n1, real;
            repeat match goal with H : ?b = true |- context [?b] => rewrite H
                              | H : ?b = false |- context [?b] => rewrite H end; cbn -[String.eqb]); try reflexivity.

  Theorem c18_add_zero (x : string) (c : num) : n_eqb c (n_of_Z 0) = true -> simplifies_to (EAdd (EVar x) (EReal c) : E) (EVar x).
  Proof. intros H. fuel 2%nat. run. Qed.
  Theorem c18_mul_one (x : string) (c : num) : n_eqb c (n_of_Z 1) = true -> tinyb c = false ->
    simplifies_to (EMul (EReal c) (EVar x) : E) (EVar x).
  Proof. intros H1 H2. fuel 2%nat. run. Qed.
  Theorem c18_mul_zero (x : string) (c : num) : n_eqb c (n_of_Z 0) = true -> tinyb c = true ->
    simplifies_to (EMul (EReal c) (EVar x) : E) (EReal (n_of_Z 0)).
  Proof. intros H1 H2. fuel 2%nat. run. Qed.
  Theorem c18_pow_zero (x : string) (c : num) : n_eqb c (n_of_Z 0) = true ->
    simplifies_to (EExp (EVar x) (EReal c) : E) (EReal (n_of_Z 1)).
  Proof. intros H. fuel 2%nat. run. Qed.
  Theorem c18_pow_one (x : string) (c : num) : n_eqb c (n_of_Z 0) = false -> n_eqb c (n_of_Z 1) = true ->
    simplifies_to (EExp (EVar x) (EReal c) : E) (EVar x).
  Proof. intros H1 H2. fuel 2%nat. run. Qed.
  Theorem c18_sub_self (x : string) : simplifies_to (ESub (EVar x) (EVar x) : E) (EReal (n_of_Z 0)).
  Proof. fuel 2%nat. run. Qed.
  Theorem c18_mul_self (x : string) : simplifies_to (EMul (EVar x) (EVar x) : E) (EExp (EVar x) (EReal (n_of_Z 2))).
  Proof. fuel 2%nat. run. Qed.
  Theorem c18_i_squared : simplifies_to (EMul EImag EImag : E) (EReal (n_of_Z (-1))).
  Proof. fuel 2%nat. run. Qed.
  Theorem c18_log_self (x : string) : simplifies_to (ELog (EVar x) (EVar x) : E) (EReal (n_of_Z 1)).
  Proof. fuel 2%nat. run. Qed.
  Theorem c18_add_self (x : string) : simplifies_to (EAdd (EVar x) (EVar x) : E) (EMul (EReal (n_of_Z 2)) (EVar x)).
  Proof. destruct HN as (H1 & H2 & H3 & H4). fuel 3%nat. run. Qed.
  Theorem c18_log_one (x : string) (c : num) : n_leb c (n_of_Z 0) = false -> n_eqb c (n_of_Z 1) = true ->
    simplifies_to (ELog (EVar x) (EReal c) : E) (EReal (n_of_Z 0)).
  Proof. intros H1 H2. fuel 2%nat. run. Qed.
  (* coefficients that are neither 0 nor 1 *)
  Definition proper (c : num) : Prop := tinyb c = false /\ n_eqb c (n_of_Z 1) = false.
  Theorem c18_add_like_terms (x : string) (c1 c2 : num) : proper c1 -> proper c2 ->
    simplifies_to (EAdd (EMul (EReal c1) (EVar x)) (EMul (EReal c2) (EVar x)) : E) (EMul (EReal (n_add c1 c2)) (EVar x)).
  Proof.
    destruct HN as (K1 & _). intros [H1 H2] [H3 H4].
    assert (K : forall c, tinyb c = false -> n_eqb c (n_of_Z 1) = false ->
              simplifies_to (EMul (EReal c) (EVar x) : E) (EMul (EReal c) (EVar x))).
    { intros c T1 T2. fuel 2%nat. run. }
    destruct (K c1 H1 H2) as [m1 M1], (K c2 H3 H4) as [m2 M2].
    exists (Datatypes.S (max m1 m2)). intros [|n] prefer Hn; [lia|]. cbn [simp simp_step]. unfold visit_add.
    erewrite operands_ok; [|apply M1; lia|apply M2; lia]. run.
  Qed.
  Theorem c18_mul_powers (x : string) (p q : num) :
    n_eqb p (n_of_Z 0) = false -> n_eqb p (n_of_Z 1) = false ->
    n_eqb q (n_of_Z 0) = false -> n_eqb q (n_of_Z 1) = false -> n_eqb p q = false ->
    simplifies_to (EMul (EExp (EVar x) (EReal p)) (EExp (EVar x) (EReal q)) : E) (EExp (EVar x) (EReal (n_add p q))).
  Proof.
    intros H1 H2 H3 H4 H5.
    assert (K : forall c, n_eqb c (n_of_Z 0) = false -> n_eqb c (n_of_Z 1) = false ->
              simplifies_to (EExp (EVar x) (EReal c) : E) (EExp (EVar x) (EReal c))).
    { intros c T1 T2. fuel 2%nat. run. }
    destruct (K p H1 H2) as [m1 M1], (K q H3 H4) as [m2 M2].
    exists (3 + max m1 m2)%nat. intros [|n] prefer Hn; [lia|]. cbn [simp simp_step]. unfold visit_mul.
    erewrite operands_ok; [|apply M1; lia|apply M2; lia]. destruct n as [|[|n]]; [lia|lia|]. run.
    unfold mul_506, m_eq, equals. cbn -[String.eqb]. now rewrite String.eqb_refl, H5.
  Qed.
End Identities.
Print Assumptions c18_add_like_terms.
Print Assumptions c18_mul_powers.
Example c18_case : small_ints Q_ops /\ proper Q Q_ops 3%Q /\ n_eqb 3%Q 5%Q = false.
Proof. repeat split. Qed.

(** ** C19: logarithms outside their domain *)

(** [b] and [a] stand for any operands whose simplified form is known. *)
Theorem c19_log_domain :
  forall (num : Type) (N : NumOps num) (b a b' a' : expr num),
  simplifies_to b b' -> simplifies_to a a' ->
  (forall c, b' = EReal c -> n_leb c (n_of_Z 0) = true \/ n_eqb c (n_of_Z 1) = true ->
     simplifies_to (ELog b a) EUndef) /\
  (forall c, a' = EReal c -> n_leb c (n_of_Z 0) = true -> simplifies_to (ELog b a) EUndef) /\
  (forall c d, b' = EReal c -> a' = EReal d ->
     n_leb c (n_of_Z 0) = false -> n_eqb c (n_of_Z 1) = false -> n_leb d (n_of_Z 0) = false ->
     exists r, simplifies_to (ELog b a) (EReal r)).
Proof.
  intros num N b a b' a' [m Hm] [k Hk].
  assert (K : forall n prefer, (Datatypes.S (max m k) <= n)%nat ->
    snd (simp n prefer (ELog b a)) = snd (first_rule (log_rules (simp (pred n) prefer)) (fun a b => ret (ELog a b)) b' a')).
  { intros [|n] prefer Hn; [lia|]. cbn [simp simp_step]. unfold visit_log. simpl pred.
    apply operands_ok; [apply Hm|apply Hk]; lia. }
  split; [|split].
  - intros c -> Hc. exists (Datatypes.S (max m k)). intros n prefer Hn. rewrite (K n prefer Hn).
    destruct (n_leb c (n_of_Z 0)) eqn:E1; cbn; unfold n0, n1; rewrite E1; [reflexivity|].
    destruct Hc as [Hc|Hc]; [discriminate|]. now rewrite Hc.
  - intros c -> Hc. exists (Datatypes.S (max m k)). intros n prefer Hn. rewrite (K n prefer Hn).
    destruct b' as [y| | | | | | | |]; cbn; unfold n0, n1; rewrite ?Hc; try reflexivity.
    destruct (n_leb y (n_of_Z 0) || n_eqb y (n_of_Z 1))%bool; reflexivity.
  - intros c d -> -> H1 H2 H3.
    exists (if n_eqb d (n_of_Z 1) then n_of_Z 0 else n_mul (n_log2 d) (n_div n1 (n_log2 c))).
    exists (Datatypes.S (max m k)). intros n prefer Hn. rewrite (K n prefer Hn).
    cbn; unfold n0, n1. rewrite H1, H2, H3. cbn. destruct (n_eqb d (n_of_Z 1)); [reflexivity|].
    destruct (n_log2_exact c && n_log2_exact d)%bool; reflexivity.
Qed.
Print Assumptions c19_log_domain.

Example c19_case :
  simplifies_to (ESub (qr 1) (qr 3)) (qr (-2)) /\ @n_leb Q Q_ops (inject_Z (-2)) (inject_Z 0) = true /\
  simplifies_to (qr 8) (qr 8).
Proof.
  split; [|split].
  - exists 2%nat. intros [|[|n]] prefer Hn; [lia|lia|reflexivity].
  - reflexivity.
  - apply c18_leaves. exact I.
Qed.

(** ** C20: Sine *)
Definition C20_statement : Prop :=
  forall (num : Type) (N : NumOps num) (toR : num -> R), Exact N toR ->
  forall n prefer (e r : expr num), snd (simp n prefer (ESine e)) = Ok r ->
  forall rho t, ev toR e rho (RtoC t) -> ev toR r rho (RtoC (sin t)).

Theorem c20_refuted : ~ C20_statement.
Proof.
  intros H. assert (K : ev Q2R (qr 1) (at2 0 0) (RtoC 1)) by (simpl; now rewrite Q2R_Z).
  specialize (H Q Q_ops Q2R Q_exact 5%nat false (qr 1) (qr 1) eq_refl _ _ K).
  simpl in H. rewrite Q2R_Z in H. apply RtoC_inj in H. pose proof (sin_lt_x 1 Rlt_0_1). lra.
Qed.
Print Assumptions c20_refuted.

(** What the code does instead: the result is the operand, simplified twice.
    (So the property holds only where the sine equals its argument.) *)
Theorem c20_sine_dropped_partial :
  forall (num : Type) (N : NumOps num) (e e1 e2 : expr num),
  simplifies_to e e1 -> simplifies_to e1 e2 -> simplifies_to (ESine e) e2.
Proof.
  intros num N e e1 e2 [m Hm] [k Hk]. exists (Datatypes.S (max m k)). intros [|n] prefer Hn; [lia|].
  cbn [simp simp_step]. unfold visit_sine.
  rewrite (snd_bind_ok _ _ _ (Hm n prefer ltac:(lia))). simpl. apply Hk. lia.
Qed.
Print Assumptions c20_sine_dropped_partial.
Example c20_case : simplifies_to (EAdd (qr 1) (qr 2)) (qr 3) /\ simplifies_to (qr 3) (qr 3).
Proof.
  split; [|apply c18_leaves; exact I]. exists 2%nat. intros [|[|n]] prefer Hn; [lia|lia|reflexivity].
Qed.

(** ** C52: operators + - * / *)
Definition C52_statement : Prop :=
  forall (num : Type) (N : NumOps num) (toR : num -> R), Exact N toR ->
  forall n o (a b r : expr num), o = OAdd \/ o = OSub \/ o = OMul \/ o = ODiv ->
  snd (operator n o a b) = Ok r ->
  forall rho v, ev toR (EBin o a b) rho v -> ev toR r rho v.

Theorem c52_refuted : ~ C52_statement.
Proof.
  intros H. destruct c12_wrong_equals as (n & r & rho & v & Hr & Hv & Hn).
  apply Hn. refine (H Q Q_ops Q2R Q_exact n ODiv _ _ r _ _ rho v Hv); auto.
  unfold operator. destruct (simp n false _) as [t o]; simpl in *; subst o. reflexivity.
Qed.
Print Assumptions c52_refuted.

(** Missing: runs with a flagged rule application, see C12. *)
Theorem c52_operators_partial :
  forall (num : Type) (N : NumOps num) (toR : num -> R), Exact N toR ->
  forall n o (a b r : expr num), operator n o a b = ([], Ok r) ->
  (simp n false (EBin o a b) = ([], Ok r) \/ (exists s, simp n false (EBin o a b) = ([], Err s)) /\ r = EBin o a b) /\
  forall rho v, ev toR (EBin o a b) rho v -> ev toR r rho v.
Proof.
  intros num N toR HE n o a b r H. unfold operator in H. 
  apply (proj1 (runs_bind _ _ _)) in H. destruct H as (x & Hx & H).
  apply (proj1 (runs_try _ _)) in Hx. destruct Hx as [(e & He & ->)|(s & Hs & ->)]; apply (proj1 (runs_ret _ _)) in H; subst.
  - split; [left; exact He|]. apply (proj1 (knot_sound toR HE n) false _ _ He).
  - split; [right; eauto|]. auto.
Qed.
Print Assumptions c52_operators_partial.

Example c52_case : exists r, operator 20 ODiv (EMul (qv "x") (qv "y")) (EExp (qv "x") (qr 3)) = ([], Ok r).
Proof. eexists. vm_compute. reflexivity. Qed.
