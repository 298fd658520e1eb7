(** Property C67: the derivative of an integer polynomial. *)
From Coq Require Import String Bool Arith ZArith QArith Reals Lra Lia.
From Coquelicot Require Import Coquelicot.
From Coq Require Import List.
From Flocq Require Import Core BinarySingleNaN.
From Verif Require Import Base Num Expr Ghost Simplify Calculus Spec SpecPoly QNum PowProofs TreeProofs MonadProofs FuelProofs PolyProofs PolySem PolyDiff PolyDiffSem DoubleNum PropertiesSimplify PropertiesCalculus PropertiesPoly.
Import ListNotations.
Open Scope string_scope.
Open Scope Z_scope.
Open Scope list_scope.

(** With recursion depth [n0] or more, simplifying [e] gives [r]. *)
Definition gives {num} {N : NumOps num} (prefer : bool) (e r : expr num) : Prop :=
  exists n0, forall n, (n0 <= n)%nat -> snd (simp n prefer e) = Ok r.
(** pow(c, 2) is the square of the integer [c]. *)
Definition squares {num} (N : NumOps num) (lit : num -> Z -> Prop) (ok : Z -> Prop) : Prop :=
  forall a z, lit a z -> ok (z * z) -> lit (n_pow a (n_of_Z 2)) (z * z) /\ n_pow_exact a (n_of_Z 2) = true.
(** [l] are terms, each power occurs once, and their coefficients are those of [ts]. *)
Definition collected {num} (lit : num -> Z -> Prop) (l : list (expr num)) (ts : list monomial) : Prop :=
  exists tl, Forall2 (term lit true) l tl /\ NoDup (keys tl) /\ forall k, total k tl = total k ts.

Definition C67_statement : Prop :=
  forall (num : Type) (N : NumOps num) lit ok, IntLits N lit ok -> squares N lit ok -> (forall z, ok z) ->
  forall (e : expr num) ts x, polynomial lit e ts ->
  exists l r n, snd (simp n true (EDeriv e (EVar x))) = Ok r /\ sum_of l r /\ collected lit l (deriv x ts).

Lemma q_squares : squares Q_ops q_int any.
Proof.
  intros a z H _. unfold q_int in *. cbn [n_pow n_pow_exact n_of_Z Q_ops].
  change (q_is_int (inject_Z 2)) with true. split; [|reflexivity].
  change (q_to_Z (inject_Z 2)) with 2. rewrite Qred_correct, inject_Z_mult, <- H. reflexivity.
Qed.

(** In (x+y)+((x+y)+z) the last term is lost, so d/dz gives 0 instead of 1. *)
Definition lossy : expr Q := EAdd (EAdd (qv "x") (qv "y")) (EAdd (EAdd (qv "x") (qv "y")) (qv "z")).
Theorem c67_refuted : ~ C67_statement.
Proof.
  intros S. pose (v := fun x : string => (Some (x, 1), 1) : monomial).
  destruct (S Q Q_ops q_int any q_ints q_squares (fun _ => I) lossy
    (([v "x"] ++ [v "y"]) ++ (([v "x"] ++ [v "y"]) ++ [v "z"])) "z") as (l & r & n & Hr & Hs & tl & Fl & Dl & Tl).
  - assert (V : forall y, polynomial q_int (qv y) [v y]) by (intros y; apply pn_term, tm_power, pw_var).
    repeat apply pn_add; apply V.
  - assert (R : r = qr 0).
    { symmetry. refine (run_unique 40 n true _ _ r [LooseEquals] _ Hr). vm_compute. reflexivity. }
    subst r. assert (T1 : total None tl = 1) by (rewrite Tl; reflexivity).
    destruct Fl as [|e t l tl He Fl]; [discriminate T1|].
    destruct Hs as (d & Hs). remember (e :: l) as el eqn:El. remember (qr 0) as r eqn:Er.
    destruct Hs as [d e'|d l1 l2 a b H1 H2]; [|discriminate Er]. injection El as <- <-. subst e'.
    inversion Fl; subst. inversion He as [c z Hc|p x k Hp|c z p x k m Hc Hp Hm]; subst; [|inversion Hp|inversion Hm].
    cbn in T1. unfold q_int, inject_Z, Qeq in Hc. simpl in Hc. lia.
Qed.
Print Assumptions c67_refuted.

(** Proved: for the class of C58 (sums that Simplify can take apart) in which
    two or more terms are left, or that are a single term, Simplify on
    Derivative{e, x} gives a balanced sum of the combined terms of the
    derivative, if that has two or more terms again. *)
Theorem c67_derivative_partial : forall (num : Type) (N : NumOps num) lit ok, IntLits N lit ok -> squares N lit ok ->
  forall prefer post (e : expr num) ts x, poly lit ok prefer post e ts -> two_left ts ->
  lowerable ok ts -> ok (weight ts) -> ok (weight (deriv x ts)) -> two_left (deriv x ts) ->
  exists l r, gives prefer (EDeriv e (EVar x)) r /\ tree_over OAdd (Nat.log2_up (length l)) l r /\ combined lit l (deriv x ts).
Proof.
  intros num N lit ok IL SQ prefer post e ts x He H2 Hk Hw Hwd H2'.
  destruct (deriv_res lit ok IL SQ prefer post e ts x He (or_introl H2) Hk Hw Hwd) as (r & G & (tr & (_ & St) & Rt)).
  destruct St as (l & B & F & D); [now apply (refines_two_left _ _ Rt)|].
  exists l, r. split; [exact G|]. split; [now apply build_balanced|]. exists tr. split; [exact F|]. split; [exact D|apply Rt].
Qed.
Print Assumptions c67_derivative_partial.

(** Whatever is left, the result has the value of the derivative of the
    function that [e] denotes. *)
Theorem c67_value : forall (num : Type) (N : NumOps num) lit ok, IntLits N lit ok -> squares N lit ok ->
  forall toR, (forall c z, lit c z -> toR c = IZR z) ->
  forall prefer post (e : expr num) ts x, poly lit ok prefer post e ts ->
  two_left ts \/ term lit false e (hd (None, 0) ts) /\ length ts = 1%nat ->
  lowerable ok ts -> ok (weight ts) -> ok (weight (deriv x ts)) ->
  exists r, gives prefer (EDeriv e (EVar x)) r /\
    forall rho f, denotes toR e x rho f -> exists l, is_derive f (rho x) l /\ ev toR r rho (RtoC l).
Proof.
  intros num N lit ok IL SQ toR HR prefer post e ts x He H2 Hk Hw Hwd.
  destruct (deriv_res lit ok IL SQ prefer post e ts x He H2 Hk Hw Hwd) as (r & G & (tr & (P & _) & (Tr & Kr & _))).
  exists r. split; [exact G|]. intros rho f Hf. unfold denotes in Hf.
  assert (E0 : upd rho x (rho x) = rho \/ forall y, upd rho x (rho x) y = rho y).
  { right. intros y. unfold upd. now destruct (String.eqb_spec y x) as [->|]. }
  assert (K0 : forall p, In (Some p) (keys ts) -> kok rho p).
  { pose proof (locally_singleton _ _ Hf) as H0. destruct (ev_poly lit ok toR HR _ prefer post e ts He _ H0) as [K _].
    intros p Hp. destruct (K p Hp) as [K1 K2]. split; [exact K1|]. destruct p as [y j]. cbn [fst snd] in *.
    destruct E0 as [E0|E0]; rewrite E0 in K2; exact K2. }
  exists (rsum rho (deriv x ts)). split.
  - apply (is_derive_ext_loc (fun t => rsum (upd rho x t) ts)); [|now apply derive_rsum].
    generalize Hf. apply filter_imp. intros t Ht. destruct (ev_poly lit ok toR HR _ prefer post e ts He _ Ht) as [K E].
    rewrite csum_rsum in E by exact K. apply RtoC_inj in E. now symmetry.
  - pose proof (deriv_kok rho x ts K0) as K1. rewrite <- (csum_rsum rho (deriv x ts) K1), <- (csum_totals rho tr (deriv x ts) Tr).
    apply (ev_plain lit toR HR rho true r tr P). auto.
Qed.
Print Assumptions c67_value.

(** The same for doubles, if pow squares integers exactly (the third argument
    of [double_ops] is a ghost: it only says which results of pow are flagged). *)
Theorem c67_doubles : forall pw lg lgx, let N := double_ops pw lg (fun _ _ => true) lgx in
  (forall a z, d_int a z -> Z.abs (z * z) <= 2 ^ 53 -> d_int (pw a (d_of 2 0)) (z * z)) ->
  forall prefer post (e : expr double) ts x, poly d_int d_ok prefer post e ts -> two_left ts ->
  (forall y k, In (Some (y, k)) (keys ts) -> Z.abs (k - 1) <= 2 ^ 53) -> weight ts <= 2 ^ 53 -> weight (deriv x ts) <= 2 ^ 53 ->
  exists r, gives prefer (EDeriv e (EVar x)) r /\
    (forall rho f, denotes B2R e x rho f -> exists l, is_derive f (rho x) l /\ ev B2R r rho (RtoC l)) /\
    (two_left (deriv x ts) -> exists l, tree_over OAdd (Nat.log2_up (length l)) l r /\ combined d_int l (deriv x ts)).
Proof.
  intros pw lg lgx N Hpw prefer post e ts x He H2 Hk Hw Hwd.
  assert (Ho : d_ok (weight ts)) by (unfold d_ok; pose proof (weight_nonneg ts); lia).
  assert (Hod : d_ok (weight (deriv x ts))) by (unfold d_ok; pose proof (weight_nonneg (deriv x ts)); lia).
  pose proof (double_ints pw lg (fun _ _ => true) lgx) as IL. fold N in IL.
  assert (SQ : squares N d_int d_ok) by (intros a z Ha Hz; split; [now apply Hpw|reflexivity]).
  destruct (c67_value double N d_int d_ok IL SQ B2R (fun c z H => proj2 H) prefer post e ts x He (or_introl H2) Hk Ho Hod) as (r & (n & G) & V).
  exists r. split; [now exists n|]. split; [exact V|]. intros H2'.
  destruct (c67_derivative_partial double N d_int d_ok IL SQ prefer post e ts x He H2 Hk Ho Hod H2') as (l & r' & (m & G') & T & C).
  exists l. specialize (G (n + m)%nat ltac:(lia)). specialize (G' (n + m)%nat ltac:(lia)). rewrite G in G'. injection G' as <-. auto.
Qed.
Print Assumptions c67_doubles.

(** d/dy of 3*(x + 2*y^2) - (x + 5) + (y^3 - 7*y), in doubles: 12*y + 3*y^2 - 7 *)
Definition d_curve : expr double :=
  EAdd (ESub (EMul (dr 3) (EAdd (EVar "x") (EMul (dr 2) (EExp (EVar "y") (dr 2))))) (EAdd (EVar "x") (dr 5)))
       (ESub (EExp (EVar "y") (dr 3)) (EMul (dr 7) (EVar "y"))).
Definition d_curve_terms : list monomial :=
  [(Some ("x", 1), 3); (Some ("y", 2), 6); (Some ("x", 1), -1); (None, -5); (Some ("y", 3), 1); (Some ("y", 1), -7)].
Example c67_case : poly d_int d_ok true false d_curve d_curve_terms /\ two_left d_curve_terms /\ two_left (deriv "y" d_curve_terms) /\
  (forall y k, In (Some (y, k)) (keys d_curve_terms) -> Z.abs (k - 1) <= 2 ^ 53) /\
  weight d_curve_terms <= 2 ^ 53 /\ weight (deriv "y" d_curve_terms) <= 2 ^ 53.
Proof.
  split; [|split; [|split; [|split; [|split]]]].
  - apply (po_add _ _ _ _ _ _ (scale 3 ([(Some ("x", 1), 1)] ++ [(Some ("y", 2), 2)]) ++ scale (-1) ([(Some ("x", 1), 1)] ++ [(None, 5)]))
      ([(Some ("y", 3), 1)] ++ scale (-1) [(Some ("y", 1), 7)])).
    + apply po_sub; [| | |now left].
      * apply po_scale; [now apply d_lit|discriminate|unfold d_ok; simpl; lia|now left|].
        apply po_add; [apply po_term, tm_power, pw_var| |left; reflexivity].
        eapply po_term, tm_scaled; [now apply d_lit| |apply ml_pre]. apply pw_exp; [now apply d_lit|discriminate|discriminate].
      * apply po_add; [apply po_term, tm_power, pw_var|apply po_term, tm_const; now apply d_lit|left; reflexivity].
      * right. right. exists ("y", 2). split; [discriminate|]. intros [H|[H|[]]]; discriminate.
    + apply po_sub; [| |left; reflexivity|now left].
      * apply po_term, tm_power, pw_exp; [now apply d_lit|discriminate|discriminate].
      * eapply po_term, tm_scaled; [now apply d_lit|apply pw_var|apply ml_pre].
    + right. right. exists ("x", 1). split; [discriminate|]. intros [H|[H|[]]]; discriminate.
  - exists None, (Some ("x", 1)). split; [discriminate|]. split; discriminate.
  - exists None, (Some ("y", 1)). split; [discriminate|]. split; discriminate.
  - intros y k H. cbn in H. repeat (destruct H as [H|H]; [inversion H; subst; cbn; lia|]). destruct H.
  - vm_compute. discriminate.
  - vm_compute. discriminate.
Qed.
Example c67_case_squares : squares Q_ops q_int any.
Proof. exact q_squares. Qed.
