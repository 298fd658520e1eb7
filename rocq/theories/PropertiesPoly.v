(** Properties C58 and C59: what Simplify and Equals do with sums of integer
    terms, in exact arithmetic and in IEEE doubles. *)
From Coq Require Import String Bool Arith ZArith QArith Reals Lra Lia.
From Coquelicot Require Import Coquelicot.
From Coq Require Import List.
From Flocq Require Import Core BinarySingleNaN.
From Verif Require Import Base Num Expr Ghost Simplify Calculus Spec SpecPoly QNum PowProofs TreeProofs MonadProofs FuelProofs PolyProofs PolySem DoubleNum PropertiesSimplify.
Import ListNotations.
Open Scope string_scope.
Open Scope Z_scope.
Open Scope list_scope.

(** Rationals: every integer is exact. *)
Definition q_int (c : Q) (z : Z) : Prop := (c == inject_Z z)%Q.
Definition any (z : Z) : Prop := True.
Lemma q_ints : IntLits Q_ops q_int any.
Proof.
  unfold q_int, any. constructor; cbn [n_add n_sub n_mul n_of_Z n_eqb n_leb n_abs n_eps Q_ops]; try (intros; exact I).
  - intros z _. reflexivity.
  - intros a b x y Ha Hb _. rewrite Qred_correct, Ha, Hb. now rewrite inject_Z_plus.
  - intros a b x y Ha Hb _. rewrite Qred_correct, Ha, Hb. unfold Z.sub. now rewrite inject_Z_plus, inject_Z_opp.
  - intros a b x y Ha Hb _. rewrite Qred_correct, Ha, Hb. now rewrite inject_Z_mult.
  - intros a b x y Ha Hb. destruct (Z.eqb_spec x y) as [->|E].
    + apply Qeq_bool_iff. now rewrite Ha, Hb.
    + destruct (Qeq_bool a b) eqn:F; [|reflexivity]. apply Qeq_bool_iff in F. rewrite Ha, Hb in F. exfalso. apply E. now apply inject_Z_injective.
  - intros a x Ha. destruct (Z.eqb_spec x 0) as [->|E].
    + apply Qle_bool_iff. rewrite Ha. unfold Qle. simpl. lia.
    + destruct (Qle_bool (Qabs.Qabs a) (1 # 8388608)) eqn:F; [|reflexivity]. apply Qle_bool_iff in F. rewrite Ha in F.
      unfold Qle, Qabs.Qabs, inject_Z in F. cbn [Qnum Qden] in F. lia.
Qed.

(** ** C58: Like terms are combined

    [always n0 prefer e r]: with recursion depth [n0] or more, simplifying [e]
    gives [r], and no step of the run is flagged as suspicious. *)
Definition always {num} {N : NumOps num} (prefer : bool) (e r : expr num) : Prop :=
  exists n0, forall n, (n0 <= n)%nat -> simp n prefer e = ([], Ok r).

Lemma yields_always {num} {N : NumOps num} prefer (e r : expr num) : yields prefer e r -> always prefer e r.
Proof. intros (n & H). exists n. intros m L. eapply yields_ge; eauto. Qed.
Lemma always_fun {num} {N : NumOps num} prefer (e r r' : expr num) : always prefer e r -> always prefer e r' -> r = r'.
Proof. intros (n & H) (m & K). specialize (H (n + m)%nat ltac:(lia)). specialize (K (n + m)%nat ltac:(lia)). congruence. Qed.

(** A sum of the given terms; 0 if there are none. *)
Definition sum_of {num} {N : NumOps num} (l : list (expr num)) (r : expr num) : Prop :=
  match l with [] => r = EReal n0 | _ => exists d, tree_over OAdd d l r end.

Definition C58_statement : Prop :=
  forall (num : Type) (N : NumOps num) lit ok, IntLits N lit ok -> (forall z, ok z) ->
  forall (e : expr num) ts, polynomial lit e ts ->
  exists l r n, snd (simp n true e) = Ok r /\ sum_of l r /\ combined lit l ts.

(** x + (-1)*x stays 0*x. *)
Definition x_minus_x : expr Q := EAdd (qv "x") (EMul (qr (-1)) (qv "x")).
Lemma x_minus_x_run : simp 20 true x_minus_x = ([], Ok (EMul (qr 0) (qv "x"))).
Proof. vm_compute. reflexivity. Qed.
(* deterministic: any depth that answers gives the same answer *)
Lemma run_unique n m prefer (e r r' : expr Q) g : simp n prefer e = (g, Ok r) -> snd (simp m prefer e) = Ok r' -> r = r'.
Proof.
  intros H K. destruct (Nat.le_ge_cases n m) as [L|L].
  - destruct (simp_mono n m prefer e L) as [E|E]; [rewrite H in E; discriminate|]. rewrite <- E, H in K. cbn in K. congruence.
  - destruct (simp_mono m n prefer e L) as [E|E]; [rewrite E in K; discriminate|]. rewrite E, H in K. cbn in K. congruence.
Qed.
Theorem c58_refuted : ~ C58_statement.
Proof.
  intros S. destruct (S Q Q_ops q_int any q_ints (fun _ => I) x_minus_x [(Some ("x", 1), 1); (Some ("x", 1), -1 * 1)])
    as (l & r & n & Hr & Hs & tl & Fl & Dl & Tl).
  - apply (pn_add _ _ _ [(Some ("x", 1), 1)] (scale (-1) [(Some ("x", 1), 1)])).
    + apply pn_term. apply tm_power. constructor.
    + apply pn_scale; [reflexivity|]. apply pn_term. apply tm_power. constructor.
  - apply (run_unique 20 n _ _ _ _ _ x_minus_x_run) in Hr. subst r.
    destruct Fl as [|e t l tl He Fl].
    + discriminate Hs.
    + destruct Hs as (d & Hs). remember (e :: l) as el eqn:El. remember (EMul (qr 0) (qv "x")) as r eqn:Er.
      destruct Hs as [d e'|d l1 l2 a b H1 H2]; [|discriminate Er]. injection El as E1 E2. subst e e'. clear E2.
      inversion He as [|p x k Hp|c z p x k Hc Z0 Z1 Hp]; subst; [inversion Hp|].
      unfold q_int, inject_Z, Qeq in Hc. simpl in Hc. lia.
Qed.
Print Assumptions c58_refuted.

(** Not even the value is kept for all sums: in (x+y)+((x+y)+z) the second
    operand is taken for x+y, and z is lost. *)
Theorem c58_lost_term : forall n r,
  snd (simp n true (EAdd (EAdd (qv "x") (qv "y")) (EAdd (EAdd (qv "x") (qv "y")) (qv "z")))) = Ok r ->
  r = EAdd (EMul (qr 2) (qv "x")) (EMul (qr 2) (qv "y")).
Proof.
  intros n r H. symmetry. refine (run_unique 40 n true _ _ r [LooseEquals] _ H). vm_compute. reflexivity.
Qed.
Print Assumptions c58_lost_term.
Example c58_lost_term_case : exists n r,
  snd (simp n true (EAdd (EAdd (qv "x") (qv "y")) (EAdd (EAdd (qv "x") (qv "y")) (qv "z")))) = Ok r.
Proof. exists 40%nat. eexists. vm_compute. reflexivity. Qed.

(** Proved: sums, differences, negations and integer multiples of integer
    terms, when the operands can be told apart and two or more terms are left.
    The result is a balanced sum of the combined terms.  [ok] bounds the sum
    of the magnitudes of the coefficients: it is no restriction in exact
    arithmetic, and 2^53 for doubles.  Missing: operands that share terms
    (Equals confuses them), and results with no or one term. *)
Theorem c58_like_terms_partial : forall (num : Type) (N : NumOps num) lit ok, IntLits N lit ok ->
  forall prefer post (e : expr num) ts, poly lit ok prefer post e ts -> ok (weight ts) -> two_left ts ->
  exists l r, always prefer e r /\ tree_over OAdd (Nat.log2_up (length l)) l r /\ combined lit l ts.
Proof.
  intros num N lit ok IL prefer post e ts He Hw H2.
  destruct (poly_combined lit ok IL prefer post e ts He Hw H2) as (l & r & Y & B & C & _).
  exists l, r. split; [now apply yields_always|]. split; [now apply build_balanced|exact C].
Qed.
Print Assumptions c58_like_terms_partial.

(** Every such expression is in the class of the full statement. *)
Lemma poly_polynomial {num} (lit : num -> Z -> Prop) ok prefer post e ts : poly lit ok prefer post e ts -> polynomial lit e ts.
Proof. induction 1; eauto using pn_add, pn_sub, pn_neg, pn_scale. apply pn_term. destruct post; eauto using term_post. Qed.

(** The value is kept, also when fewer terms are left.  For doubles [toR] is
    the real number a double stands for, so nothing is rounded. *)
Theorem c58_value : forall (num : Type) (N : NumOps num) lit ok, IntLits N lit ok ->
  forall toR, (forall c z, lit c z -> toR c = IZR z) ->
  forall prefer post (e : expr num) ts, poly lit ok prefer post e ts -> ok (weight ts) ->
  exists r, always prefer e r /\ forall rho v, ev toR e rho v -> ev toR r rho v.
Proof.
  intros num N lit ok IL toR HR prefer post e ts He Hw.
  destruct (poly_plain lit ok IL prefer post e ts He Hw) as (r & tr & Y & P & T & K).
  exists r. split; [now apply yields_always|]. intros rho v Hv.
  destruct (ev_poly lit ok toR HR rho prefer post e ts He v Hv) as [Ko ->].
  rewrite <- (csum_totals rho tr ts T). apply (ev_plain lit toR HR rho post r tr P). auto.
Qed.
Print Assumptions c58_value.

(** Simplifying the result again changes nothing. *)
Theorem c58_idempotent : forall (num : Type) (N : NumOps num) lit ok, IntLits N lit ok ->
  forall prefer post (e : expr num) ts, poly lit ok prefer post e ts -> ok (weight ts) -> two_left ts ->
  exists r, always prefer e r /\ always prefer r r.
Proof.
  intros num N lit ok IL prefer post e ts He Hw H2.
  destruct (poly_combined lit ok IL prefer post e ts He Hw H2) as (l & r & Y & B & C & Y').
  exists r. split; now apply yields_always.
Qed.
Print Assumptions c58_idempotent.

(** All of it for doubles, whatever pow and log2 compute. *)
Theorem c58_doubles : forall pw lg pwx lgx, let N := double_ops pw lg pwx lgx in
  forall prefer post (e : expr double) ts, poly d_int d_ok prefer post e ts -> weight ts <= 2 ^ 53 ->
  (exists r, always prefer e r /\ (forall rho v, ev B2R e rho v -> ev B2R r rho v) /\
     (two_left ts -> always prefer r r /\
        exists l, tree_over OAdd (Nat.log2_up (length l)) l r /\ combined d_int l ts)).
Proof.
  intros pw lg pwx lgx N prefer post e ts He Hw.
  assert (Ho : d_ok (weight ts)) by (unfold d_ok; pose proof (weight_nonneg ts); lia).
  pose proof (double_ints pw lg pwx lgx) as IL. fold N in IL.
  destruct (c58_value double N d_int d_ok IL B2R (fun c z H => proj2 H) prefer post e ts He Ho) as (r & A & V).
  exists r. split; [exact A|]. split; [exact V|]. intros H2. split.
  - destruct (c58_idempotent double N d_int d_ok IL prefer post e ts He Ho H2) as (r' & A' & I').
    now rewrite (always_fun prefer e r r' A A').
  - destruct (c58_like_terms_partial double N d_int d_ok IL prefer post e ts He Ho H2) as (l & r' & A' & T & C).
    exists l. now rewrite (always_fun prefer e r r' A A').
Qed.
Print Assumptions c58_doubles.

(** 3*(x + 2*y^2) - (x + 5) + z*4, in doubles *)
Definition dr (z : Z) : expr double := EReal (d_of z 0).
Definition d_example : expr double :=
  EAdd (ESub (EMul (dr 3) (EAdd (EVar "x") (EMul (dr 2) (EExp (EVar "y") (dr 2))))) (EAdd (EVar "x") (dr 5)))
       (EMul (EVar "z") (dr 4)).
Definition d_terms : list monomial :=
  [(Some ("x", 1), 3); (Some ("y", 2), 6); (Some ("x", 1), -1); (None, -5); (Some ("z", 1), 4)].
Lemma d_lit z : (Z.abs z <=? 2 ^ 53) = true -> d_int (d_of z 0) z.
Proof. intros H. apply d_of_int. unfold d_ok. now apply Z.leb_le. Qed.
Example c58_case : poly d_int d_ok true true d_example d_terms /\ weight d_terms <= 2 ^ 53 /\ two_left d_terms.
Proof.
  split; [|split].
  - apply (po_add _ _ _ _ _ _ (scale 3 ([(Some ("x", 1), 1)] ++ [(Some ("y", 2), 2)]) ++ scale (-1) ([(Some ("x", 1), 1)] ++ [(None, 5)])) [(Some ("z", 1), 4)]);
      [apply po_pre; apply po_sub| |right; left; reflexivity].
    + apply po_scale; [now apply d_lit|discriminate|unfold d_ok; simpl; lia|now left|].
      apply po_add; [apply po_term, tm_power, pw_var| |left; reflexivity].
      eapply po_term, tm_scaled; [now apply d_lit| |apply ml_pre]. apply pw_exp; [now apply d_lit|discriminate|discriminate].
    + apply po_add; [apply po_term, tm_power, pw_var|apply po_term, tm_const; now apply d_lit|left; reflexivity].
    + right. right. exists ("y", 2). split; [discriminate|]. intros [H|[H|[]]]; discriminate.
    + now left.
    + eapply po_term, tm_scaled; [now apply d_lit|apply pw_var|now apply ml_post].
  - vm_compute. discriminate.
  - exists None, (Some ("x", 1)). split; [discriminate|]. split; discriminate.
Qed.

(** ** C59: Equals decides equality of simplified polynomials *)
Definition C59_statement : Prop :=
  forall (num : Type) (N : NumOps num) lit ok, IntLits N lit ok -> (forall z, ok z) ->
  forall (e e' r r' : expr num) ts ts' n, polynomial lit e ts -> polynomial lit e' ts' ->
  snd (simp n true e) = Ok r -> snd (simp n true e') = Ok r' ->
  (equals r r' = Some true <-> same_polynomial ts ts').

(** x+y Equals (x+y)+z, because only the terms of the first are looked up. *)
Theorem c59_refuted : ~ C59_statement.
Proof.
  intros S.
  specialize (S Q Q_ops q_int any q_ints (fun _ => I)
    (EAdd (qv "x") (qv "y")) (EAdd (EAdd (qv "x") (qv "y")) (qv "z")) (EAdd (qv "x") (qv "y")) (EAdd (EAdd (qv "x") (qv "y")) (qv "z"))
    ([(Some ("x", 1), 1)] ++ [(Some ("y", 1), 1)]) (([(Some ("x", 1), 1)] ++ [(Some ("y", 1), 1)]) ++ [(Some ("z", 1), 1)]) 20%nat).
  assert (K : total (Some ("z", 1)) [(Some ("x", 1), 1); (Some ("y", 1), 1)] =
              total (Some ("z", 1)) [(Some ("x", 1), 1); (Some ("y", 1), 1); (Some ("z", 1), 1)]); [|discriminate K].
  apply S; try (vm_compute; reflexivity).
  - apply pn_add; apply pn_term, tm_power, pw_var.
  - apply pn_add; [apply pn_add|]; apply pn_term, tm_power, pw_var.
Qed.
Print Assumptions c59_refuted.

(** Proved on the class above: the same polynomials give Equal results, and
    results that are Equal both ways come from the same polynomial.  Missing:
    that Equals one way is enough, which is false, and the rest of the class. *)
Theorem c59_decides_partial : forall (num : Type) (N : NumOps num) lit ok, IntLits N lit ok ->
  forall prefer post post' (e e' : expr num) ts ts', poly lit ok prefer post e ts -> poly lit ok prefer post' e' ts' ->
  ok (weight ts) -> ok (weight ts') -> two_left ts -> two_left ts' ->
  exists r r', always prefer e r /\ always prefer e' r' /\
    (same_polynomial ts ts' -> equals r r' = Some true) /\
    (equals r r' = Some true /\ equals r' r = Some true <-> same_polynomial ts ts') /\
    (equals r r' = Some true -> forall k, total k ts <> 0 -> total k ts' = total k ts) /\
    equals r r' <> None.
Proof.
  intros num N lit ok IL prefer post post' e e' ts ts' He He' Hw Hw' H2 H2'.
  destruct (poly_combined lit ok IL prefer post e ts He Hw H2) as (l & r & Y & B & C & _).
  destruct (poly_combined lit ok IL prefer post' e' ts' He' Hw' H2') as (l' & r' & Y' & B' & C' & _).
  exists r, r'. split; [now apply yields_always|]. split; [now apply yields_always|].
  pose proof (combined_equal lit ok IL false l r l' r' ts ts' B B' C C') as E.
  pose proof (combined_equal lit ok IL false l' r' l r ts' ts B' B C' C) as E'.
  destruct (combined_equals lit ok IL false l r l' r' ts ts' B B' C C') as (q & Q1 & Q2).
  destruct (combined_equals lit ok IL false l' r' l r ts' ts B' B C' C) as (q' & Q1' & Q2').
  split; [exact E|]. split; [split|split].
  - intros [K K']. rewrite Q1 in K. rewrite Q1' in K'. injection K as ->. injection K' as ->. intros k.
    destruct (Z.eq_dec (total k ts) 0) as [Z0|Z0]; [|now rewrite (Q2 eq_refl k Z0)].
    destruct (Z.eq_dec (total k ts') 0) as [Z1|Z1]; [congruence|]. rewrite (Q2' eq_refl k Z1) in Z0. contradiction.
  - intros K. split; [now apply E|apply E'; intros k; symmetry; apply K].
  - intros K. rewrite Q1 in K. injection K as ->. now apply Q2.
  - congruence.
Qed.
Print Assumptions c59_decides_partial.

(** x + (y + 3) and (x + y*2) + (3 - y): the same polynomial. *)
Definition q_left : expr Q := EAdd (qv "x") (EAdd (qv "y") (qr 3)).
Definition q_right : expr Q := EAdd (EAdd (qv "x") (EMul (qv "y") (qr 2))) (ESub (qr 3) (qv "y")).
Example c59_case : exists ts ts', poly q_int any false true q_left ts /\ poly q_int any false true q_right ts' /\
  two_left ts /\ two_left ts' /\ same_polynomial ts ts'.
Proof.
  exists ([(Some ("x", 1), 1)] ++ [(Some ("y", 1), 1)] ++ [(None, 3)]),
    (([(Some ("x", 1), 1)] ++ [(Some ("y", 1), 2)]) ++ [(None, 3)] ++ scale (-1) [(Some ("y", 1), 1)]).
  repeat split.
  - apply po_add; [apply po_term, tm_power, pw_var| |left; reflexivity].
    apply po_add; [apply po_term, tm_power, pw_var|apply po_term, tm_const; reflexivity|left; reflexivity].
  - apply po_add; [apply po_add; [apply po_term, tm_power, pw_var|eapply po_term, tm_scaled; [reflexivity|apply pw_var|apply ml_post; [reflexivity|discriminate]]|left; reflexivity]
      |apply po_pre, po_sub; [apply po_term, tm_const; reflexivity|apply po_term, tm_power, pw_var|left; reflexivity|now left]|].
    right. right. exists ("x", 1). split; [discriminate|]. intros [H|[H|[]]]; discriminate.
  - exists None, (Some ("x", 1)). split; [discriminate|]. split; discriminate.
  - exists None, (Some ("x", 1)). split; [discriminate|]. split; discriminate.
  - intros k. unfold total. cbn -[key_eqb Z.add]. destruct (key_eqb k None), (key_eqb k (Some ("x", 1))), (key_eqb k (Some ("y", 1))); lia.
Qed.
