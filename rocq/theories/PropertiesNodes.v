(** Property C100: Simplify evaluates derivatives, integrals and negations. *)
From Coq Require Import String Bool Arith ZArith QArith Lia List.
From Verif Require Import Base Num Expr Ghost Simplify Calculus QNum FuelProofs MonadProofs ZerosProofs PropertiesSimplify PropertiesMatrix PropertiesIdentities PropertiesSubst PropertiesPolyInt PropertiesUnevaluated.
Import ListNotations.
Open Scope string_scope.
Open Scope nat_scope.

Section Nodes.
  Context {num : Type} {N : NumOps num}.
  Notation E := (expr num).

  (** What Differentiate and Integrate answer. *)
  Definition differentiates_to (e v d : E) : Prop := exists m, forall n, m <= n -> snd (differentiate n e v) = Ok d.
  Definition integrates_to (e v r : E) : Prop := exists m, forall n, m <= n -> snd (integ n e v) = Ok (Some r).

  (** Derivative(a, v): the simplified operand is differentiated, the result simplified (twice). *)
  Theorem c100_derivative a v A V d s r : simplifies_to a A -> simplifies_to v V -> differentiates_to A V d ->
    simplifies_to d s -> simplifies_to s r -> simplifies_to (EDeriv a v) r.
  Proof.
    intros [k1 H1] [k2 H2] [k3 H3] [k4 H4] [k5 H5]. exists (S (k1 + k2 + k3 + k4 + k5)). intros n prefer Hn. destruct n as [|n]; [lia|].
    change (snd (visit_deriv (simp n prefer) (differentiate n) a v) = Ok r). unfold visit_deriv.
    rewrite (snd_operands _ _ _ A V) by (first [apply H1|apply H2]; lia).
    rewrite (snd_bind _ _ tt) by apply oks_emit.
    rewrite (snd_bind _ _ d) by (apply H3; lia). rewrite (snd_bind _ _ s) by (apply H4; lia).
    apply snd_value. apply H5; lia.
  Qed.

  (** Integral(a, v): the simplified operand is integrated; nothing is simplified afterwards. *)
  Theorem c100_integral a v A V r : simplifies_to a A -> simplifies_to v V -> integrates_to A V r -> simplifies_to (EInt a v) r.
  Proof.
    intros [k1 H1] [k2 H2] [k3 H3]. exists (S (k1 + k2 + k3)). intros n prefer Hn. destruct n as [|n]; [lia|].
    change (snd (visit_int (simp n prefer) (integ n) a v) = Ok r). unfold visit_int.
    rewrite (snd_operands _ _ _ A V) by (first [apply H1|apply H2]; lia).
    rewrite (snd_bind _ _ (Some r)) by (apply H3; lia). reflexivity.
  Qed.

  (** -a: the product of -1 and the simplified operand, simplified. *)
  Theorem c100_negation a A r : simplifies_to a A -> simplifies_to (EMul (EReal (n_of_Z (-1))) A) r -> simplifies_to (ENeg a) r.
  Proof.
    intros [k1 H1] [k2 H2]. exists (S (k1 + k2)). intros n prefer Hn. destruct n as [|n]; [lia|].
    change (snd (visit_neg (simp n prefer) a) = Ok r). unfold visit_neg.
    rewrite (snd_bind _ _ A) by (apply H1; lia). apply snd_value. apply H2; lia.
  Qed.

  Lemma operands_ok (S : E -> M E) a b k r : snd (operands S a b k) = Ok r ->
    exists A B, snd (S a) = Ok A /\ snd (S b) = Ok B /\ snd (k A B) = Ok r.
  Proof.
    unfold operands. destruct (S a) as [t1 [A|?|?| |?|]]; cbn; try discriminate;
      destruct (S b) as [t2 [B|?|?| |?|]]; cbn; try discriminate.
    destruct (k A B) as [t3 o] eqn:K. cbn. intros ->. exists A, B. rewrite K. auto.
  Qed.
  Lemma bind_inv {A B} (m : M A) (k : A -> M B) r : snd (bind m k) = Ok r -> exists a, snd m = Ok a /\ snd (k a) = Ok r.
  Proof. intros H. apply (proj1 (oks_bind _ _ _)) in H. exact H. Qed.

  (** Nothing else is ever answered for these nodes. *)
  Theorem c100_derivative_only n prefer a v r : snd (simp (S n) prefer (EDeriv a v)) = Ok r ->
    exists A V d s, snd (simp n prefer a) = Ok A /\ snd (simp n prefer v) = Ok V /\ snd (differentiate n A V) = Ok d /\
      snd (simp n prefer d) = Ok s /\ snd (simp n prefer s) = Ok r.
  Proof.
    change (snd (visit_deriv (simp n prefer) (differentiate n) a v) = Ok r -> exists A V d s, snd (simp n prefer a) = Ok A /\ snd (simp n prefer v) = Ok V /\ snd (differentiate n A V) = Ok d /\
      snd (simp n prefer d) = Ok s /\ snd (simp n prefer s) = Ok r).
    intros H. apply operands_ok in H. destruct H as (A & V & HA & HV & H).
    apply bind_inv in H. destruct H as (u & _ & H). apply bind_inv in H. destruct H as (d & Hd & H).
    apply bind_inv in H. destruct H as (s & Hs & H). apply (proj1 (oks_value _ _)) in H. exists A, V, d, s. auto.
  Qed.
  Theorem c100_integral_only n prefer a v r : snd (simp (S n) prefer (EInt a v)) = Ok r ->
    exists A V, snd (simp n prefer a) = Ok A /\ snd (simp n prefer v) = Ok V /\ snd (integ n A V) = Ok (Some r).
  Proof.
    change (snd (visit_int (simp n prefer) (integ n) a v) = Ok r -> exists A V, snd (simp n prefer a) = Ok A /\ snd (simp n prefer v) = Ok V /\ snd (integ n A V) = Ok (Some r)).
    intros H. apply operands_ok in H. destruct H as (A & V & HA & HV & H).
    apply bind_inv in H. destruct H as ([i|] & Hi & H); [|discriminate]. injection H as ->. exists A, V. auto.
  Qed.
  Theorem c100_negation_only n prefer a r : snd (simp (S n) prefer (ENeg a)) = Ok r ->
    exists A, snd (simp n prefer a) = Ok A /\ snd (simp n prefer (EMul (EReal (n_of_Z (-1))) A)) = Ok r.
  Proof.
    change (snd (visit_neg (simp n prefer) a) = Ok r -> exists A, snd (simp n prefer a) = Ok A /\ snd (simp n prefer (EMul (EReal (n_of_Z (-1))) A)) = Ok r).
    intros H. apply bind_inv in H. destruct H as (A & HA & H). apply (proj1 (oks_value _ _)) in H. exists A. auto.
  Qed.
End Nodes.
Print Assumptions c100_derivative.
Print Assumptions c100_integral.
Print Assumptions c100_negation.
Print Assumptions c100_derivative_only.
Print Assumptions c100_integral_only.
Print Assumptions c100_negation_only.

(** One run that answers is enough. *)
Lemma one_simp {num} {N : NumOps num} n (e r : expr num) :
  snd (simp n false e) = Ok r -> snd (simp n true e) = Ok r -> simplifies_to e r.
Proof.
  intros H1 H2. exists n. intros m prefer L. destruct (simp_mono n m prefer e L) as [K|K].
  - destruct prefer; congruence.
  - rewrite <- K. now destruct prefer.
Qed.
Lemma one_diff {num} {N : NumOps num} n (e v r : expr num) : snd (differentiate n e v) = Ok r -> differentiates_to e v r.
Proof. intros H. exists n. intros m L. destruct (differentiate_mono n m e v L) as [K|K]; congruence. Qed.
Lemma one_int {num} {N : NumOps num} n (e v r : expr num) : snd (integ n e v) = Ok (Some r) -> integrates_to e v r.
Proof. intros H. exists n. intros m L. destruct (integ_mono n m e v L) as [K|K]; congruence. Qed.

(** The derivative of x*x, the integral of y + y over x, and -(x+x). *)
Example c100_derivative_case :
  simplifies_to (EMul (qv "x") (qv "x")) (EExp (qv "x") (qr 2)) /\ simplifies_to (qv "x") (qv "x") /\
  differentiates_to (EExp (qv "x") (qr 2)) (qv "x") (EMul (qv "x") (qr 2)) /\
  simplifies_to (EMul (qv "x") (qr 2)) (EMul (qv "x") (qr 2)) /\
  simplifies_to (EDeriv (EMul (qv "x") (qv "x")) (qv "x")) (EMul (qv "x") (qr 2)).
Proof.
  split; [apply (one_simp 30); vm_compute; reflexivity|]. split; [apply (one_simp 30); vm_compute; reflexivity|].
  split; [apply (one_diff 30); vm_compute; reflexivity|]. split; [apply (one_simp 30); vm_compute; reflexivity|].
  apply (one_simp 30); vm_compute; reflexivity.
Qed.
Example c100_integral_case :
  simplifies_to (EAdd (qv "y") (qv "y")) (EMul (qr 2) (qv "y")) /\
  integrates_to (EMul (qr 2) (qv "y")) (qv "x") (EAdd (EMul (EMul (qr 2) (qv "y")) (qv "x")) (qv "C")) /\
  simplifies_to (EInt (EAdd (qv "y") (qv "y")) (qv "x")) (EAdd (EMul (EMul (qr 2) (qv "y")) (qv "x")) (qv "C")).
Proof.
  split; [apply (one_simp 30); vm_compute; reflexivity|]. split; [apply (one_int 30); vm_compute; reflexivity|].
  apply (one_simp 30); vm_compute; reflexivity.
Qed.
Example c100_negation_case :
  simplifies_to (EAdd (qv "x") (qv "x")) (EMul (qr 2) (qv "x")) /\
  simplifies_to (EMul (EReal (n_of_Z (-1))) (EMul (qr 2) (qv "x"))) (EMul (EReal (-2)%Q) (qv "x")) /\
  simplifies_to (ENeg (EAdd (qv "x") (qv "x"))) (EMul (EReal (-2)%Q) (qv "x")).
Proof. repeat split; apply (one_simp 30); vm_compute; reflexivity. Qed.
