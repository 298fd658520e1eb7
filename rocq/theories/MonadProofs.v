(** Reasoning about runs of the monad that end normally and without events. *)
From Coq Require Import String Bool List.
From Verif Require Import Base Num Expr Ghost Simplify.
Import ListNotations.
Open Scope m_scope.

Definition runs {A} (m : M A) (a : A) : Prop := m = ([], Ok a).

Lemma runs_ret {A} (a b : A) : runs (ret a) b <-> a = b.
Proof. unfold runs, ret. split; congruence. Qed.

Lemma runs_bind {A B} (m : M A) (k : A -> M B) b :
  runs (bind m k) b <-> exists a, runs m a /\ runs (k a) b.
Proof.
  unfold runs, bind. destruct m as [t [a|s|x| |u|]]; split;
    try (intros H; discriminate H); try (intros (a' & H & _); discriminate H).
  - intros H. injection H as H1 H2. apply app_eq_nil in H1. destruct H1 as [-> H1].
    exists a. split; auto. destruct (k a) as [t' o]. simpl in *. congruence.
  - intros (a' & H & Hk). injection H as -> <-. now rewrite Hk.
Qed.

Lemma runs_try {A} (m : M A) x :
  runs (m_try m) x <-> (exists a, runs m a /\ x = inl a) \/ (exists s, m = ([], Err s) /\ x = inr s).
Proof.
  unfold runs, m_try. destruct m as [t [a|s|y| |u|]]; split;
    try (intros H; discriminate H);
    try (intros [(a' & H & _)|(s' & H & _)]; discriminate H).
  - intros H. injection H as -> <-. left. eauto.
  - intros [(a' & H & ->)|(s' & H & _)]; [|discriminate]. now injection H as -> ->.
  - intros H. injection H as -> <-. right. eauto.
  - intros [(a' & H & _)|(s' & H & ->)]; [discriminate|]. now injection H as -> ->.
Qed.

Lemma runs_value {A} (m : M A) a : runs (m_value m) a <-> runs m a.
Proof. unfold runs, m_value. destruct m as [t [b|s|y| |u|]]; split; intros H; try discriminate; exact H. Qed.

Lemma runs_fail {A} s (a : A) : ~ runs (fail s) a.
Proof. discriminate. Qed.
Lemma runs_throw {A} s (a : A) : ~ runs (throw s) a.
Proof. discriminate. Qed.
Lemma runs_abort {A} (a : A) : ~ runs abort a.
Proof. discriminate. Qed.
Lemma runs_undef {A} u (a : A) : ~ runs (undef u) a.
Proof. discriminate. Qed.
Lemma runs_oof {A} (a : A) : ~ runs oof a.
Proof. discriminate. Qed.

Lemma runs_tell d u : runs (tell d) u <-> d = [].
Proof. destruct u. unfold runs, tell. split; congruence. Qed.

Lemma runs_emit b d u : runs (emit b d) u <-> b = false.
Proof. unfold emit. rewrite runs_tell. destruct b; split; congruence. Qed.

(** Decompose hypotheses about runs. *)
Ltac minv1 :=
  match goal with
  | H : runs (ret _) _ |- _ => apply (proj1 (runs_ret _ _)) in H
  | H : runs (bind _ _) _ |- _ =>
    let a := fresh "y" in let H1 := fresh "Hr" in
    apply (proj1 (runs_bind _ _ _)) in H; destruct H as (a & H1 & H)
  | H : runs (m_value _) _ |- _ => apply (proj1 (runs_value _ _)) in H
  | H : runs (fail _) _ |- _ => destruct (runs_fail _ _ H)
  | H : runs (throw _) _ |- _ => destruct (runs_throw _ _ H)
  | H : runs abort _ |- _ => destruct (runs_abort _ H)
  | H : runs (undef _) _ |- _ => destruct (runs_undef _ _ H)
  | H : runs oof _ |- _ => destruct (runs_oof _ H)
  | H : runs (emit _ _) _ |- _ => apply (proj1 (runs_emit _ _ _)) in H
  | H : runs (tell _) _ |- _ => apply (proj1 (runs_tell _ _)) in H
  | H : runs no _ |- _ => unfold no in H
  | H : runs (yes _) _ |- _ => unfold yes in H
  | H : runs (yesM _) _ |- _ => unfold yesM in H
  | H : Some _ = Some _ |- _ => injection H as H
  | H : None = Some _ |- _ => discriminate H
  | H : Some _ = None |- _ => discriminate H
  | H : true = false |- _ => discriminate H
  | H : false = true |- _ => discriminate H
  | H : negb _ = false |- _ => apply negb_false_iff in H
  end.
Ltac minv := repeat (minv1; cbv beta in *); subst.
