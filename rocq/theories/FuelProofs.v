(** More fuel does not change a result. *)
From Coq Require Import String Bool Arith ZArith List Lia.
From Verif Require Import Base Num Expr Ghost Simplify Calculus.
Import ListNotations.

(** [m'] is [m], or [m] ran out of fuel. *)
Definition le {A} (m m' : M A) : Prop := snd m = OutOfFuel \/ m = m'.

Lemma le_refl {A} (m : M A) : le m m.
Proof. now right. Qed.
Lemma le_trans {A} (a b c : M A) : le a b -> le b c -> le a c.
Proof. intros [H| ->]; [now left|auto]. Qed.
Lemma le_bind {A B} (m m' : M A) (k k' : A -> M B) :
  le m m' -> (forall a, le (k a) (k' a)) -> le (bind m k) (bind m' k').
Proof.
  intros [H| <-] Hk.
  - left. destruct m as [t o]. simpl in *. now subst o.
  - destruct m as [t [a|s|x| |u|]]; simpl; try now right.
    destruct (Hk a) as [E| <-]; [left; exact E|now right].
Qed.
Lemma le_try {A} (m m' : M A) : le m m' -> le (m_try m) (m_try m').
Proof. intros [H| <-]; [left; destruct m as [t o]; simpl in *; now subst o|now right]. Qed.
Lemma le_value {A} (m m' : M A) : le m m' -> le (m_value m) (m_value m').
Proof. intros [H| <-]; [left; destruct m as [t o]; simpl in *; now subst o|now right]. Qed.

(* one step of a monotonicity proof: both sides have the same shape *)
Ltac le_step :=
  match goal with
  | |- le ?m ?m => apply le_refl
  | H : _ |- le _ _ => solve [apply H]
  | |- le (bind _ _) (bind _ _) => apply le_bind; [|intros ?]
  | |- le (m_try _) (m_try _) => apply le_try
  | |- le (m_value _) (m_value _) => apply le_value
  | |- le (let (_, _) := ?x in _) _ => destruct x
  | |- le (match ?x with _ => _ end) _ => destruct x
  end.
Ltac mono := repeat le_step.
Ltac head t := match t with ?f _ => head f | _ => t end.
Ltac unfold_rule :=
  match goal with
  | |- le (bind _ _) _ => idtac
  | |- le (match _ with _ => _ end) _ => idtac
  | |- le ?t _ => let h := head t in first [unfold h | idtac]
  end.

Section Steps.
  Context {num : Type} {N : NumOps num}.
  Notation expr := (expr num).
  Variables (S S' : expr -> M expr) (D D' : expr -> expr -> M expr) (I I' : expr -> expr -> M (option expr)).
  Hypothesis HS : forall e, le (S e) (S' e).
  Hypothesis HD : forall e v, le (D e v) (D' e v).
  Hypothesis HI : forall e v, le (I e v) (I' e v).

  Lemma le_first_rule (rs rs' : list (expr -> expr -> rule)) k k' a b :
    Forall2 (fun r r' => forall a b, le (r a b) (r' a b)) rs rs' ->
    (forall a b, le (k a b) (k' a b)) -> le (first_rule rs k a b) (first_rule rs' k' a b).
  Proof. intros H Hk. induction H; simpl; mono. Qed.

  Lemma le_scan (f f' : expr -> M (option expr)) l :
    (forall v, le (f v) (f' v)) -> le (scan f l) (scan f' l).
  Proof. intros H. induction l; simpl; mono. Qed.
  Lemma le_push f f' l (d d' : M expr) :
    (forall v, le (f v) (f' v)) -> le d d' -> le (scan_or_push f l d) (scan_or_push f' l d').
  Proof. intros H Hd. unfold scan_or_push. apply le_bind; [now apply le_scan|]. intros [x|]; mono. Qed.
  Lemma le_foldM (f f' : list expr -> expr -> M (list expr)) : (forall acc x, le (f acc x) (f' acc x)) ->
    forall l acc, le (foldM f acc l) (foldM f' acc l).
  Proof. intros H. induction l; intros acc; simpl; mono. Qed.
  Lemma le_operands a b k k' : (forall a b, le (k a b) (k' a b)) -> le (operands S a b k) (operands S' a b k').
  Proof. intros H. unfold operands. mono. Qed.

  Lemma le_yesM m m' : le m m' -> le (@yesM num m) (yesM m').
  Proof. intros H. unfold yesM. mono. Qed.

  Lemma le_add_collect vals x : le (add_collect S vals x) (add_collect S' vals x).
  Proof.
    unfold add_collect, add_collect_img, add_collect_var, add_collect_exp.
    mono; apply le_push; intros; mono.
  Qed.
  Lemma le_mul_collect vals x : le (mul_collect S vals x) (mul_collect S' vals x).
  Proof.
    unfold mul_collect, mul_collect_img, mul_collect_exp, mul_collect_any.
    mono; apply le_push; intros; mono.
  Qed.
  Lemma le_div_collect vals x : le (div_collect S vals x) (div_collect S' vals x).
  Proof.
    unfold div_collect, div_by_var, div_by_varexp, div_by_exp, div_by_any.
    mono; apply le_push; intros; mono.
  Qed.

  Lemma le_simp_step prefer e : le (simp_step S D I prefer e) (simp_step S' D' I' prefer e).
  Proof.
    destruct e as [c| |x| | | |r c d|o a b|o a]; try apply le_refl.
    - destruct o; simpl; apply le_operands; intros a' b';
        try (apply le_first_rule; [repeat (apply Forall2_cons; [intros|]); try apply Forall2_nil|intros]).
      all: repeat match goal with
           | |- le (add_rest _ _ _) _ => unfold add_rest; apply le_bind; [apply le_foldM, le_add_collect|intros]; mono
           | |- le (mul_rest _ _ _) _ => unfold mul_rest; apply le_bind; [apply le_foldM, le_mul_collect|intros]; mono
           | |- le (div_rest _ _ _) _ => unfold div_rest; destruct (split_div _); apply le_bind; [apply le_foldM, le_div_collect|intros]; mono
           end; try apply le_refl.
      all: unfold_rule; unfold yesM; mono.
    - destruct o; simpl.
      + unfold visit_neg; mono.
      + unfold visit_sine; mono.
      + unfold visit_mag. apply le_bind; [apply HS|]. intros s.
        apply le_first_rule; [repeat (apply Forall2_cons; [intros|]); try apply Forall2_nil|intros; apply le_refl].
        all: unfold_rule; unfold yesM; mono.
  Qed.

  Variables (V V' : expr -> expr -> M expr).
  Hypothesis HV : forall e v, le (V e v) (V' e v).

  Lemma le_diff_deriv a w v : le (diff_deriv S V a w v) (diff_deriv S' V' a w v).
  Proof. unfold diff_deriv. mono. Qed.

  Lemma le_diff_step multi e v : le (diff_step S V D I multi e v) (diff_step S' V' D' I' multi e v).
  Proof.
    destruct e as [c| |x| | | |r c d|o a b|o a]; cbn [diff_step]; try (mono; fail).
    - destruct (is_var v); [|apply le_refl]. destruct o.
      + unfold diff_addsub; mono.
      + unfold diff_addsub; mono.
      + unfold diff_mul; mono.
      + unfold diff_div. apply le_bind; [mono|]. intros q. apply le_bind; [mono|]. intros _.
        apply le_first_rule; [repeat (apply Forall2_cons; [intros|]); try apply Forall2_nil|intros; apply le_refl];
          unfold diff_div_real, diff_div_mul, diff_div_quot, yesM; mono.
      + unfold diff_exp.
        apply le_first_rule; [repeat (apply Forall2_cons; [intros|]); try apply Forall2_nil|intros; unfold diff_exp_gen; mono];
          unfold diff_exp_poly, diff_exp_real, diff_exp_euler, diff_exp_var, yesM; mono.
      + unfold diff_log, simp_or_keep. mono. apply le_diff_deriv.
      + apply le_bind; [mono|]. intros _. apply le_diff_deriv.
      + unfold diff_int; mono.
    - destruct o; try apply le_refl. unfold diff_neg. mono.
  Qed.

  Lemma le_integ_step e v : le (integ_step S D I e v) (integ_step S' D' I' e v).
  Proof.
    destruct e as [c| |x| | | |r c d|o a b|o a]; simpl.
    - unfold int_real, some; mono.
    - apply HI.
    - unfold int_var, some; mono.
    - apply HI.
    - unfold int_euler, some; mono.
    - apply HI.
    - apply le_refl.
    - destruct o; try (destruct (is_var v); [|apply le_refl]).
      + unfold int_add, some, deref; mono.
      + unfold int_sub, some, deref; mono.
      + unfold int_mul, int_parts, split_coef, some, deref; mono.
      + unfold int_div, some, deref; mono.
      + unfold int_exp, int_exp_pow, int_exp_euler, yesM; mono.
      + unfold int_log, int_ln, int_logb, some; mono.
      + apply HI.
      + apply HI.
    - destruct o; unfold deref; mono.
  Qed.

  Lemma le_differentiate_with e v : le (differentiate_with V e v) (differentiate_with V' e v).
  Proof. unfold differentiate_with. mono. Qed.
End Steps.

Section Knot.
  Context {num : Type} {N : NumOps num}.
  Notation expr := (expr num).

  Lemma fuel_step n :
    (forall prefer (e : expr), le (simp n prefer e) (simp (S n) prefer e)) /\
    (forall multi (e v : expr), le (diff n multi e v) (diff (S n) multi e v)) /\
    (forall (e v : expr), le (integ n e v) (integ (S n) e v)).
  Proof.
    induction n as [|n (IHs & IHd & IHi)].
    - repeat split; intros; left; reflexivity.
    - assert (HD : forall e v : expr, le (differentiate_with (diff n false) e v) (differentiate_with (diff (S n) false) e v)).
      { intros. apply le_differentiate_with. intros. apply IHd. }
      split; [|split].
      + intros prefer e.
        change (le (simp_step (simp n prefer) (differentiate_with (diff n false)) (integ n) prefer e)
                   (simp_step (simp (S n) prefer) (differentiate_with (diff (S n) false)) (integ (S n)) prefer e)).
        apply le_simp_step; auto.
      + intros multi e v.
        change (le (diff_step (simp n false) (diff n multi) (differentiate_with (diff n false)) (integ n) multi e v)
                   (diff_step (simp (S n) false) (diff (S n) multi) (differentiate_with (diff (S n) false)) (integ (S n)) multi e v)).
        apply le_diff_step; auto.
      + intros e v.
        change (le (integ_step (simp n false) (differentiate_with (diff n false)) (integ n) e v)
                   (integ_step (simp (S n) false) (differentiate_with (diff (S n) false)) (integ (S n)) e v)).
        apply le_integ_step; auto.
  Qed.

  Lemma simp_mono n m prefer (e : expr) : (n <= m)%nat -> le (simp n prefer e) (simp m prefer e).
  Proof. induction 1; [apply le_refl|]. eapply le_trans; [eassumption|apply fuel_step]. Qed.
  Lemma diff_mono n m multi (e v : expr) : (n <= m)%nat -> le (diff n multi e v) (diff m multi e v).
  Proof. induction 1; [apply le_refl|]. eapply le_trans; [eassumption|apply fuel_step]. Qed.
  Lemma integ_mono n m (e v : expr) : (n <= m)%nat -> le (integ n e v) (integ m e v).
  Proof. induction 1; [apply le_refl|]. eapply le_trans; [eassumption|apply fuel_step]. Qed.
  Lemma differentiate_mono n m (e v : expr) : (n <= m)%nat -> le (differentiate n e v) (differentiate m e v).
  Proof. intros H. apply le_differentiate_with. intros. now apply diff_mono. Qed.
  Lemma subst_mono n m (e var val : expr) : (n <= m)%nat -> le (subst n e var val) (subst m e var val).
  Proof.
    intros H. induction e as [c| |x| | | |r c d|o a IHa b IHb|o a IHa]; simpl; try apply le_refl; mono.
    now apply simp_mono.
  Qed.
End Knot.
