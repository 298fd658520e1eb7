(** Property C96: the standard identities, for operands of any shape. *)
From Coq Require Import String Bool Arith ZArith QArith Lia List.
From Verif Require Import Base Num QNum Expr Simplify Calculus PropertiesSimplify PropertiesMatrix PropertiesScale.
Import ListNotations.
Open Scope nat_scope.
Open Scope list_scope.

(** [A] is a numeric literal.  Two literals are combined by arithmetic, which
    is another property (C13), so most identities exclude them. *)
Definition number {num : Type} (A : expr num) : Prop := exists c, A = EReal c.

(** ** C96: The standard identities hold whatever the operands are
    In all of these, [a] and [b] are any expressions and [A] and [B] what they
    simplify to. *)

Section Identities.
  Context {num : Type} {N : NumOps num}.
  Notation E := (expr num).
  Implicit Types a b A B e f r x y z m : E.

  Lemma sum_runs a b A B r : simplifies_to a A -> simplifies_to b B ->
    (forall n prefer, snd (first_rule (add_rules (simp n prefer)) (add_rest (simp n prefer)) A B) = Ok r) ->
    simplifies_to (EAdd a b) r.
  Proof.
    intros Ha Hb H. apply (bin_visit _ _ _ A B); auto. intros n prefer Ra Rb. cbn [simp simp_step]. unfold visit_add.
    rewrite (snd_operands _ _ _ A B); auto.
  Qed.
  Lemma power_runs k a b A B r : simplifies_to a A -> simplifies_to b B ->
    (forall n prefer, k <= n -> snd (first_rule (exp_rules (simp n prefer)) (fun a b => ret (EExp a b)) A B) = Ok r) ->
    simplifies_to (EExp a b) r.
  Proof.
    intros [k1 H1] [k2 H2] H. exists (S (max k (max k1 k2))). intros n prefer Hn. destruct n as [|n]; [lia|].
    cbn [simp simp_step]. unfold visit_exp. rewrite (snd_operands _ _ _ A B); [apply H; lia|apply H1; lia|apply H2; lia].
  Qed.
  Lemma log_runs k a b A B r : simplifies_to a A -> simplifies_to b B ->
    (forall n prefer, k <= n -> snd (first_rule (log_rules (simp n prefer)) (fun a b => ret (ELog a b)) A B) = Ok r) ->
    simplifies_to (ELog a b) r.
  Proof.
    intros [k1 H1] [k2 H2] H. exists (S (max k (max k1 k2))). intros n prefer Hn. destruct n as [|n]; [lia|].
    cbn [simp simp_step]. unfold visit_log. rewrite (snd_operands _ _ _ A B); [apply H; lia|apply H1; lia|apply H2; lia].
  Qed.
  Lemma product_from k a b A B r : simplifies_to a A -> simplifies_to b B ->
    (forall n prefer, k <= n -> snd (first_rule (mul_rules (simp n prefer) prefer) (mul_rest (simp n prefer)) A B) = Ok r) ->
    simplifies_to (EMul a b) r.
  Proof.
    intros [k1 H1] [k2 H2] H. exists (S (max k (max k1 k2))). intros n prefer Hn. destruct n as [|n]; [lia|].
    cbn [simp simp_step]. unfold visit_mul. rewrite (snd_operands _ _ _ A B); [apply H; lia|apply H1; lia|apply H2; lia].
  Qed.
  Lemma mag_runs k a A r : simplifies_to a A ->
    (forall n prefer, k <= n -> snd (first_rule (mag_rules (simp n prefer)) (fun orig _ => ret (EMag orig)) a A) = Ok r) ->
    simplifies_to (EMag a) r.
  Proof.
    intros [k1 H1] H. exists (S (max k k1)). intros n prefer Hn. destruct n as [|n]; [lia|].
    cbn [simp simp_step]. unfold visit_mag. rewrite (snd_bind _ _ A); [apply H; lia|apply H1; lia].
  Qed.

  Lemma rule_no (R : E -> E -> rule) rs d a b : snd (R a b) = Ok None ->
    snd (first_rule (R :: rs) d a b) = snd (first_rule rs d a b).
  Proof. intros H. cbn [first_rule]. now rewrite (snd_bind _ _ None H). Qed.
  Lemma rule_yes (R : E -> E -> rule) rs d a b r : snd (R a b) = Ok (Some r) ->
    snd (first_rule (R :: rs) d a b) = Ok r.
  Proof. intros H. cbn [first_rule]. now rewrite (snd_bind _ _ (Some r) H). Qed.
  Lemma snd_emit {T} c w (m : M T) : snd (bind (emit c w) (fun _ => m)) = snd m.
  Proof. unfold emit. destruct c; cbn; destruct m; reflexivity. Qed.
  Lemma snd_m_eq A B c : equals A B = Some c -> snd (m_eq A B) = Ok c.
  Proof. intros H. unfold m_eq. rewrite H. apply snd_emit. Qed.
  Lemma snd_yesM (S : M E) r : snd S = Ok r -> snd (yesM S) = Ok (Some r).
  Proof. intros H. unfold yesM. now rewrite (snd_bind _ _ r H). Qed.
  Lemma snd_value (m : M E) r : snd m = Ok r -> snd (m_value m) = Ok r.
  Proof. destruct m as [t o]. cbn. intros ->. reflexivity. Qed.
End Identities.

Ltac nope := match goal with H : ~ number ?A |- _ => destruct A; try (exfalso; apply H; eexists; reflexivity); reflexivity end.

Section Laws.
  Context {num : Type} {N : NumOps num}.
  Notation E := (expr num).
  Implicit Types a b A B e f r x y z m : E.

  (** *** Sums and differences *)
  Theorem c96_add_zero a b A c : simplifies_to a A -> simplifies_to b (EReal c) -> n_eqb c (n_of_Z 0) = true -> ~ number A ->
    simplifies_to (EAdd a b) A /\ simplifies_to (EAdd b a) A.
  Proof.
    intros Ha Hb Hc HA. split.
    - apply (sum_runs _ _ _ _ _ Ha Hb). intros n prefer. unfold add_rules. rewrite rule_no by nope. apply rule_yes.
      unfold add_101. destruct A; try (exfalso; apply HA; eexists; reflexivity); cbn [rcast binop_eqb commut]; unfold n0; rewrite Hc; reflexivity.
    - apply (sum_runs _ _ _ _ _ Hb Ha). intros n prefer. unfold add_rules. rewrite rule_no by nope. apply rule_yes.
      unfold add_101. cbn [rcast binop_eqb]. unfold n0. rewrite Hc. reflexivity.
  Qed.

  Theorem c96_sub_equal a b A B : simplifies_to a A -> simplifies_to b B -> ~ number A -> equals A B = Some true ->
    simplifies_to (ESub a b) (EReal (n_of_Z 0)).
  Proof.
    intros Ha Hb HA He. apply (bin_visit _ _ _ A B); auto. intros n prefer Ra Rb. cbn [simp simp_step]. unfold visit_sub.
    rewrite (snd_operands _ _ _ A B) by assumption. unfold sub_rules. rewrite rule_no by nope. apply rule_yes.
    unfold sub_368. rewrite (snd_bind _ _ true) by (now apply snd_m_eq). reflexivity.
  Qed.

  (** *** Products *)
  (** The operand is simplified once more: [r] is what [A] simplifies to. *)
  Theorem c96_mul_one a b A r c : simplifies_to a A -> simplifies_to A r -> simplifies_to b (EReal c) ->
    n_eqb c (n_of_Z 1) = true -> n_leb (n_abs c) n_eps = false -> ~ number A ->
    simplifies_to (EMul a b) r /\ simplifies_to (EMul b a) r.
  Proof.
    intros Ha [k Hr] Hb Hc Ht HA. split.
    - apply (product_from k _ _ _ _ _ Ha Hb). intros n prefer Hn. unfold mul_rules. apply rule_yes.
      unfold mul_478. destruct A; try (exfalso; apply HA; eexists; reflexivity); cbn [rcast binop_eqb commut]; unfold tiny, n1; rewrite Ht, Hc; apply snd_yesM, Hr, Hn.
    - apply (product_from k _ _ _ _ _ Hb Ha). intros n prefer Hn. unfold mul_rules. apply rule_yes.
      unfold mul_478. cbn [rcast binop_eqb]. unfold tiny, n1. rewrite Ht, Hc. apply snd_yesM, Hr, Hn.
  Qed.

  Theorem c96_mul_zero a b A c : simplifies_to a A -> simplifies_to b (EReal c) -> n_leb (n_abs c) n_eps = true -> ~ number A ->
    simplifies_to (EMul a b) (EReal (n_of_Z 0)) /\ simplifies_to (EMul b a) (EReal (n_of_Z 0)).
  Proof.
    intros Ha Hb Hc HA. split.
    - apply (product_from 0 _ _ _ _ _ Ha Hb). intros n prefer Hn. unfold mul_rules. apply rule_yes.
      unfold mul_478. destruct A; try (exfalso; apply HA; eexists; reflexivity); cbn [rcast binop_eqb commut]; unfold tiny; rewrite Hc, snd_emit; reflexivity.
    - apply (product_from 0 _ _ _ _ _ Hb Ha). intros n prefer Hn. unfold mul_rules. apply rule_yes.
      unfold mul_478. cbn [rcast binop_eqb]. unfold tiny. rewrite Hc, snd_emit. reflexivity.
  Qed.

  Theorem c96_mul_equal a b A B : simplifies_to a A -> simplifies_to b B -> ~ number A -> ~ number B -> A <> EImag ->
    equals A B = Some true -> simplifies_to (EMul a b) (EExp A (EReal (n_of_Z 2))).
  Proof.
    intros Ha Hb HA HB HI He. apply (product_from 0 _ _ _ _ _ Ha Hb). intros n prefer _. unfold mul_rules.
    do 4 (rewrite rule_no; [|destruct A; try (exfalso; apply HA; eexists; reflexivity); try (now exfalso; apply HI);
                             destruct B; try (exfalso; apply HB; eexists; reflexivity); reflexivity]).
    apply rule_yes. unfold mul_506. rewrite (snd_bind _ _ true) by (now apply snd_m_eq). reflexivity.
  Qed.

  Theorem c96_i_squared a b : simplifies_to a EImag -> simplifies_to b EImag ->
    simplifies_to (EMul a b) (EReal (n_of_Z (-1))).
  Proof. intros Ha Hb. apply (product_from 0 _ _ _ _ _ Ha Hb). reflexivity. Qed.

  (** *** Powers *)
  Theorem c96_power_zero a b A c : simplifies_to a A -> simplifies_to b (EReal c) -> n_eqb c (n_of_Z 0) = true ->
    simplifies_to (EExp a b) (EReal (n_of_Z 1)).
  Proof.
    intros Ha Hb Hc. apply (power_runs 0 _ _ _ _ _ Ha Hb). intros n prefer _. unfold exp_rules. apply rule_yes.
    unfold exp_1139. cbn [rcast binop_eqb]. unfold n0. now rewrite Hc.
  Qed.

  Theorem c96_power_one a b A c : simplifies_to a A -> simplifies_to b (EReal c) -> n_eqb c (n_of_Z 0) = false ->
    n_eqb c (n_of_Z 1) = true -> ~ number A -> simplifies_to (EExp a b) A.
  Proof.
    intros Ha Hb H0 H1 HA. apply (power_runs 0 _ _ _ _ _ Ha Hb). intros n prefer _. unfold exp_rules.
    rewrite rule_no by (unfold exp_1139; cbn [rcast binop_eqb]; unfold n0; rewrite H0; reflexivity).
    do 2 rewrite rule_no by nope. apply rule_yes. unfold exp_1163. cbn [rcast binop_eqb]. unfold n1. now rewrite H1.
  Qed.

  Theorem c96_one_power a b B c : simplifies_to a (EReal c) -> simplifies_to b B -> n_eqb c (n_of_Z 0) = false ->
    n_eqb c (n_of_Z 1) = true -> ~ number B -> simplifies_to (EExp a b) (EReal (n_of_Z 1)).
  Proof.
    intros Ha Hb H0 H1 HB. apply (power_runs 0 _ _ _ _ _ Ha Hb). intros n prefer _. unfold exp_rules.
    rewrite rule_no by nope.
    rewrite rule_no by (unfold exp_1148; cbn [rcast binop_eqb]; unfold n0; rewrite H0; reflexivity).
    do 2 rewrite rule_no by nope. apply rule_yes. unfold exp_1171. cbn [rcast binop_eqb]. unfold n1. now rewrite H1.
  Qed.

  Theorem c96_zero_power a b B c : simplifies_to a (EReal c) -> simplifies_to b B -> n_eqb c (n_of_Z 0) = true ->
    ~ number B -> simplifies_to (EExp a b) (EReal (n_of_Z 0)).
  Proof.
    intros Ha Hb H0 HB. apply (power_runs 0 _ _ _ _ _ Ha Hb). intros n prefer _. unfold exp_rules.
    rewrite rule_no by nope. apply rule_yes. unfold exp_1148. cbn [rcast binop_eqb]. unfold n0. now rewrite H0.
  Qed.

  (** An exponent that is neither the number 0 nor the number 1. *)
  Definition plain_exponent B : Prop := forall c, B = EReal c -> n_eqb c (n_of_Z 0) = false /\ n_eqb c (n_of_Z 1) = false.
  Lemma exponent_no A B : plain_exponent B -> snd (exp_1139 A B) = Ok None /\ snd (exp_1163 A B) = Ok None.
  Proof.
    intros P. destruct B; try (split; reflexivity). destruct (P _ eq_refl) as [P0 P1].
    split; [unfold exp_1139|unfold exp_1163]; cbn [rcast binop_eqb]; unfold n0, n1; [rewrite P0|rewrite P1]; reflexivity.
  Qed.

  Theorem c96_power_power a b x p B m : simplifies_to a (EExp x p) -> simplifies_to b B -> plain_exponent B ->
    simplifies_to (EMul p B) m -> simplifies_to (EExp a b) (EExp x m).
  Proof.
    intros Ha Hb P [k Hm]. apply (power_runs k _ _ _ _ _ Ha Hb). intros n prefer Hn. unfold exp_rules.
    rewrite rule_no by (now apply exponent_no). do 2 rewrite rule_no by reflexivity.
    rewrite rule_no by (now apply exponent_no). do 3 rewrite rule_no by reflexivity.
    apply rule_yes. unfold exp_1209. cbn [rcast pExp binop_eqb]. rewrite snd_emit, (snd_bind _ _ m) by (apply snd_value, Hm, Hn). reflexivity.
  Qed.

  (** [A] is neither a power nor one of the numbers 0 and 1, whose powers other
      identities answer. *)
  Theorem c96_power_log a b A y z : simplifies_to a A -> simplifies_to b (ELog y z) -> plain_exponent A ->
    (forall u v, A <> EExp u v) -> equals A y = Some true -> simplifies_to (EExp a b) z.
  Proof.
    intros Ha Hb P HA He. apply (power_runs 0 _ _ _ _ _ Ha Hb). intros n prefer _. unfold exp_rules.
    rewrite rule_no by reflexivity.
    rewrite rule_no by (destruct A; try reflexivity; destruct (P _ eq_refl) as [P0 _]; unfold exp_1148; cbn [rcast binop_eqb]; unfold n0; rewrite P0; reflexivity).
    rewrite rule_no by (destruct A; reflexivity). rewrite rule_no by reflexivity.
    rewrite rule_no by (destruct A; try reflexivity; destruct (P _ eq_refl) as [_ P1]; unfold exp_1171; cbn [rcast binop_eqb]; unfold n1; rewrite P1; reflexivity).
    rewrite rule_no by (destruct A; reflexivity).
    rewrite rule_no.
    2:{ unfold exp_1196. cbn [rcast binop_eqb]. destruct (rcast pMulRE A); reflexivity. }
    rewrite rule_no by (destruct A; try reflexivity; match goal with o : binop |- _ => destruct o; try reflexivity; now exfalso; eapply HA end).
    apply rule_yes. unfold exp_1219. cbn [rcast pLog binop_eqb]. rewrite (snd_bind _ _ true) by (now apply snd_m_eq). reflexivity.
  Qed.

  (** The powers of i go round in fours; the remainder is that of the exponent
      converted to an integer. *)
  Theorem c96_i_power a b c : simplifies_to a EImag -> simplifies_to b (EReal c) -> plain_exponent (EReal c) ->
    forall r, match n_rem4 c with
              | Some 0%Z => r = EReal (n_of_Z 1)
              | Some 1%Z => r = EImag
              | Some 2%Z => r = EReal (n_of_Z (-1))
              | Some 3%Z => r = ENeg EImag
              | _ => False
              end -> simplifies_to (EExp a b) r.
  Proof.
    intros Ha Hb P r Hr. apply (power_runs 0 _ _ _ _ _ Ha Hb). intros n prefer _. unfold exp_rules.
    rewrite rule_no by (now apply exponent_no). do 2 rewrite rule_no by reflexivity.
    rewrite rule_no by (now apply exponent_no). rewrite rule_no by reflexivity. apply rule_yes.
    unfold exp_1179. cbn [rcast binop_eqb]. destruct (n_rem4 c) as [z|]; [|contradiction].
    destruct z as [|p|p]; [subst; reflexivity| |contradiction].
    repeat (destruct p as [p|p|]; try contradiction; try (subst; reflexivity)).
  Qed.

  (** *** Logarithms *)
  (** A base that is not a number, or is a positive number other than 1. *)
  Definition good_base A : Prop := forall c, A = EReal c -> n_leb c (n_of_Z 0) = false /\ n_eqb c (n_of_Z 1) = false.
  Lemma base_no A B : good_base A -> snd (log_1279 A B) = Ok None.
  Proof.
    intros P. destruct A; try reflexivity. destruct (P _ eq_refl) as [P0 P1].
    unfold log_1279. cbn [rcast binop_eqb]. unfold n0, n1. rewrite P0, P1. reflexivity.
  Qed.

  Theorem c96_log_one a b A c : simplifies_to a A -> simplifies_to b (EReal c) -> good_base A ->
    n_leb c (n_of_Z 0) = false -> n_eqb c (n_of_Z 1) = true -> simplifies_to (ELog a b) (EReal (n_of_Z 0)).
  Proof.
    intros Ha Hb P H0 H1. apply (log_runs 0 _ _ _ _ _ Ha Hb). intros n prefer _. unfold log_rules.
    rewrite rule_no by (now apply base_no). apply rule_yes. unfold log_1285. cbn [rcast binop_eqb]. unfold n0, n1. now rewrite H0, H1.
  Qed.

  Theorem c96_log_base a b A B : simplifies_to a A -> simplifies_to b B -> ~ number A -> ~ number B ->
    equals B A = Some true -> simplifies_to (ELog a b) (EReal (n_of_Z 1)).
  Proof.
    intros Ha Hb HA HB He. apply (log_runs 0 _ _ _ _ _ Ha Hb). intros n prefer _. unfold log_rules.
    rewrite rule_no by (destruct A; try (exfalso; apply HA; eexists; reflexivity); reflexivity).
    rewrite rule_no by (destruct B; try (exfalso; apply HB; eexists; reflexivity); reflexivity).
    rewrite rule_no by (destruct A; try (exfalso; apply HA; eexists; reflexivity); reflexivity).
    rewrite rule_no by (destruct B; try (exfalso; apply HB; eexists; reflexivity); reflexivity).
    apply rule_yes. unfold log_1312. rewrite (snd_bind _ _ true) by (now apply snd_m_eq). reflexivity.
  Qed.

  Theorem c96_log_power a b A y p m : simplifies_to a A -> simplifies_to b (EExp y p) -> good_base A ->
    equals (EExp y p) A = Some false -> simplifies_to (EMul p (ELog A y)) m -> simplifies_to (ELog a b) m.
  Proof.
    intros Ha Hb P He [k Hm]. apply (log_runs k _ _ _ _ _ Ha Hb). intros n prefer Hn. unfold log_rules.
    rewrite rule_no by (now apply base_no). rewrite rule_no by reflexivity. rewrite rule_no by (destruct A; reflexivity).
    rewrite rule_no by reflexivity.
    rewrite rule_no by (unfold log_1312; rewrite (snd_bind _ _ false) by (now apply snd_m_eq); reflexivity).
    apply rule_yes. unfold log_1319. cbn [rcast pExp binop_eqb]. rewrite snd_emit. apply snd_yesM, Hm, Hn.
  Qed.

  (** *** Magnitudes *)
  Theorem c96_mag_number a c : simplifies_to a (EReal c) ->
    simplifies_to (EMag a) (EReal (if n_leb (n_of_Z 0) c then c else n_opp c)).
  Proof. intros Ha. apply (mag_runs 0 _ _ _ Ha). reflexivity. Qed.

  Theorem c96_mag_i a : simplifies_to a EImag -> simplifies_to (EMag a) (EReal (n_of_Z 1)).
  Proof. intros Ha. apply (mag_runs 0 _ _ _ Ha). reflexivity. Qed.

  Theorem c96_mag_times_i a e m : simplifies_to a (EMul e EImag) -> simplifies_to (EMag e) m -> simplifies_to (EMag a) m.
  Proof.
    intros Ha [k Hm]. apply (mag_runs k _ _ _ Ha). intros n prefer Hn. unfold mag_rules. do 2 rewrite rule_no by reflexivity.
    apply rule_yes. unfold mag_1453. cbn [rcast pMulImag binop_eqb]. apply snd_yesM, Hm, Hn.
  Qed.

  Theorem c96_mag_plus_i a e m : simplifies_to a (EAdd e EImag) ->
    simplifies_to (EExp (EAdd (EExp e (EReal (n_of_Z 2))) (EReal (n_of_Z 1))) (EReal n_half)) m -> simplifies_to (EMag a) m.
  Proof.
    intros Ha [k Hm]. apply (mag_runs k _ _ _ Ha). intros n prefer Hn. unfold mag_rules. do 3 rewrite rule_no by reflexivity.
    apply rule_yes. unfold mag_1456. cbn [rcast binop_eqb]. rewrite snd_emit. apply snd_yesM, Hm, Hn.
  Qed.

  Theorem c96_mag_complex a e f m : simplifies_to a (EAdd e (EMul f EImag)) -> e <> EImag ->
    simplifies_to (EExp (EAdd (EExp e (EReal (n_of_Z 2))) (EExp f (EReal (n_of_Z 2)))) (EReal n_half)) m -> simplifies_to (EMag a) m.
  Proof.
    intros Ha HI [k Hm]. apply (mag_runs k _ _ _ Ha). intros n prefer Hn. unfold mag_rules. do 3 rewrite rule_no by reflexivity.
    rewrite rule_no by (unfold mag_1456; destruct e; try reflexivity; now exfalso; apply HI).
    apply rule_yes. unfold mag_1462. cbn [rcast pMulImag binop_eqb]. rewrite snd_emit. apply snd_yesM, Hm, Hn.
  Qed.
End Laws.
Print Assumptions c96_add_zero.
Print Assumptions c96_sub_equal.
Print Assumptions c96_mul_one.
Print Assumptions c96_mul_zero.
Print Assumptions c96_mul_equal.
Print Assumptions c96_i_squared.
Print Assumptions c96_power_zero.
Print Assumptions c96_power_one.
Print Assumptions c96_one_power.
Print Assumptions c96_zero_power.
Print Assumptions c96_power_power.
Print Assumptions c96_power_log.
Print Assumptions c96_i_power.
Print Assumptions c96_log_one.
Print Assumptions c96_log_base.
Print Assumptions c96_log_power.
Print Assumptions c96_mag_number.
Print Assumptions c96_mag_i.
Print Assumptions c96_mag_times_i.
Print Assumptions c96_mag_plus_i.
Print Assumptions c96_mag_complex.

(** The hypotheses are met by operands that are not single variables: with
    A = x + y and B = y + x, which are Equal, and b = 1. *)
Local Open Scope string_scope.
Definition xy : expr Q := EAdd (EVar "x") (EVar "y").
Definition yx : expr Q := EAdd (EVar "y") (EVar "x").
Ltac fuel k := exists k; let n := fresh "n" in let p := fresh "prefer" in let H := fresh "Hn" in
  intros n p H; repeat (destruct n as [|n]; [exfalso; lia|]); clear H; vm_compute; reflexivity.
Lemma xy_self : simplifies_to xy xy. Proof. fuel 12. Qed.
Lemma yx_self : simplifies_to yx yx. Proof. fuel 12. Qed.
Lemma lit_self (c : Q) : simplifies_to (EReal c) (EReal c). Proof. fuel 1. Qed.
Lemma var_self (x : string) : simplifies_to (EVar x : expr Q) (EVar x). Proof. fuel 1. Qed.
Lemma xy_plain : ~ number xy. Proof. intros [c H]. discriminate H. Qed.
Lemma yx_plain : ~ number yx. Proof. intros [c H]. discriminate H. Qed.

Example c96_case :
  simplifies_to (EAdd xy (EReal 0%Q)) xy /\
  simplifies_to (ESub xy yx) (EReal 0%Q) /\
  simplifies_to (EMul (EReal 1%Q) xy) xy /\
  simplifies_to (EMul xy (EReal 0%Q)) (EReal 0%Q) /\
  simplifies_to (EMul xy yx) (EExp xy (EReal 2%Q)) /\
  simplifies_to (EExp xy (EReal 0%Q)) (EReal 1%Q) /\
  simplifies_to (EExp xy (EReal 1%Q)) xy /\
  simplifies_to (EExp (EReal 1%Q) xy) (EReal 1%Q) /\
  simplifies_to (EExp (EReal 0%Q) xy) (EReal 0%Q) /\
  simplifies_to (EExp (EExp xy (EReal 3%Q)) (EReal 2%Q)) (EExp xy (EReal 6%Q)) /\
  simplifies_to (EExp xy (ELog yx (EVar "z"))) (EVar "z") /\
  simplifies_to (EExp EImag (EReal 7%Q)) (ENeg EImag) /\
  simplifies_to (ELog xy (EReal 1%Q)) (EReal 0%Q) /\
  simplifies_to (ELog xy yx) (EReal 1%Q) /\
  simplifies_to (EMag (EReal (-3)%Q)) (EReal 3%Q).
Proof.
  assert (L : simplifies_to (ELog yx (EVar "z")) (ELog yx (EVar "z"))) by fuel 14.
  assert (P : simplifies_to (EExp xy (EReal 3%Q)) (EExp xy (EReal 3%Q))) by fuel 14.
  assert (I : simplifies_to (EImag : expr Q) EImag) by fuel 1.
  repeat split.
  - apply (c96_add_zero _ _ _ _ xy_self (lit_self 0%Q)); [reflexivity|apply xy_plain].
  - apply (c96_sub_equal _ _ _ _ xy_self yx_self xy_plain). reflexivity.
  - apply (c96_mul_one _ _ _ _ _ xy_self xy_self (lit_self 1%Q)); [reflexivity|reflexivity|apply xy_plain].
  - apply (c96_mul_zero _ _ _ _ xy_self (lit_self 0%Q)); [reflexivity|apply xy_plain].
  - apply (c96_mul_equal _ _ _ _ xy_self yx_self xy_plain yx_plain); [discriminate|reflexivity].
  - apply (c96_power_zero _ _ _ _ xy_self (lit_self 0%Q)). reflexivity.
  - apply (c96_power_one _ _ _ _ xy_self (lit_self 1%Q)); [reflexivity|reflexivity|apply xy_plain].
  - apply (c96_one_power _ _ _ _ (lit_self 1%Q) xy_self); [reflexivity|reflexivity|apply xy_plain].
  - apply (c96_zero_power _ _ _ _ (lit_self 0%Q) xy_self); [reflexivity|apply xy_plain].
  - apply (c96_power_power _ _ _ _ _ _ P (lit_self 2%Q)); [|fuel 3]. intros c H. injection H as <-. split; reflexivity.
  - apply (c96_power_log _ _ _ _ _ xy_self L); [discriminate|discriminate|reflexivity].
  - apply (c96_i_power _ _ _ I (lit_self 7%Q)); [|reflexivity]. intros c H. injection H as <-. split; reflexivity.
  - apply (c96_log_one _ _ _ _ xy_self (lit_self 1%Q)); [discriminate|reflexivity|reflexivity].
  - apply (c96_log_base _ _ _ _ xy_self yx_self xy_plain yx_plain). reflexivity.
  - apply (c96_mag_number _ _ (lit_self (-3)%Q)).
Qed.

(** The others, whose answers are simplified further: log_u((x+y)^3) becomes
    3*log_u(x+y), and the magnitudes of (x+y)*i, x+i and x+3*i. *)
Example c96_case_more :
  simplifies_to (ELog (EVar "u") (EExp xy (EReal 3%Q))) (EMul (EReal 3%Q) (ELog (EVar "u") xy)) /\
  simplifies_to (EMag (EMul xy EImag)) (EMag xy) /\
  simplifies_to (EMag (EAdd (EVar "x") EImag)) (EExp (EAdd (EExp (EVar "x") (EReal 2%Q)) (EReal 1%Q)) (EReal (1 # 2)%Q)) /\
  simplifies_to (EMag (EAdd (EVar "x") (EMul (EReal 3%Q) EImag))) (EExp (EAdd (EExp (EVar "x") (EReal 2%Q)) (EReal 9%Q)) (EReal (1 # 2)%Q)).
Proof.
  assert (P : simplifies_to (EExp xy (EReal 3%Q)) (EExp xy (EReal 3%Q))) by fuel 14.
  assert (M1 : simplifies_to (EMul xy EImag) (EMul xy EImag)) by fuel 14.
  assert (M2 : simplifies_to (EAdd (EVar "x") EImag : expr Q) (EAdd (EVar "x") EImag)) by fuel 14.
  assert (M3 : simplifies_to (EAdd (EVar "x") (EMul (EReal 3%Q) EImag)) (EAdd (EVar "x") (EMul (EReal 3%Q) EImag))) by fuel 14.
  repeat split.
  - apply (c96_log_power _ _ _ _ _ _ (var_self "u") P); [discriminate|reflexivity|fuel 14].
  - apply (c96_mag_times_i _ _ _ M1). fuel 14.
  - apply (c96_mag_plus_i _ _ _ M2). fuel 14.
  - apply (c96_mag_complex _ _ _ _ M3); [discriminate|fuel 14].
Qed.
