(** Property C96, continued: logarithms, multiples and powers combined. *)
From Coq Require Import String Bool Arith ZArith QArith Lia List.
From Verif Require Import Base Num QNum Expr Simplify Calculus PropertiesSimplify PropertiesMatrix PropertiesScale PropertiesIdentities.
Import ListNotations.
Open Scope nat_scope.
Open Scope list_scope.

(** [A] is a node of the operation [o]. *)
Definition node_of {num : Type} (o : binop) (A : expr num) : Prop := exists a b, A = EBin o a b.

(* one alternative of the case analysis on an operand is excluded by hypothesis *)
Ltac ruled_out := exfalso; match goal with
  | H : ~ number _ |- _ => apply H; eexists; reflexivity
  | H : ~ node_of _ _ |- _ => apply H; eexists _, _; reflexivity
  end.
Ltac head_of t := match t with ?f _ => head_of f | _ => t end.
(* the first rule does not apply, for every shape of the operand [A] *)
Ltac by_shape A := rewrite rule_no; [|destruct A as [| | | | | | |o ? ?|]; try ruled_out; try reflexivity; destruct o; try ruled_out; reflexivity].
Ltac none := rewrite rule_no; [|reflexivity].
Ltac differ := rewrite rule_no; [|match goal with |- snd ?R = _ => let h := head_of R in unfold h end; cbn [rcast pMul pLog pExp pMulRE binop_eqb commut];
                                  rewrite (snd_bind _ _ false) by (now apply snd_m_eq); reflexivity].
Ltac same := apply rule_yes; match goal with |- snd ?R = _ => let h := head_of R in unfold h end; cbn [rcast pMul pLog pExp pMulRE pDiv binop_eqb commut];
             rewrite (snd_bind _ _ true) by (now apply snd_m_eq).

Section Laws.
  Context {num : Type} {N : NumOps num}.
  Notation E := (expr num).
  Implicit Types a b A B e f r x y z m : E.

  Lemma sum_from k a b A B r : simplifies_to a A -> simplifies_to b B ->
    (forall n prefer, k <= n -> snd (first_rule (add_rules (simp n prefer)) (add_rest (simp n prefer)) A B) = Ok r) ->
    simplifies_to (EAdd a b) r.
  Proof.
    intros [k1 H1] [k2 H2] H. exists (S (max k (max k1 k2))). intros n prefer Hn. destruct n as [|n]; [lia|].
    cbn [simp simp_step]. unfold visit_add. rewrite (snd_operands _ _ _ A B); [apply H; lia|apply H1; lia|apply H2; lia].
  Qed.
  Lemma difference_from k a b A B r : simplifies_to a A -> simplifies_to b B ->
    (forall n prefer, k <= n -> snd (first_rule (sub_rules (simp n prefer)) (fun a b => simp n prefer (EAdd a (EMul (real (-1)) b))) A B) = Ok r) ->
    simplifies_to (ESub a b) r.
  Proof.
    intros [k1 H1] [k2 H2] H. exists (S (max k (max k1 k2))). intros n prefer Hn. destruct n as [|n]; [lia|].
    cbn [simp simp_step]. unfold visit_sub. rewrite (snd_operands _ _ _ A B); [apply H; lia|apply H1; lia|apply H2; lia].
  Qed.
  Lemma quotient_from k a b A B r : simplifies_to a A -> simplifies_to b B ->
    (forall n prefer, k <= n -> snd (first_rule div_rules (div_rest (simp n prefer)) A B) = Ok r) ->
    simplifies_to (EDiv a b) r.
  Proof.
    intros [k1 H1] [k2 H2] H. exists (S (max k (max k1 k2))). intros n prefer Hn. destruct n as [|n]; [lia|].
    cbn [simp simp_step]. unfold visit_div. rewrite (snd_operands _ _ _ A B); [apply H; lia|apply H1; lia|apply H2; lia].
  Qed.

  Lemma no_cast p q A B : rcast p A = None -> rcast q A = None -> rcast (PBin OAdd p q) (EAdd A B) = None.
  Proof. intros P Q. cbn [rcast binop_eqb commut]. rewrite P, Q. destruct (rcast p B); reflexivity. Qed.

  (** *** Logarithms with the same base *)
  Theorem c96_add_logs a b c d x y : simplifies_to a (ELog c x) -> simplifies_to b (ELog d y) -> equals c d = Some true ->
    simplifies_to (EAdd a b) (ELog c (EMul x y)).
  Proof.
    intros Ha Hb He. apply (sum_from 0 _ _ _ _ _ Ha Hb). intros n prefer _. unfold add_rules. do 4 none. same. reflexivity.
  Qed.

  Theorem c96_sub_logs a b c d x y : simplifies_to a (ELog c x) -> simplifies_to b (ELog d y) -> equals c d = Some true ->
    equals (ELog c x) (ELog d y) = Some false -> simplifies_to (ESub a b) (ELog c (EDiv x y)).
  Proof.
    intros Ha Hb He Hd. apply (difference_from 0 _ _ _ _ _ Ha Hb). intros n prefer _. unfold sub_rules. none. differ. do 4 none. same. reflexivity.
  Qed.

  Theorem c96_div_logs a b c d x y : simplifies_to a (ELog c x) -> simplifies_to b (ELog d y) -> equals c d = Some true ->
    simplifies_to (EDiv a b) (ELog y x).
  Proof.
    intros Ha Hb He. apply (quotient_from 0 _ _ _ _ _ Ha Hb). intros n prefer _. unfold div_rules. none. same. reflexivity.
  Qed.

  (** *** Multiples of the same expression *)
  Theorem c96_add_equal a b A B m : simplifies_to a A -> simplifies_to b B -> equals A B = Some true ->
    ~ number A -> ~ number B -> ~ node_of OMul A -> ~ node_of OLog A -> (forall i j l, A <> EMat i j l) ->
    simplifies_to (EMul (EReal (n_of_Z 2)) A) m -> simplifies_to (EAdd a b) m.
  Proof.
    intros Ha Hb He NA NB NM NL NT [k Hm]. apply (sum_from k _ _ _ _ _ Ha Hb). intros n prefer Hn. unfold add_rules.
    do 2 rewrite rule_no by (destruct A; try ruled_out; destruct B; try ruled_out; reflexivity).
    assert (P1 : rcast pMulRE A = None) by (destruct A as [| | | | | | |o ? ?|]; try reflexivity; destruct o; try ruled_out; reflexivity).
    assert (P2 : rcast pLog A = None) by (destruct A as [| | | | | | |o ? ?|]; try reflexivity; destruct o; try ruled_out; reflexivity).
    rewrite rule_no by (unfold add_107; rewrite no_cast by assumption; reflexivity).
    rewrite rule_no by (destruct A; try (exfalso; exact (NT _ _ _ eq_refl)); destruct B; reflexivity).
    rewrite rule_no by (unfold add_132; rewrite no_cast by assumption; reflexivity).
    same. apply snd_yesM, Hm, Hn.
  Qed.

  Theorem c96_add_multiples a b c d e f : simplifies_to a (EMul (EReal c) e) -> simplifies_to b (EMul (EReal d) f) ->
    equals e f = Some true -> simplifies_to (EAdd a b) (EMul (EReal (n_add c d)) e).
  Proof.
    intros Ha Hb He. apply (sum_from 0 _ _ _ _ _ Ha Hb). intros n prefer _. unfold add_rules. do 2 none. same. reflexivity.
  Qed.

  Theorem c96_add_one_more a b c e B : simplifies_to a (EMul (EReal c) e) -> simplifies_to b B -> ~ number B -> ~ node_of OMul B ->
    equals (EMul (EReal c) e) B = Some false -> equals e B = Some true ->
    simplifies_to (EAdd a b) (EMul (EReal (n_add c (n_of_Z 1))) e).
  Proof.
    intros Ha Hb NB NM Hd He. apply (sum_from 0 _ _ _ _ _ Ha Hb). intros n prefer _. unfold add_rules.
    do 5 (by_shape B). differ. same. reflexivity.
  Qed.

  Theorem c96_sub_one_less a b c x B m : simplifies_to a (EMul c x) -> simplifies_to b B ->
    equals (EMul c x) B = Some false -> equals x B = Some true ->
    simplifies_to (EMul (ESub c (EReal (n_of_Z 1))) B) m -> simplifies_to (ESub a b) m.
  Proof.
    intros Ha Hb Hd He [k Hm]. apply (difference_from k _ _ _ _ _ Ha Hb). intros n prefer Hn. unfold sub_rules.
    none. differ. none. same. apply snd_yesM, Hm, Hn.
  Qed.

  Theorem c96_sub_multiple a b A c y m : simplifies_to a A -> simplifies_to b (EMul c y) -> ~ node_of OMul A ->
    equals A (EMul c y) = Some false -> equals A y = Some true ->
    simplifies_to (EMul (ESub (EReal (n_of_Z 1)) c) A) m -> simplifies_to (ESub a b) m.
  Proof.
    intros Ha Hb NM Hd He [k Hm]. apply (difference_from k _ _ _ _ _ Ha Hb). intros n prefer Hn. unfold sub_rules.
    by_shape A. differ. by_shape A. by_shape A. same. apply snd_yesM, Hm, Hn.
  Qed.

  Theorem c96_sub_multiples a b c x d y m : simplifies_to a (EMul c x) -> simplifies_to b (EMul d y) ->
    equals (EMul c x) (EMul d y) = Some false -> equals x (EMul d y) = Some false -> equals (EMul c x) y = Some false ->
    equals x y = Some true -> simplifies_to (EMul (ESub c d) y) m -> simplifies_to (ESub a b) m.
  Proof.
    intros Ha Hb H1 H2 H3 He [k Hm]. apply (difference_from k _ _ _ _ _ Ha Hb). intros n prefer Hn. unfold sub_rules.
    none. differ. none. differ. differ. same. apply snd_yesM, Hm, Hn.
  Qed.

  (** *** Differences with a sum or a difference *)
  Theorem c96_sub_sum a b A x y x' y' s m : simplifies_to a A -> simplifies_to b (EAdd x y) -> ~ node_of OMul A ->
    equals A (EAdd x y) = Some false ->
    simplifies_to (EMul (EReal (n_of_Z (-1))) x) x' -> simplifies_to (EMul (EReal (n_of_Z (-1))) y) y' ->
    simplifies_to (EAdd x' y') s -> simplifies_to (EAdd A s) m -> simplifies_to (ESub a b) m.
  Proof.
    intros Ha Hb NM Hd [k1 H1] [k2 H2] [k3 H3] [k4 H4]. apply (difference_from (max (max k1 k2) (max k3 k4)) _ _ _ _ _ Ha Hb).
    intros n prefer Hn. unfold sub_rules. by_shape A. differ. do 5 (by_shape A). apply rule_yes. unfold sub_418. cbn [rcast pAdd binop_eqb].
    rewrite (snd_bind _ _ x') by (apply H1; lia). rewrite (snd_bind _ _ y') by (apply H2; lia). rewrite (snd_bind _ _ s) by (apply H3; lia).
    apply snd_yesM, H4. lia.
  Qed.

  Theorem c96_sub_difference a b A x y x' y' s m : simplifies_to a A -> simplifies_to b (ESub x y) -> ~ node_of OMul A ->
    equals A (ESub x y) = Some false ->
    simplifies_to (EMul (EReal (n_of_Z (-1))) x) x' -> simplifies_to y y' ->
    simplifies_to (EAdd x' y') s -> simplifies_to (EAdd A s) m -> simplifies_to (ESub a b) m.
  Proof.
    intros Ha Hb NM Hd [k1 H1] [k2 H2] [k3 H3] [k4 H4]. apply (difference_from (max (max k1 k2) (max k3 k4)) _ _ _ _ _ Ha Hb).
    intros n prefer Hn. unfold sub_rules. by_shape A. differ. do 6 (by_shape A). apply rule_yes. unfold sub_434. cbn [rcast pSub binop_eqb].
    rewrite (snd_bind _ _ x') by (apply H1; lia). rewrite (snd_bind _ _ y') by (apply H2; lia). rewrite (snd_bind _ _ s) by (apply H3; lia).
    apply snd_yesM, H4. lia.
  Qed.

  (** *** Powers of the same base *)
  Theorem c96_mul_by_power a b A x p q : simplifies_to a A -> simplifies_to b (EExp x p) -> ~ number A -> ~ node_of ODiv A ->
    equals A (EExp x p) = Some false -> equals A x = Some true -> simplifies_to (EAdd p (EReal (n_of_Z 1))) q ->
    simplifies_to (EMul a b) (EExp A q).
  Proof.
    intros Ha Hb NA ND Hd He [k Hq]. apply (product_from k _ _ _ _ _ Ha Hb). intros n prefer Hn. unfold mul_rules.
    do 4 (by_shape A). differ. do 4 (by_shape A). same. rewrite (snd_bind _ _ q) by (apply Hq, Hn). reflexivity.
  Qed.

  Theorem c96_mul_power_by a b B x p q : simplifies_to a (EExp x p) -> simplifies_to b B -> ~ number B -> ~ node_of ODiv B -> ~ node_of OExp B ->
    equals (EExp x p) B = Some false -> equals B x = Some true -> simplifies_to (EAdd p (EReal (n_of_Z 1))) q ->
    simplifies_to (EMul a b) (EExp B q).
  Proof.
    intros Ha Hb NB ND NE Hd He [k Hq]. apply (product_from k _ _ _ _ _ Ha Hb). intros n prefer Hn. unfold mul_rules.
    do 4 (by_shape B). differ. do 4 (by_shape B). apply rule_yes. unfold mul_548.
    replace (rcast (PBin OMul PAny pExp) (EMul (EExp x p) B)) with (Some (EMul B (EExp x p)))
      by (destruct B as [| | | | | | |o ? ?|]; try reflexivity; destruct o; try ruled_out; reflexivity).
    rewrite (snd_bind _ _ true) by (now apply snd_m_eq). rewrite (snd_bind _ _ q) by (apply Hq, Hn). reflexivity.
  Qed.

  Theorem c96_mul_powers a b x p y q m : simplifies_to a (EExp x p) -> simplifies_to b (EExp y q) ->
    equals (EExp x p) (EExp y q) = Some false -> equals (EExp x p) y = Some false -> equals (EExp y q) x = Some false ->
    equals x y = Some true -> simplifies_to (EAdd p q) m -> simplifies_to (EMul a b) (EExp x m).
  Proof.
    intros Ha Hb H1 H2 H3 He [k Hm]. apply (product_from k _ _ _ _ _ Ha Hb). intros n prefer Hn. unfold mul_rules.
    do 4 none. differ. do 4 none. do 3 differ. same. rewrite (snd_bind _ _ m) by (apply Hm, Hn). reflexivity.
  Qed.

  Theorem c96_mul_multiple a b c x B : simplifies_to a (EMul c x) -> simplifies_to b B ->
    ~ number B -> ~ node_of ODiv B -> ~ node_of OExp B -> equals (EMul c x) B = Some false -> equals x B = Some true ->
    simplifies_to (EMul a b) (EMul c (EExp x (EReal (n_of_Z 2)))).
  Proof.
    intros Ha Hb NB ND NE Hd He. apply (product_from 0 _ _ _ _ _ Ha Hb). intros n prefer _. unfold mul_rules.
    do 4 (by_shape B). differ. do 8 (by_shape B). same. reflexivity.
  Qed.
End Laws.
Print Assumptions c96_add_logs.
Print Assumptions c96_sub_logs.
Print Assumptions c96_div_logs.
Print Assumptions c96_add_equal.
Print Assumptions c96_add_multiples.
Print Assumptions c96_add_one_more.
Print Assumptions c96_sub_one_less.
Print Assumptions c96_sub_multiple.
Print Assumptions c96_sub_multiples.
Print Assumptions c96_sub_sum.
Print Assumptions c96_sub_difference.
Print Assumptions c96_mul_by_power.
Print Assumptions c96_mul_power_by.
Print Assumptions c96_mul_powers.
Print Assumptions c96_mul_multiple.

(** Every theorem applied once. *)
Local Open Scope string_scope.
Local Notation v s := (EVar s : expr Q).
Local Notation k c := (EReal c%Q : expr Q).
Definition squared : expr Q := EExp (v "x") (k 2).
Ltac self := fuel 16.
Ltac unlike := let H := fresh in intros H; destruct H as (? & H); try destruct H as (? & H); discriminate H.

Example c96_case_combined :
  simplifies_to (EAdd (ELog (v "u") (v "x")) (ELog (v "u") (v "y"))) (ELog (v "u") (EMul (v "x") (v "y"))) /\
  simplifies_to (ESub (ELog (v "u") (v "x")) (ELog (v "u") (v "y"))) (ELog (v "u") (EDiv (v "x") (v "y"))) /\
  simplifies_to (EDiv (ELog (v "u") (v "x")) (ELog (v "u") (v "y"))) (ELog (v "y") (v "x")) /\
  simplifies_to (EAdd squared squared) (EMul (k 2) squared) /\
  simplifies_to (EAdd (EMul (k 2) squared) (EMul (k 3) squared)) (EMul (k 5) squared) /\
  simplifies_to (EAdd (EMul (k 2) squared) squared) (EMul (k 3) squared) /\
  simplifies_to (ESub (EMul (k 3) squared) squared) (EMul (k 2) squared) /\
  simplifies_to (ESub squared (EMul (k 3) squared)) (EMul (k (-2)) squared) /\
  simplifies_to (ESub (EMul (k 5) squared) (EMul (k 3) squared)) (EMul (k 2) squared) /\
  simplifies_to (ESub (v "z") xy) (EAdd (EAdd (v "z") (EMul (k (-1)) (v "x"))) (EMul (k (-1)) (v "y"))) /\
  simplifies_to (EMul (v "x") squared) (EExp (v "x") (k 3)) /\
  simplifies_to (EMul squared (v "x")) (EExp (v "x") (k 3)) /\
  simplifies_to (EMul squared (EExp (v "x") (k 3))) (EExp (v "x") (k 5)) /\
  simplifies_to (EMul (EMul (k 3) (v "x")) (v "x")) (EMul (k 3) squared).
Proof.
  assert (L1 : simplifies_to (ELog (v "u") (v "x")) (ELog (v "u") (v "x"))) by self.
  assert (L2 : simplifies_to (ELog (v "u") (v "y")) (ELog (v "u") (v "y"))) by self.
  assert (Q1 : simplifies_to squared squared) by self.
  assert (Q2 : simplifies_to (EMul (k 2) squared) (EMul (k 2) squared)) by self.
  assert (Q3 : simplifies_to (EMul (k 3) squared) (EMul (k 3) squared)) by self.
  assert (Q5 : simplifies_to (EMul (k 5) squared) (EMul (k 5) squared)) by self.
  assert (P3 : simplifies_to (EExp (v "x") (k 3)) (EExp (v "x") (k 3))) by self.
  assert (T3 : simplifies_to (EMul (k 3) (v "x")) (EMul (k 3) (v "x"))) by self.
  split; [apply (c96_add_logs _ _ _ _ _ _ L1 L2); reflexivity|].
  split; [apply (c96_sub_logs _ _ _ _ _ _ L1 L2); reflexivity|].
  split; [apply (c96_div_logs _ _ _ _ _ _ L1 L2); reflexivity|].
  split; [apply (c96_add_equal _ _ _ _ _ Q1 Q1); [reflexivity|unlike|unlike|unlike|unlike|discriminate|exact Q2]|].
  split; [apply (c96_add_multiples _ _ _ _ _ _ Q2 Q3); reflexivity|].
  split; [apply (c96_add_one_more _ _ _ _ _ Q2 Q1); [unlike|unlike|reflexivity|reflexivity]|].
  split; [apply (c96_sub_one_less _ _ _ _ _ _ Q3 Q1); [reflexivity|reflexivity|self]|].
  split; [apply (c96_sub_multiple _ _ _ _ _ _ Q1 Q3); [unlike|reflexivity|reflexivity|self]|].
  split; [apply (c96_sub_multiples _ _ _ _ _ _ _ Q5 Q3); [reflexivity|reflexivity|reflexivity|reflexivity|self]|].
  split.
  { apply (c96_sub_sum _ _ _ _ _ (EMul (k (-1)) (v "x")) (EMul (k (-1)) (v "y")) (EAdd (EMul (k (-1)) (v "x")) (EMul (k (-1)) (v "y"))) _ (var_self "z") xy_self);
      [unlike|reflexivity|self|self|self|self]. }
  split; [apply (c96_mul_by_power _ _ _ _ _ _ (var_self "x") Q1); [unlike|unlike|reflexivity|reflexivity|self]|].
  split; [apply (c96_mul_power_by _ _ _ _ _ _ Q1 (var_self "x")); [unlike|unlike|unlike|reflexivity|reflexivity|self]|].
  split; [apply (c96_mul_powers _ _ _ _ _ _ _ Q1 P3); [reflexivity|reflexivity|reflexivity|reflexivity|self]|].
  apply (c96_mul_multiple _ _ _ _ _ T3 (var_self "x")); [unlike|unlike|unlike|reflexivity|reflexivity].
Qed.

(** A difference survives simplification between matrices with different
    numbers of rows. *)
Example c96_case_difference :
  let M1 := EMat 1 1 [1%Q] in let M2 := EMat 2 1 [1; 2]%Q in
  exists m, simplifies_to (ESub (v "z") (ESub M1 M2)) m.
Proof.
  intros M1 M2. eexists. eapply (c96_sub_difference _ _ _ _ _ (EMat 1 1 [-1]%Q) M2 (EAdd (EMat 1 1 [-1]%Q) M2) _ (var_self "z")); cbv [M1 M2];
    [self|unlike|reflexivity|self|self|self|self].
Qed.
