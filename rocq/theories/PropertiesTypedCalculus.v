(** Properties C78 and C79: what the command line answers to a typed
    derivative dd(p, x) and to a typed integral in(p, x) of a polynomial. *)
From Coq Require Import String Ascii Bool Arith ZArith QArith Reals Lia Permutation Qreals.
From Coquelicot Require Import Coquelicot.
From Coq Require Import List.
From Flocq Require Import Core BinarySingleNaN.
From Verif Require Import Base Num Expr Ghost Simplify Calculus InFixSer FromInFix Frontends
  Spec SpecText SpecPoly SpecPolyInt SpecProd SpecQuot SpecLine SpecTyped QNum DoubleNum TreeProofs PowProofs SemProofs MonadProofs FuelProofs InFixProofs ProdProofs
  PolyProofs PolySem PolyDiff PolyDiffSem SumProofs PolyInt PolyIntSem LineProofs TypedProofs
  PropertiesSimplify PropertiesCalculus PropertiesPoly PropertiesPolyDiff PropertiesLinearPoly PropertiesIntegral PropertiesPolyInt
  PropertiesInFix PropertiesSafety PropertiesFrontends PropertiesOperators PropertiesTyped.
Import ListNotations.
Open Scope string_scope.
Open Scope Z_scope.
Open Scope list_scope.

Section Answer.
  Context {num : Type} {N : NumOps num} (lit : num -> Z -> Prop).
  Context (fmt5 : num -> string) (stof : string -> option num).

  (* a typed function call is answered by the text of what Simplify makes of it *)
  Lemma call_answer f o l ts x (e : expr num) : function f o -> call_text stof lit f l ts x ->
    from_infix stof true (preprocess (str l)) = ret e ->
    forall r t n, snd (simp n false e) = Ok r -> infix fmt5 r = inl t ->
    session fmt5 stof n [str l] = ([Success t], AtEof).
  Proof.
    intros Hf H P r t n Hr Ht. rewrite session_one.
    assert (K : exists c l', l = c :: l' ++ [")"%char] /\ ~ blank c /\ c <> "e"%char).
    { destruct H as [b0 b1 l ts b2 b3 c b4 _ _ _ _ _ _ _]. set (m := b1 ++ _).
      assert (E : exists m', b0 ++ "("%char :: m = m' ++ [")"%char]).
      { exists (b0 ++ "("%char :: b1 ++ l ++ b2 ++ ","%char :: b3 ++ c :: b4). unfold m.
        repeat (rewrite <- app_assoc; cbn [app]). reflexivity. }
      destruct E as (m' & ->). destruct Hf.
      all: match goal with |- exists c l', list_ascii_of_string (String ?a ?s) ++ _ = _ /\ _ =>
        exists a, (list_ascii_of_string s ++ m'); split; [cbn; reflexivity|split; [|discriminate]] end.
      all: intros Hb; apply is_space_blank in Hb; discriminate Hb. }
    destruct K as (c & l' & -> & Hc & He).
    rewrite (trim_solid c l' ")"%char Hc) by (intros Hb; apply is_space_blank in Hb; discriminate Hb).
    change (String.eqb (str (c :: l' ++ [")"%char])) "") with false. cbn iota.
    assert (Ex : String.eqb (str (c :: l' ++ [")"%char])) "exit" = false).
    { destruct (String.eqb_spec (str (c :: l' ++ [")"%char])) "exit") as [E|_]; [|reflexivity]. cbn in E. injection E as E _. contradiction. }
    rewrite Ex. unfold answer. rewrite P. cbn [snd ret]. rewrite Hr. now rewrite Ht.
  Qed.
  Lemma gives_fun prefer (e r s : expr num) : gives prefer e r -> gives prefer e s -> r = s.
  Proof.
    intros (n & H) (m & K). specialize (H (n + m)%nat ltac:(lia)). specialize (K (n + m)%nat ltac:(lia)). congruence.
  Qed.
End Answer.

(** ** C78: A typed derivative is answered with its terms combined *)
Definition C78_statement : Prop :=
  forall (num : Type) (N : NumOps num) lit ok, IntLits N lit ok -> squares N lit ok ->
  forall fmt5 stof, sane_numbers stof ->
  forall l ts x, call_text stof lit "dd" l ts x -> lowerable ok ts -> ok (weight ts) -> ok (weight (deriv x ts)) ->
  exists ls r t n0, sum_of ls r /\ collected lit ls (deriv x ts) /\ infix fmt5 r = inl t /\
    forall n, (n0 <= n)%nat -> session fmt5 stof n [str l] = ([Success t], AtEof).

(** dd(x^4+x^3-x^4-x^3, x) is not answered by 0: like terms are left in the
    answer. *)
Definition nothing_terms : list monomial := [(Some ("x", 4), 1); (Some ("x", 3), 1); (Some ("x", 4), -1); (Some ("x", 3), -1)].
Definition nothing_text : list ascii := list_ascii_of_string "dd(x^4+x^3-x^4-x^3,x)".
Lemma x_to s k : s = list_ascii_of_string ("x^" ++ k) -> forall z, numeral q_read q_int (list_ascii_of_string k) z -> z <> 0 -> z <> 1 ->
  term_text q_read q_int s (Some ("x", z), 1).
Proof. intros -> z Hz Z0 Z1. apply tt_power. apply (pt_pow _ _ "x"%char); auto. apply var_x. Qed.
Lemma x_4 : term_text q_read q_int (list_ascii_of_string "x^4") (Some ("x", 4), 1).
Proof. eapply (x_to _ "4"); [reflexivity|now apply (q_numeral "4")|discriminate|discriminate]. Qed.
Lemma x_3 : term_text q_read q_int (list_ascii_of_string "x^3") (Some ("x", 3), 1).
Proof. eapply (x_to _ "3"); [reflexivity|now apply (q_numeral "3")|discriminate|discriminate]. Qed.
Lemma nothing_call : call_text q_read q_int "dd" nothing_text nothing_terms "x".
Proof.
  apply (ct_call q_read q_int "dd" [] [] (list_ascii_of_string "x^4+x^3-x^4-x^3") nothing_terms [] [] "x"%char []);
    try apply blanks_nil; [|apply var_x].
  apply (lt_minus q_read q_int (list_ascii_of_string "x^4+x^3-x^4") (firstn 3 nothing_terms) [] [] (list_ascii_of_string "x^3") (Some ("x", 3), 1));
    try apply blanks_nil; [|apply x_3].
  apply (lt_minus q_read q_int (list_ascii_of_string "x^4+x^3") (firstn 2 nothing_terms) [] [] (list_ascii_of_string "x^4") (Some ("x", 4), 1));
    try apply blanks_nil; [|apply x_4].
  apply (lt_plus q_read q_int (list_ascii_of_string "x^4") (firstn 1 nothing_terms) [] [] (list_ascii_of_string "x^3") (Some ("x", 3), 1));
    try apply blanks_nil; [|apply x_3].
  apply lt_term, x_4.
Qed.
Lemma nothing_total k : total k (deriv "x" nothing_terms) = 0.
Proof.
  change (deriv "x" nothing_terms) with [(Some ("x", 3), 4); (Some ("x", 2), 3); (Some ("x", 3), -4); (Some ("x", 2), -3)].
  destruct k as [[y j]|]; [|reflexivity]. cbn -[Z.add Z.mul Z.eqb].
  destruct (String.eqb y "x"), (j =? 3), (j =? 2); reflexivity.
Qed.


Lemma list_app_string a b : list_ascii_of_string (a ++ b)%string = list_ascii_of_string a ++ list_ascii_of_string b.
Proof. induction a as [|c a IH]; cbn; [reflexivity|now rewrite IH]. Qed.
(* how often a character occurs in a text *)
Definition occurs (c : ascii) (t : string) : nat := count_occ ascii_dec (list_ascii_of_string t) c.
Lemma occurs_app c a b : occurs c (a ++ b)%string = (occurs c a + occurs c b)%nat.
Proof. unfold occurs. now rewrite list_app_string, count_occ_app. Qed.
Lemma occurs_bin {num} (fmt5 : num -> string) c o (a b : expr num) t : infix fmt5 (EBin o a b) = inl t ->
  exists ta tb, infix fmt5 a = inl ta /\ infix fmt5 b = inl tb /\ (occurs c ta + occurs c tb <= occurs c t)%nat.
Proof.
  cbn [infix]. destruct (infix fmt5 a) as [ta|]; [|discriminate]. destruct (infix fmt5 b) as [tb|]; [|discriminate].
  intros H. cbn in H. injection H as <-. exists ta, tb. split; [reflexivity|]. split; [reflexivity|].
  destruct o; unfold bin_text, arith, func; rewrite !occurs_app; lia.
Qed.
Lemma occurs_sum {num} (fmt5 : num -> string) c (w : expr num -> nat) d l r : tree_over OAdd d l r ->
  (forall e t, In e l -> infix fmt5 e = inl t -> (w e <= occurs c t)%nat) -> forall t, infix fmt5 r = inl t -> (list_sum (map w l) <= occurs c t)%nat.
Proof.
  induction 1 as [d e|d l1 l2 a b H1 IH1 H2 IH2]; intros H t Ht.
  - cbn. rewrite Nat.add_0_r. apply (H e); [now left|exact Ht].
  - destruct (occurs_bin fmt5 c OAdd a b t Ht) as (ta & tb & Ha & Hb & L). rewrite map_app, list_sum_app.
    assert (A : (list_sum (map w l1) <= occurs c ta)%nat) by (apply IH1; auto; intros e u Hi; apply H; apply in_or_app; now left).
    assert (B : (list_sum (map w l2) <= occurs c tb)%nat) by (apply IH2; auto; intros e u Hi; apply H; apply in_or_app; now right).
    lia.
Qed.

Lemma zero_shown (e : expr Q) k : term q_int true e (k, 0) -> forall t, infix q_show e = inl t -> (1 <= occurs "0" t)%nat.
Proof.
  assert (Z : forall c, q_int c 0 -> q_show c = "0").
  { intros c Hc. unfold q_int in Hc. unfold q_show. rewrite (proj2 (Qeq_bool_iff c 0) Hc).
    destruct (Qeq_bool c (inject_Z 2)) eqn:E2; [apply Qeq_bool_iff in E2; rewrite Hc in E2; discriminate E2|].
    destruct (Qeq_bool c (inject_Z (-1))) eqn:E3; [apply Qeq_bool_iff in E3; rewrite Hc in E3; discriminate E3|]. reflexivity. }
  intros H t Ht. remember (k, 0) as m eqn:Em. destruct H as [c z Hc|p x j Hp|c z p x j m' Hc Hp Hm].
  - injection Em as <- ->. cbn in Ht. rewrite (Z c Hc) in Ht. injection Ht as <-. cbn. lia.
  - discriminate Em.
  - injection Em as <- ->. assert (E : m' = EMul (EReal c) p) by (inversion Hm; subst; [reflexivity|congruence]). subst m'.
    cbn [infix] in Ht. destruct (infix q_show p) as [tp|]; [|discriminate Ht]. cbn in Ht. injection Ht as <-. rewrite (Z c Hc).
    change (String "(" ("0" ++ String "*" (tp ++ ")")))%string with ("(" ++ ("0" ++ ("*" ++ (tp ++ ")"))))%string.
    rewrite !occurs_app. cbn. lia.
Qed.
Lemma Forall2_left {A B} (P : A -> B -> Prop) l m a : Forall2 P l m -> In a l -> exists b, In b m /\ P a b.
Proof.
  induction 1 as [|a' b l m H F IH]; intros K; [destruct K|]. destruct K as [->|K]; [exists b; split; [now left|exact H]|].
  destruct (IH K) as (b' & I & Q). exists b'. split; [now right|exact Q].
Qed.
Theorem c78_refuted : ~ C78_statement.
Proof.
  intros S. destruct (S Q Q_ops q_int any q_ints q_squares q_show q_read (num_sane inject_Z) _ _ _ nothing_call) as (ls & r & t & n0 & Hs & (tl & Hf & Hd & Ht) & Hi & Hn).
  - intros y k _. exact I.
  - exact I.
  - exact I.
  - assert (O : (1 <= occurs "0" t)%nat).
    { destruct ls as [|e0 ls]; [cbn in Hs; subst r; cbn in Hi; injection Hi as <-; cbn; lia|]. destruct Hs as (d & Hs).
      apply Nat.le_trans with (list_sum (map (fun _ : expr Q => 1%nat) (e0 :: ls))); [cbn; lia|].
      apply (occurs_sum q_show "0"%char _ d (e0 :: ls) r Hs); [|exact Hi]. intros e u He Hu.
      destruct (Forall2_left _ _ _ _ Hf He) as ([k z] & Hk & Te).
      assert (z = 0) by (rewrite <- (total_nodup _ _ _ Hd Hk), Ht; apply nothing_total). subst z. eapply zero_shown; eauto. }
    assert (K : session q_show q_read 60 [str nothing_text] = ([Success "((((?*(x^?))+(?*(x^2)))+(?*(x^?)))+(?*(x^2)))"], AtEof)) by (vm_compute; reflexivity).
    specialize (Hn n0 (Nat.le_refl _)). rewrite (session_unique q_show q_read n0 60) in Hn.
    + rewrite K in Hn. injection Hn as <-. cbn in O. lia.
    + rewrite Hn. discriminate.
    + rewrite K. discriminate.
Qed.
Print Assumptions c78_refuted.

(** Proved when two or more terms of the polynomial are left, or it is a single
    term: the answer is the text of a sum with the coefficients of the
    derivative, and of the combined terms if there are two or more.  Missing:
    polynomials of several terms of which one or none is left (then the terms
    that cancel stay in the answer); derivatives of which one term is left are
    only known to have the right coefficients. *)
Theorem c78_typed_partial : forall (num : Type) (N : NumOps num) lit ok, IntLits N lit ok -> squares N lit ok ->
  forall fmt5 stof, sane_numbers stof ->
  forall l ts x, call_text stof lit "dd" l ts x -> lowerable ok ts -> ok (weight ts) -> ok (weight (deriv x ts)) ->
  two_left ts \/ length ts = 1%nat ->
  exists r tr t n0, SpecPoly.plain lit true r tr /\ same_polynomial tr (deriv x ts) /\
    (two_left (deriv x ts) -> exists ls, tree_over OAdd (Nat.log2_up (length ls)) ls r /\ combined lit ls (deriv x ts)) /\
    infix fmt5 r = inl t /\ forall n, (n0 <= n)%nat -> session fmt5 stof n [str l] = ([Success t], AtEof).
Proof.
  intros num N lit ok IL SQ fmt5 stof sane l ts x H Hk Hw Hwd H2.
  destruct (call_read stof lit sane ok false "dd" ODeriv l ts x fn_dd H) as (e & He & Ht & P).
  destruct (deriv_res lit ok IL SQ false false e ts x He) as (r & (n0 & G) & (tr & (Pr & St) & Rt)); auto.
  { destruct H2 as [H2|H2]; [now left|right; auto]. }
  destruct (plain_printed lit fmt5 true r tr Pr) as (t & Hi). exists r, tr, t, n0. split; [exact Pr|]. split; [intros k; apply Rt|]. split; [|split; [exact Hi|]].
  - intros H2'. destruct St as (ls & B & F & D); [now apply (refines_two_left _ _ Rt)|].
    exists ls. split; [now apply build_balanced|]. exists tr. split; [exact F|]. split; [exact D|apply Rt].
  - intros n L. eapply (call_answer lit fmt5 stof "dd" ODeriv); [constructor|exact H|exact P|now apply G|exact Hi].
Qed.
Print Assumptions c78_typed_partial.

(** The value of the answer is the derivative of the typed polynomial. *)
Theorem c78_value : forall (num : Type) (N : NumOps num) lit ok, IntLits N lit ok -> squares N lit ok ->
  forall toR, (forall c z, lit c z -> toR c = IZR z) ->
  forall fmt5 stof, sane_numbers stof ->
  forall l ts x, call_text stof lit "dd" l ts x -> lowerable ok ts -> ok (weight ts) -> ok (weight (deriv x ts)) ->
  two_left ts \/ length ts = 1%nat ->
  exists e r t n0, snd (from_infix stof true (preprocess (str l))) = Ok (EDeriv e (EVar x)) /\
    (forall rho f, denotes toR e x rho f -> exists v, is_derive f (rho x) v /\ ev toR r rho (RtoC v)) /\
    infix fmt5 r = inl t /\ forall n, (n0 <= n)%nat -> session fmt5 stof n [str l] = ([Success t], AtEof).
Proof.
  intros num N lit ok IL SQ toR HR fmt5 stof sane l ts x H Hk Hw Hwd H2.
  destruct (call_read stof lit sane ok false "dd" ODeriv l ts x fn_dd H) as (e & He & Ht & P).
  assert (H2' : two_left ts \/ term lit false e (hd (None, 0) ts) /\ length ts = 1%nat) by (destruct H2 as [H2|H2]; [now left|right; auto]).
  destruct (deriv_res lit ok IL SQ false false e ts x He H2' Hk Hw Hwd) as (r & (n0 & G) & (tr & (Pr & St) & Rt)).
  destruct (c67_value num N lit ok IL SQ toR HR false false e ts x He H2' Hk Hw Hwd) as (r' & G' & V).
  assert (E : r' = r) by (eapply gives_fun; [exact G'|now exists n0]). subst r'.
  destruct (plain_printed lit fmt5 true r tr Pr) as (t & Hi). exists e, r, t, n0. split; [now rewrite P|]. split; [exact V|]. split; [exact Hi|].
  intros n L. eapply (call_answer lit fmt5 stof "dd" ODeriv); [constructor|exact H|exact P|now apply G|exact Hi].
Qed.
Print Assumptions c78_value.

(** The same for doubles, if pow squares integers exactly. *)
Theorem c78_doubles : forall pw lg lgx, let N := double_ops pw lg (fun _ _ => true) lgx in
  (forall a z, d_int a z -> Z.abs (z * z) <= 2 ^ 53 -> d_int (pw a (d_of 2 0)) (z * z)) ->
  forall fmt5 stof, sane_numbers stof -> forall l ts x, call_text stof d_int "dd" l ts x ->
  (forall y k, In (Some (y, k)) (keys ts) -> Z.abs (k - 1) <= 2 ^ 53) -> weight ts <= 2 ^ 53 -> weight (deriv x ts) <= 2 ^ 53 ->
  two_left ts \/ length ts = 1%nat ->
  exists r tr t n0, SpecPoly.plain d_int true r tr /\ same_polynomial tr (deriv x ts) /\
    (two_left (deriv x ts) -> exists ls, tree_over OAdd (Nat.log2_up (length ls)) ls r /\ combined d_int ls (deriv x ts)) /\
    infix fmt5 r = inl t /\ forall n, (n0 <= n)%nat -> session fmt5 stof n [str l] = ([Success t], AtEof).
Proof.
  intros pw lg lgx N Hpw fmt5 stof sane l ts x H Hk Hw Hwd H2.
  apply (c78_typed_partial double N d_int d_ok (double_ints pw lg (fun _ _ => true) lgx)); auto.
  - intros a z Ha Hz. split; [now apply Hpw|reflexivity].
  - unfold d_ok. pose proof (weight_nonneg ts). lia.
  - unfold d_ok. pose proof (weight_nonneg (deriv x ts)). lia.
Qed.
Print Assumptions c78_doubles.

(** dd( 3x^4 - x^3 , x ) *)
Definition dd_terms : list monomial := [(Some ("x", 4), 3); (Some ("x", 3), -1)].
Definition dd_text : list ascii := list_ascii_of_string "dd( 3x^4 - x^3 , x )".
Lemma three_x4 : term_text q_read q_int (list_ascii_of_string "3x^4") (Some ("x", 4), 3).
Proof.
  apply (tt_juxtaposed _ _ ["3"%char] 3 (list_ascii_of_string "x^4") "x" 4); [now apply (q_numeral "3")|].
  apply (pt_pow _ _ "x"%char); [apply var_x|now apply (q_numeral "4")|discriminate|discriminate].
Qed.
Lemma dd_line : line_text q_read q_int (list_ascii_of_string "3x^4 - x^3") dd_terms.
Proof.
  apply (lt_minus q_read q_int (list_ascii_of_string "3x^4") [(Some ("x", 4), 3)] [" "%char] [" "%char] (list_ascii_of_string "x^3") (Some ("x", 3), 1));
    try apply one_blank; [|apply x_3]. apply lt_term, three_x4.
Qed.
Lemma spaced_call f : call_text q_read q_int f (list_ascii_of_string (f ++ "( 3x^4 - x^3 , x )")) dd_terms "x".
Proof.
  rewrite list_app_string.
  apply (ct_call q_read q_int f [] [" "%char] (list_ascii_of_string "3x^4 - x^3") dd_terms [" "%char] [" "%char] "x"%char [" "%char]);
    try apply one_blank; [apply blanks_nil|apply dd_line|apply var_x].
Qed.
Example c78_case : call_text q_read q_int "dd" dd_text dd_terms "x" /\ two_left dd_terms /\ two_left (deriv "x" dd_terms)
  /\ session q_show q_read 60 [str dd_text] = ([Success "((?*(x^?))+(?*(x^2)))"], AtEof).
Proof.
  split; [apply (spaced_call "dd")|]. split; [exists (Some ("x", 4)), (Some ("x", 3)); repeat split; discriminate|].
  split; [exists (Some ("x", 3)), (Some ("x", 2)); repeat split; discriminate|]. vm_compute. reflexivity.
Qed.

(** ** C79: A typed integral is answered with the integral of every term *)
Definition C79_statement : Prop :=
  forall (num : Type) (N : NumOps num) lit ok, IntLits N lit ok ->
  forall top, ok top -> Reciprocals N lit top ->
  forall fmt5 stof, sane_numbers stof ->
  forall l ts x, call_text stof lit "in" l ts x -> ok (weight ts) -> in_one_variable x top ts -> x <> "C" ->
  exists ls li d all r t n0, combined lit ls ts /\ List.Forall2 (integral_of x) ls li /\
    Permutation all (li ++ [EVar "C"]) /\ tree_over OAdd d all r /\ infix fmt5 r = inl t /\
    forall n, (n0 <= n)%nat -> session fmt5 stof n [str l] = ([Success t], AtEof).

(** In the answer to in(x+x^2+x^3+x^4+x^5+x^6+x^7, x) a term is missing. *)
Definition seven_terms : list monomial := map (fun k => (Some ("x", k), 1)) [1; 2; 3; 4; 5; 6; 7].
Definition seven_text : list ascii := list_ascii_of_string "in(x+x^2+x^3+x^4+x^5+x^6+x^7,x)".
Lemma seven_call : call_text q_read q_int "in" seven_text seven_terms "x".
Proof.
  apply (ct_call q_read q_int "in" [] [] (list_ascii_of_string "x+x^2+x^3+x^4+x^5+x^6+x^7") seven_terms [] [] "x"%char []);
    try apply blanks_nil; [|apply var_x].
  assert (A : forall s l ts k z, line_text q_read q_int l ts -> is_num k = true -> value k = z -> z <> 0 -> z <> 1 ->
     s = l ++ list_ascii_of_string ("+x^" ++ k) -> line_text q_read q_int s (ts ++ [(Some ("x", z), 1)])).
  { intros s l ts k z Hl H1 H2 Z0 Z1 ->.
    apply (lt_plus q_read q_int l ts [] [] (list_ascii_of_string ("x^" ++ k)) (Some ("x", z), 1)); try apply blanks_nil; [exact Hl|].
    eapply (x_to _ k); [reflexivity|now apply q_numeral|exact Z0|exact Z1]. }
  apply (A _ (list_ascii_of_string "x+x^2+x^3+x^4+x^5+x^6") (firstn 6 seven_terms) "7" 7); try reflexivity; try discriminate.
  apply (A _ (list_ascii_of_string "x+x^2+x^3+x^4+x^5") (firstn 5 seven_terms) "6" 6); try reflexivity; try discriminate.
  apply (A _ (list_ascii_of_string "x+x^2+x^3+x^4") (firstn 4 seven_terms) "5" 5); try reflexivity; try discriminate.
  apply (A _ (list_ascii_of_string "x+x^2+x^3") (firstn 3 seven_terms) "4" 4); try reflexivity; try discriminate.
  apply (A _ (list_ascii_of_string "x+x^2") (firstn 2 seven_terms) "3" 3); try reflexivity; try discriminate.
  apply (A _ (list_ascii_of_string "x") (firstn 1 seven_terms) "2" 2); try reflexivity; try discriminate.
  apply lt_term, tt_power, pt_var, var_x.
Qed.
Lemma integral_shows x (e i : expr Q) : integral_of (String x "") e i -> forall t, infix q_show i = inl t -> (1 <= occurs x t)%nat.
Proof.
  assert (V : forall t, infix q_show (EVar (String x "")) = inl t -> (1 <= occurs x t)%nat).
  { intros t H. injection H as <-. unfold occurs. cbn. destruct (ascii_dec x x); [lia|congruence]. }
  assert (P : forall c t, infix q_show (EExp (EVar (String x "")) (EReal c)) = inl t -> (1 <= occurs x t)%nat).
  { intros c t H. destruct (occurs_bin q_show x OExp _ _ t H) as (ta & tb & Ha & Hb & L). specialize (V ta Ha). lia. }
  assert (T : forall c p, (forall t, infix q_show p = inl t -> (1 <= occurs x t)%nat) -> forall t, infix q_show (times c p) = inl t -> (1 <= occurs x t)%nat).
  { intros c p Hp t H. unfold times in H. destruct (n_eqb c n1); [now apply Hp|].
    destruct (occurs_bin q_show x OMul _ _ t H) as (ta & tb & Ha & Hb & L). specialize (Hp tb Hb). lia. }
  intros H. destruct H; apply T; auto; intros; eapply P; eauto.
Qed.
(* 1 for every operand but C *)
Definition not_C (e : expr Q) : nat := match e with EVar y => if String.eqb y "C" then 0 else 1 | _ => 1 end.
Lemma integral_not_C (e i : expr Q) : integral_of "x" e i -> not_C i = 1%nat.
Proof. intros H. destruct H; unfold times; destruct (n_eqb _ n1); reflexivity. Qed.
Lemma integrals_not_C ls (li : list (expr Q)) : Forall2 (integral_of "x") ls li -> list_sum (map not_C li) = length li.
Proof. induction 1 as [|e i ls li H F IH]; [reflexivity|]. cbn [map list_sum fold_right length]. rewrite (integral_not_C _ _ H). now rewrite <- IH. Qed.
Lemma Forall2_right {A B} (P : A -> B -> Prop) l m b : Forall2 P l m -> In b m -> exists a, In a l /\ P a b.
Proof.
  induction 1 as [|a b' l m H F IH]; intros K; [destruct K|]. destruct K as [->|K]; [exists a; split; [now left|exact H]|].
  destruct (IH K) as (a' & I & Q). exists a'. split; [now right|exact Q].
Qed.
Lemma list_sum_perm l m : Permutation l m -> list_sum l = list_sum m.
Proof. unfold list_sum. induction 1; cbn [fold_right]; lia. Qed.
Theorem c79_refuted : ~ C79_statement.
Proof.
  intros S. destruct (S Q Q_ops q_int any q_ints (2 ^ 22) I q_reciprocals q_show q_read (num_sane inject_Z) _ _ _ seven_call I seven_in)
    as (ls & li & d & all & r & t & n0 & C & F & P & T & Hi & Hn); [discriminate|].
  assert (O : (7 <= occurs "x" t)%nat).
  { replace 7%nat with (list_sum (map not_C all)).
    - apply (occurs_sum q_show "x"%char not_C d all r T); [|exact Hi]. intros e u He Hu.
      apply (Permutation_in _ P), in_app_or in He. destruct He as [He|[<-|[]]].
      + destruct (Forall2_right _ _ _ _ F He) as (a & _ & Ia). rewrite (integral_not_C _ _ Ia). exact (integral_shows "x"%char a e Ia u Hu).
      + cbn. lia.
    - rewrite (list_sum_perm _ _ (Permutation_map not_C P)), map_app, list_sum_app, (integrals_not_C _ _ F).
      rewrite <- (Forall2_length _ _ _ F), (combined_count q_int _ _ C). reflexivity. }
  assert (K : session q_show q_read 200 [str seven_text] = ([Success "((((?*(x^?))+(?*(x^?)))+((?*(x^?))+(?*(x^?))))+(((?*(x^?))+(?*(x^2)))+C))"], AtEof)) by (vm_compute; reflexivity).
  specialize (Hn n0 (Nat.le_refl _)). rewrite (session_unique q_show q_read n0 200) in Hn.
  - rewrite K in Hn. injection Hn as <-. cbn in O. lia.
  - rewrite Hn. discriminate.
  - rewrite K. discriminate.
Qed.
Print Assumptions c79_refuted.

Section Integrals.
  Context {num : Type} {N : NumOps num} (lit : num -> Z -> Prop) (ok : Z -> Prop).
  Hypothesis IL : IntLits N lit ok.

  Lemma int_run (e e1 : expr num) x r : yields false e e1 -> integral_is e1 x r -> gives false (EInt e (EVar x)) r.
  Proof.
    intros (n1 & H1) (n2 & H2). exists (S (S (n1 + n2))). intros n L. destruct n as [|m]; [lia|].
    change (simp (S m) false (EInt e (EVar x))) with (visit_int (simp m false) (integ m) e (EVar x)). unfold visit_int.
    rewrite (operands_run _ _ _ _ e1 (EVar x)); [|eapply yields_ge; [exact H1|lia]|eapply (yields_ge false _ _ 1); [reflexivity|lia]].
    specialize (H2 m ltac:(lia)). destruct (integ m e1 (EVar x)) as [tr o]. cbn [snd] in H2. subst o. reflexivity.
  Qed.
  (* what a polynomial of two or more terms is simplified to *)
  Lemma poly_settles (e : expr num) ts : poly lit ok false false e ts -> ok (weight ts) -> two_left ts ->
    exists e1 tr, yields false e e1 /\ poly lit ok false false e1 tr /\ sum_or_difference e1 /\
      (forall k, total k tr = total k ts) /\ (forall p, In (Some p) (keys tr) -> In (Some p) (keys ts)) /\ ok (weight tr).
  Proof.
    intros He Hw H2. destruct (poly_yields lit ok IL false false e ts He Hw) as (r & Yr & (tr & (P & St) & Rt)).
    exists r, tr. split; [exact Yr|]. split; [now apply plain_poly|]. destruct St as (l & B & Fl & D); [now apply (refines_two_left _ _ Rt)|].
    split.
    - destruct P as [e1 t Ht|a b ta tb Ha Hb Hap]; [|exists a, b; now left]. exfalso.
      destruct (refines_two_left _ _ Rt) as [_ K]. destruct (K H2) as (k & k' & Nk & Hk & Hk'). apply total_in in Hk, Hk'. destruct t as [k0 z0].
      destruct Hk as [Hk|[]], Hk' as [Hk'|[]]. congruence.
    - destruct Rt as (Rt & Ri & Rw & _). split; [exact Rt|]. split; [exact Ri|]. eapply (il_ok_le _ _ _ IL); [exact Hw|].
      pose proof (weight_nonneg tr). lia.
  Qed.
  Lemma combined_totals ls tr ts : (forall k, total k tr = total k ts) -> combined lit ls tr -> combined lit ls ts.
  Proof. intros E (tl & F & D & T). exists tl. split; [exact F|]. split; [exact D|]. intros k. now rewrite T. Qed.
  Lemma integral_matrix x (e i : expr num) : integral_of x e i -> ~ contains_matrix i.
  Proof. intros H. destruct H; unfold times; destruct (n_eqb _ n1); cbn; tauto. Qed.
  Lemma integrals_matrix x ls (li : list (expr num)) : Forall2 (integral_of x) ls li -> List.Forall (fun e => ~ contains_matrix e) li.
  Proof. intros H. induction H; constructor; eauto using integral_matrix. Qed.
  (* a single term that is not 0 *)
  Lemma one_settles (e : expr num) t : term lit false e t -> snd t <> 0 -> exists e1, yields false e e1 /\ neat lit e1 t.
  Proof.
    intros H Hz. destruct H as [c z Hc|p y k Hp|c z p y k m Hc Hp Hm]; cbn [snd] in Hz.
    - exists (EReal c). split; [exists 1%nat; reflexivity|now constructor].
    - exists p. split; [eapply yields_power; eauto|now constructor].
    - destruct Hm; [|discriminate]. eexists. split; [eapply (yields_multiple lit ok IL false false); [exact Hc|exact Hp|apply ml_pre]|].
      unfold scaled. destruct (Z.eqb_spec z 0) as [->|Z0]; [now destruct Hz|]. destruct (Z.eqb_spec z 1) as [->|Z1]; now constructor.
  Qed.

  Variable top : Z.
  Hypothesis Hok : ok top.
  Hypothesis RC : Reciprocals N lit top.
  Lemma int_poly x (e : expr num) ts : poly lit ok false false e ts -> ok (weight ts) -> two_left ts -> in_one_variable x top ts -> x <> "C" ->
    exists l li kept lost r, combined lit l ts /\ List.Forall2 (integral_of x) l li /\
      Permutation (kept ++ lost) li /\ length kept = two_digits (terms_left ts) /\
      tree_over OAdd (Nat.log2_up (S (length kept))) (kept ++ [EVar "C"]) r /\ gives false (EInt e (EVar x)) r.
  Proof.
    intros He Hw H2 Hv Hx. destruct (poly_settles e ts He Hw H2) as (e1 & tr & Y & P & Sd & T & Ik & Wr).
    assert (H2' : two_left tr) by (destruct H2 as (k & j & H2 & H3 & H4); exists k, j; rewrite !T; auto).
    assert (Hv' : in_one_variable x top tr) by (intros y k Hi; apply Hv; now apply Ik).
    destruct (c73_terms num N lit ok IL top Hok RC false e1 tr x P Sd Wr H2' Hv' Hx) as (l & li & kept & lost & r & C & L & F & Pm & Lk & Ir & Tr).
    apply (combined_totals l tr ts T) in C. pose proof (combined_count lit _ _ C) as L'. rewrite <- L, L' in Lk.
    exists l, li, kept, lost, r. repeat split; auto. eapply int_run; eauto.
  Qed.
  Lemma kept_matrix x l li kept lost : List.Forall2 (integral_of x) l li -> Permutation (kept ++ lost) li ->
    List.Forall (fun e : expr num => ~ contains_matrix e) (kept ++ [EVar "C"]).
  Proof.
    intros F P. apply integrals_matrix in F. apply (Permutation_Forall (Permutation_sym P)), List.Forall_app in F. destruct F as [F _].
    apply List.Forall_app. split; [exact F|]. constructor; [cbn; tauto|constructor].
  Qed.
End Integrals.

(** Proved when two or more terms of the polynomial are left: the answer is the
    text of a balanced sum of C and integrals of its terms; of all terms if
    their number is a power of two or the sum of two powers of two, otherwise of
    as many as [two_digits] says.  Missing: polynomials of several terms of
    which one or none is left; other variables in the polynomial. *)
Theorem c79_typed_partial : forall (num : Type) (N : NumOps num) lit ok, IntLits N lit ok ->
  forall top, ok top -> Reciprocals N lit top ->
  forall fmt5 stof, sane_numbers stof ->
  forall l ts x, call_text stof lit "in" l ts x -> ok (weight ts) -> two_left ts -> in_one_variable x top ts -> x <> "C" ->
  exists ls li kept lost r t n0, combined lit ls ts /\ List.Forall2 (integral_of x) ls li /\
    Permutation (kept ++ lost) li /\ length kept = two_digits (terms_left ts) /\
    tree_over OAdd (Nat.log2_up (S (length kept))) (kept ++ [EVar "C"]) r /\ infix fmt5 r = inl t /\
    forall n, (n0 <= n)%nat -> session fmt5 stof n [str l] = ([Success t], AtEof).
Proof.
  intros num N lit ok IL top Hok RC fmt5 stof sane l ts x H Hw H2 Hv Hx.
  destruct (call_read stof lit sane ok false "in" OInt l ts x fn_in H) as (e & He & _ & P).
  destruct (int_poly lit ok IL top Hok RC x e ts He Hw H2 Hv Hx) as (ls & li & kept & lost & r & C & F & Pm & Lk & T & (n0 & G)).
  destruct (proj2 (c36_total fmt5 r)) as (t & Hi); [eapply tree_matrix; [exact T|eapply kept_matrix; eauto]|].
  exists ls, li, kept, lost, r, t, n0. repeat split; auto.
  intros n L. eapply (call_answer lit fmt5 stof "in" OInt); [constructor|exact H|exact P|now apply G|exact Hi].
Qed.
Print Assumptions c79_typed_partial.

(** A single term is integrated whatever its power. *)
Theorem c79_term : forall (num : Type) (N : NumOps num) lit ok, IntLits N lit ok ->
  forall top, ok top -> Reciprocals N lit top ->
  forall fmt5 stof, sane_numbers stof ->
  forall l k z x, call_text stof lit "in" l [(k, z)] x -> z <> 0 -> in_one_variable x top [(k, z)] -> x <> "C" ->
  exists e i t n0, neat lit e (k, z) /\ integral_of x e i /\ infix fmt5 (EAdd i (EVar "C")) = inl t /\
    forall n, (n0 <= n)%nat -> session fmt5 stof n [str l] = ([Success t], AtEof).
Proof.
  intros num N lit ok IL top Hok RC fmt5 stof sane l k z x H Hz Hv Hx.
  destruct (call_read stof lit sane ok false "in" OInt l _ x fn_in H) as (e & _ & Ht & P). specialize (Ht eq_refl). cbn [hd] in Ht.
  destruct (one_settles lit ok IL e (k, z) Ht Hz) as (e1 & Y & Ne).
  destruct (c73_term num N lit ok IL top Hok RC e1 (k, z) x Ne Hv Hx) as (i & Ii & Ir).
  destruct (int_run e e1 x _ Y Ir) as (n0 & G).
  destruct (proj2 (c36_total fmt5 (EAdd i (EVar "C")))) as (t & Hi); [cbn; pose proof (integral_matrix x e1 i Ii); tauto|].
  exists e1, i, t, n0. repeat split; auto.
  intros n L. eapply (call_answer lit fmt5 stof "in" OInt); [constructor|exact H|exact P|now apply G|exact Hi].
Qed.
Print Assumptions c79_term.

(** The value of the answer, for exact numbers: it is an antiderivative of the
    typed polynomial exactly if the number of terms left is a power of two or
    the sum of two powers of two. *)
Theorem c79_value : forall (num : Type) (N : NumOps num) lit ok, IntLits N lit ok ->
  forall toR, Exact N toR -> (forall c z, lit c z -> toR c = IZR z) ->
  forall top, ok top -> Reciprocals N lit top ->
  forall fmt5 stof, sane_numbers stof ->
  forall l ts x, call_text stof lit "in" l ts x -> ok (weight ts) -> two_left ts -> in_one_variable x top ts -> x <> "C" ->
  exists e r t n0, snd (from_infix stof true (preprocess (str l))) = Ok (EInt e (EVar x)) /\
    ((forall rho, antiderivative_at toR x rho e r) <-> two_powers (terms_left ts)) /\ infix fmt5 r = inl t /\
    forall n, (n0 <= n)%nat -> session fmt5 stof n [str l] = ([Success t], AtEof).
Proof.
  intros num N lit ok IL toR EX HR top Hok RC fmt5 stof sane l ts x H Hw H2 Hv Hx.
  destruct (call_read stof lit sane ok false "in" OInt l ts x fn_in H) as (e & He & _ & P).
  destruct (int_poly lit ok IL top Hok RC x e ts He Hw H2 Hv Hx) as (ls & li & kept & lost & r & C & F & Pm & Lk & T & G).
  destruct (poly_settles lit ok IL e ts He Hw H2) as (e1 & tr & Y & P1 & Sd & Tt & Ik & Wr).
  assert (H2' : two_left tr) by (destruct H2 as (k & j & H2 & H3 & H4); exists k, j; rewrite !Tt; auto).
  assert (Hv' : in_one_variable x top tr) by (intros y k Hi; apply Hv; now apply Ik).
  destruct (c73_exact num N lit ok IL toR EX HR top Hok RC false e1 tr x P1 Sd Wr H2' Hv' Hx) as (r' & Ir & V).
  assert (E : r' = r) by (eapply gives_fun; [eapply int_run; eauto|exact G]). subst r'.
  assert (Ct : combined lit ls tr) by (eapply combined_totals; [intros k; symmetry; apply Tt|exact C]).
  rewrite <- (combined_count lit _ _ Ct), (combined_count lit _ _ C) in V.
  destruct (proj2 (c36_total fmt5 r)) as (t & Hi); [eapply tree_matrix; [exact T|eapply kept_matrix; eauto]|].
  assert (Kok : forall rho ts', (forall p, In (Some p) (keys ts') -> In (Some p) (keys ts)) -> forall p, In (Some p) (keys ts') -> kok rho p).
  { intros rho ts' Hs [y k] Hp. destruct (Hv y k (Hs _ Hp)). split; cbn; [lia|right; lia]. }
  assert (Same : forall rho v, ev toR e rho v <-> ev toR e1 rho v).
  { intros rho v. split; intros Hv0.
    - destruct (ev_poly lit ok toR HR rho false false e ts He v Hv0) as [_ ->]. rewrite <- (csum_totals rho tr ts Tt).
      eapply ev_poly_conv; eauto.
    - destruct (ev_poly lit ok toR HR rho false false e1 tr P1 v Hv0) as [_ ->]. rewrite (csum_totals rho tr ts Tt).
      eapply ev_poly_conv; eauto. }
  destruct G as (n0 & G). exists e, r, t, n0. split; [now rewrite P|]. split; [|split; [exact Hi|]].
  - rewrite <- V. split; intros A rho f Hf; apply (A rho f); unfold PropertiesIntegral.is_function in *; revert Hf; apply filter_imp; intros s; apply Same.
  - intros n L. eapply (call_answer lit fmt5 stof "in" OInt); [constructor|exact H|exact P|now apply G|exact Hi].
Qed.
Print Assumptions c79_value.

(** The same for doubles. *)
Theorem c79_doubles : forall pw lg pwx lgx, let N := double_ops pw lg pwx lgx in
  forall fmt5 stof, sane_numbers stof -> forall l ts x, call_text stof d_int "in" l ts x -> weight ts <= 2 ^ 53 -> two_left ts -> in_one_variable x (2 ^ 22) ts -> x <> "C" ->
  exists ls li kept lost r t n0, combined d_int ls ts /\ List.Forall2 (integral_of x) ls li /\
    Permutation (kept ++ lost) li /\ length kept = two_digits (terms_left ts) /\
    tree_over OAdd (Nat.log2_up (S (length kept))) (kept ++ [EVar "C"]) r /\ infix fmt5 r = inl t /\
    forall n, (n0 <= n)%nat -> session fmt5 stof n [str l] = ([Success t], AtEof).
Proof.
  intros pw lg pwx lgx N fmt5 stof sane l ts x H Hw H2 Hv Hx. apply (c79_typed_partial double N d_int d_ok (double_ints pw lg pwx lgx) (2 ^ 22)); auto.
  - unfold d_ok. lia.
  - apply d_reciprocals.
  - unfold d_ok. pose proof (weight_nonneg ts). lia.
Qed.
Print Assumptions c79_doubles.

(** in( 3x^4 - x^3 , x ) and in(3x^4,x) *)
Definition in_text : list ascii := list_ascii_of_string "in( 3x^4 - x^3 , x )".
Example c79_case : call_text q_read q_int "in" in_text dd_terms "x" /\ two_left dd_terms /\ in_one_variable "x" (2 ^ 22) dd_terms
  /\ terms_left dd_terms = 2%nat /\ session q_show q_read 60 [str in_text] = ([Success "(((?*(x^?))+(?*(x^?)))+C)"], AtEof).
Proof.
  split; [apply (spaced_call "in")|]. split; [exists (Some ("x", 4)), (Some ("x", 3)); repeat split; discriminate|].
  split; [|split; vm_compute; reflexivity].
  intros y k H. cbn in H. repeat (destruct H as [H|H]; [injection H as <- <-; split; [reflexivity|lia]|]). destruct H.
Qed.
Example c79_term_case : call_text q_read q_int "in" (list_ascii_of_string "in(3x^4,x)") [(Some ("x", 4), 3)] "x"
  /\ in_one_variable "x" (2 ^ 22) [(Some ("x", 4), 3)]
  /\ session q_show q_read 60 ["in(3x^4,x)"] = ([Success "((?*(x^?))+C)"], AtEof).
Proof.
  split; [|split].
  - apply (ct_call q_read q_int "in" [] [] (list_ascii_of_string "3x^4") [(Some ("x", 4), 3)] [] [] "x"%char []);
      try apply blanks_nil; [apply lt_term, three_x4|apply var_x].
  - intros y k H. cbn in H. destruct H as [H|[]]. injection H as <- <-. split; [reflexivity|lia].
  - vm_compute. reflexivity.
Qed.
