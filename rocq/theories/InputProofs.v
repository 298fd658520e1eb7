(** The infix reader on typed expressions (SpecInput.v). *)
From Coq Require Import String Ascii Bool Arith ZArith Lia List.
From Verif Require Import Base Num Expr SpecText SpecPoly SpecLine SpecInput FromInFix InFixProofs LineProofs PropertiesFrontends.
Import ListNotations.
Open Scope string_scope.
Open Scope list_scope.

(* the pieces with their signs, computed *)
Definition punct_b (t : string) : bool := match t with String c "" => is_special c | _ => false end.
Definition ends_b (t : string) : bool := String.eqb t ")" || negb (punct_b t) && negb (is_some (is_function t)).
Definition starts_b (t : string) : bool := String.eqb t "(" || negb (punct_b t).
Fixpoint mtail (p : string) (ps : list string) : list string :=
  match ps with
  | [] => []
  | q :: ps => (if ends_b p && starts_b q then ["*"] else []) ++ q :: mtail q ps
  end.

Lemma punct_b_spec t : punct_b t = true <-> punctuation t.
Proof.
  split.
  - destruct t as [|c [|]]; cbn; try discriminate. intros H. exists c. split; [reflexivity|]. now apply special_punct.
  - intros (c & -> & H). cbn. now apply punct_special.
Qed.
Lemma function_b_spec t : is_some (is_function t) = true <-> function_name t.
Proof.
  unfold is_function. split.
  - destruct (String.eqb_spec t "log") as [->|]; [intros _; exists OLog; constructor|].
    destruct (String.eqb_spec t "dd") as [->|]; [intros _; exists ODeriv; constructor|].
    destruct (String.eqb_spec t "in") as [->|]; [intros _; exists OInt; constructor|]. discriminate.
  - intros (o & H). destruct H; reflexivity.
Qed.
Lemma not_true b : b = false <-> b <> true.
Proof. destruct b; split; congruence. Qed.
Lemma ends_b_spec t : ends_b t = true <-> ends_operand t.
Proof.
  unfold ends_b, ends_operand. rewrite orb_true_iff, andb_true_iff, !negb_true_iff, String.eqb_eq, !not_true, punct_b_spec, function_b_spec. tauto.
Qed.
Lemma starts_b_spec t : starts_b t = true <-> starts_operand t.
Proof. unfold starts_b, starts_operand. rewrite orb_true_iff, negb_true_iff, String.eqb_eq, not_true, punct_b_spec. tauto. Qed.

Lemma multiplied_mtail ps us : multiplied ps us -> match ps with [] => us = [] | p :: ps => us = p :: mtail p ps end.
Proof.
  induction 1 as [|t|t u ps us He Hs H IH|t u ps us Hn H IH]; try reflexivity; subst; cbn [mtail].
  - apply ends_b_spec in He. apply starts_b_spec in Hs. now rewrite He, Hs.
  - destruct (ends_b t) eqn:E; [|reflexivity]. destruct (starts_b u) eqn:E'; [|reflexivity].
    exfalso. apply Hn. split; [now apply ends_b_spec|now apply starts_b_spec].
Qed.
Lemma mtail_app qs : forall p ps, mtail p (qs ++ ps) = mtail p qs ++ mtail (last qs p) ps.
Proof.
  induction qs as [|q qs IH]; intros p ps; [reflexivity|]. cbn [app mtail]. rewrite IH, <- app_assoc. cbn [app].
  replace (last (q :: qs) p) with (last qs q); [reflexivity|]. destruct qs as [|r qs]; [reflexivity|].
  cbn [last]. destruct qs; [reflexivity|]. clear. revert s. induction qs as [|x qs IH]; intros s; [reflexivity|]. cbn [last] in *. apply IH.
Qed.

(* pieces of words *)
Definition is_piece (p : string) : Prop := punct_b p = false /\ is_function p = None /\ is_operator p = None /\ p <> "" .
Lemma piece_ends p : is_piece p -> ends_b p = true.
Proof. intros (H1 & H2 & _). unfold ends_b. rewrite H1, H2. cbn. apply orb_true_r. Qed.
Lemma piece_starts p : is_piece p -> starts_b p = true.
Proof. intros (H1 & _). unfold starts_b. rewrite H1. apply orb_true_r. Qed.
Lemma digit_b c : digit c -> is_digit c = true.
Proof. unfold digit, is_digit. intros H. apply andb_true_iff. split; apply Nat.leb_le; lia. Qed.
Lemma letter_b c : letter c -> is_letter c = true.
Proof. unfold letter, is_letter. intros H. apply orb_true_iff. destruct H; [left|right]; apply andb_true_iff; split; apply Nat.leb_le; lia. Qed.
Lemma point_not_letter c : digit_or_point c -> is_letter c = false.
Proof.
  intros [H| ->]; [|reflexivity]. unfold is_letter. apply orb_false_iff. split; apply andb_false_iff; left; apply Nat.leb_gt; lia.
Qed.
Lemma usual c : letter c \/ digit_or_point c -> ~ punct c /\ ~ blank c.
Proof.
  intros H. split; intros K.
  - cbn in K. repeat (destruct K as [<-|K]; [destruct H as [H|[H|H]]; [cbv in H; lia|cbv in H; lia|discriminate]|]). destruct K.
  - unfold blank in K. cbn [In] in K. destruct H as [H|[H|H]]; [unfold letter in H; lia|lia|subst c; cbv in K; lia].
Qed.
Lemma not_special c : letter c \/ digit_or_point c -> is_special c = false.
Proof. intros H. apply plain_special. now apply usual. Qed.

Lemma letter_piece c : letter c -> is_piece (String c "").
Proof.
  intros H. assert (S : is_special c = false) by (apply not_special; now left).
  split; [exact S|]. split; [|split; [|discriminate]].
  - unfold is_function. repeat match goal with |- context [String.eqb ?a ?b] => destruct (String.eqb_spec a b) as [E|_]; [discriminate E|] end. reflexivity.
  - unfold is_operator. repeat match goal with |- context [String.eqb ?a ?b] => destruct (String.eqb_spec a b) as [E|_]; [injection E as ->; discriminate S|] end. reflexivity.
Qed.
Lemma number_piece n : number_text n -> is_piece (str n).
Proof.
  intros (_ & (c & l & -> & Hc) & _). assert (S : is_special c = false) by (apply not_special; right; left; exact Hc). cbn.
  split; [cbn; destruct (str l); [exact S|reflexivity]|]. split; [|split; [|discriminate]].
  - unfold is_function. repeat match goal with |- context [String.eqb ?a ?b] => destruct (String.eqb_spec a b) as [E|_]; [injection E as -> _; cbv in Hc; lia|] end. reflexivity.
  - unfold is_operator. repeat match goal with |- context [String.eqb ?a ?b] => destruct (String.eqb_spec a b) as [E|_]; [injection E as -> _; discriminate S|] end. reflexivity.
Qed.
Lemma cut_pieces l qs : cut l qs -> Forall is_piece qs.
Proof. induction 1; constructor; auto using letter_piece, number_piece. Qed.
Lemma cut_usual l qs : cut l qs -> forall c, In c l -> letter c \/ digit_or_point c.
Proof.
  induction 1 as [|c l ps Hc H IH|n l ps Hn Hl H IH]; intros x Hx; [destruct Hx|destruct Hx as [<-|Hx]; auto|].
  apply in_app_or in Hx. destruct Hx as [Hx|Hx]; [right; now apply Hn|auto].
Qed.
Lemma cut_word l qs : cut l qs -> l <> [] -> word l.
Proof. intros H Hn. split; [exact Hn|]. intros c Hc. now apply usual, (cut_usual l qs H). Qed.

Lemma expand_number n l : number_text n -> match l with [] => True | c :: _ => letter c end ->
  expand (n ++ l) = n ++ match l with [] => [] | _ => "*"%char :: expand l end.
Proof.
  intros (Hn & _ & Hlast) Hl. destruct Hlast as (l' & d & E & Hd). subst n.
  assert (Hl' : forall c, In c l' -> digit_or_point c) by (intros c Hc; apply Hn; apply in_or_app; now left). clear Hn.
  induction l' as [|c l' IH].
  - cbn [app]. destruct l as [|x l]; [reflexivity|]. rewrite expand_cons. rewrite (digit_b d Hd), (letter_b x Hl).
    rewrite (point_not_letter d) by (left; exact Hd). reflexivity.
  - cbn [app]. destruct (l' ++ [d]) as [|y r] eqn:E; [destruct l'; discriminate|].
    assert (Hy : digit_or_point y).
    { destruct l' as [|z l'']; cbn in E; injection E as -> _; [left; exact Hd|apply Hl'; right; now left]. }
    cbn [app] in IH |- *. rewrite expand_cons. rewrite (point_not_letter y Hy), (point_not_letter c) by (apply Hl'; now left).
    rewrite !andb_false_r. cbn [andb orb app]. f_equal. rewrite IH; [reflexivity|]. intros x Hx. apply Hl'. now right.
Qed.

Lemma cut_nonempty l qs : cut l qs -> l <> [] -> exists q qs', qs = q :: qs'.
Proof. intros H Hn. destruct H; [congruence|eauto|eauto]. Qed.
Lemma cut_nil_inv qs : cut [] qs -> qs = [].
Proof.
  intros H. remember [] as l eqn:E. destruct H as [|c l ps Hc H|n l ps (_ & (x & y & -> & _) & _) Hl H]; [reflexivity|discriminate|discriminate].
Qed.
Lemma cut_none_inv l : cut l [] -> l = [].
Proof. intros H. inversion H. reflexivity. Qed.
Lemma cut_one l q : cut l [q] -> q = str l.
Proof.
  intros H. remember [q] as qs eqn:E. destruct H as [|c l ps Hc H|n l ps Hn Hl H]; [discriminate| |]; injection E as <- ->; apply cut_none_inv in H; subst l.
  - reflexivity.
  - now rewrite app_nil_r.
Qed.
Lemma wd_expand_cut l qs : cut l qs -> l <> [] -> match qs with [] => False | q :: qs => wd (expand l) = q :: mtail q qs end.
Proof.
  induction 1 as [|c l ps Hc H IH|n l ps Hn Hl H IH]; intros Hne; [congruence| |].
  - pose proof (letter_piece c Hc) as Pc. destruct l as [|d l].
    + apply cut_nil_inv in H. subst ps. cbn [mtail]. change (expand [c]) with [c].
      apply (wd_word [c]). split; [discriminate|]. intros x [<-|[]]. apply usual. now left.
    + destruct (cut_nonempty _ _ H ltac:(discriminate)) as (q & qs & ->). specialize (IH ltac:(discriminate)).
      assert (E : expand (c :: d :: l) = [c] ++ "*"%char :: expand (d :: l)).
      { rewrite expand_cons. rewrite (letter_b c Hc).
        assert (Hd : letter d \/ digit d).
        { inversion H as [|x y z Hx|n y z Hn _ _ E']; subst; [now left|]. destruct Hn as (_ & (x & r & -> & Hx) & _). injection E' as -> _. now right. }
        destruct (is_digit c) eqn:D; [exfalso; eapply digit_letter; [exact D|now apply letter_b]|].
        destruct Hd as [Hd|Hd].
        - rewrite (letter_b d Hd). destruct (is_digit d) eqn:D'; [exfalso; eapply digit_letter; [exact D'|now apply letter_b]|]. reflexivity.
        - rewrite (digit_b d Hd), (point_not_letter d) by now left. reflexivity. }
      rewrite E, wd_special by reflexivity. rewrite IH, (wd_word [c]).
      * pose proof (cut_pieces _ _ H) as F. apply Forall_inv in F. cbn [mtail app str]. now rewrite (piece_ends _ Pc), (piece_starts _ F).
      * split; [discriminate|]. intros x [<-|[]]. apply usual. now left.
  - pose proof (number_piece n Hn) as Pn. rewrite expand_number by assumption.
    assert (Wn : word n).
    { split; [destruct Hn as (_ & (x & y & -> & _) & _); discriminate|]. intros x Hx. apply usual. right. now apply Hn. }
    destruct l as [|d l].
    + rewrite app_nil_r. rewrite (wd_word n Wn). apply cut_nil_inv in H. subst ps. reflexivity.
    + destruct (cut_nonempty _ _ H ltac:(discriminate)) as (q & qs & ->). specialize (IH ltac:(discriminate)).
      rewrite wd_special by reflexivity. rewrite IH, (wd_word n Wn).
      pose proof (cut_pieces _ _ H) as F. apply Forall_inv in F. cbn [mtail app]. now rewrite (piece_ends _ Pn), (piece_starts _ F).
Qed.

(* a word before the next one, and its last piece *)
Definition link (t p : string) : Prop :=
  t = p /\ (punct_b t = true \/ is_some (is_function t) = true) \/
  is_piece p /\ punct_b t = false /\ is_function t = None /\ is_operator t = None /\ t <> "".

Lemma operator_punct t o : is_operator t = Some o -> punct_b t = true.
Proof.
  unfold is_operator. repeat match goal with |- context [String.eqb ?a ?b] => destruct (String.eqb_spec a b) as [->|_]; [reflexivity|] end. discriminate.
Qed.
Lemma function_not_punct t : is_some (is_function t) = true -> punct_b t = false.
Proof.
  unfold is_function. repeat match goal with |- context [String.eqb ?a ?b] => destruct (String.eqb_spec a b) as [->|_]; [reflexivity|] end. discriminate.
Qed.
Lemma str_list t : str (list_ascii_of_string t) = t.
Proof. apply string_of_list_ascii_of_string. Qed.
Lemma special_cases c : is_special c = true -> (exists o, is_operator (String c "") = Some o) \/ c = "("%char \/ c = ")"%char \/ c = ","%char.
Proof.
  unfold is_special. cbn [existsb]. rewrite !orb_true_iff.
  repeat (intros [H|H]; [apply Ascii.eqb_eq in H; subst; eauto 6; left; eexists; reflexivity|revert H]). discriminate.
Qed.

Lemma clear_tail t ts : clear (t :: ts) -> clear ts.
Proof.
  intros [S H]. split; [destruct ts; [exact I|apply S]|]. intros ts1 a b ts2 E. apply (H (t :: ts1) a b ts2). now rewrite E.
Qed.

Lemma wd_nil_l : wd [] = [].
Proof. reflexivity. Qed.

Theorem implicit_mtail ts ps : lexemes ts ps -> forall t p, link t p -> clear (t :: ts) -> wd (implicit t ts) = mtail p ps.
Proof.
  induction 1 as [|u ts ps Hu H IH|u ts ps Hu H IH|u ts qs ps Hnf Hne Hc H IH]; intros t p L C.
  - reflexivity.
  - (* punctuation *)
    assert (Pb : punct_b u = true) by now apply punct_b_spec.
    specialize (IH u u (or_introl (conj eq_refl (or_introl Pb))) (clear_tail _ _ C)).
    destruct Hu as (c & -> & Hc). apply punct_special in Hc. cbn [mtail]. rewrite <- IH.
    destruct (proj2 C [] t (String c "") ts eq_refl) as (C1 & C2 & C3 & _).
    cbn [implicit list_ascii_of_string]. destruct (special_cases c Hc) as [(o & Ho)|[->|[->| ->]]].
    + assert (F : is_function (String c "") = None).
      { destruct (is_function (String c "")) as [o'|] eqn:F; [|reflexivity]. exfalso. assert (K : is_some (is_function (String c "")) = true) by now rewrite F.
        apply function_not_punct in K. congruence. }
      rewrite F, Ho. cbn [is_some orb andb app].
      replace (starts_b (String c "")) with false.
      2:{ unfold starts_b. rewrite Pb. destruct (String.eqb_spec (String c "") "(") as [E|_]; [|reflexivity]. injection E as ->. discriminate Ho. }
      rewrite andb_false_r. cbn [app]. rewrite (wd_punct c _ Hc). reflexivity.
    + change (is_some (is_function "(") || is_some (is_operator "(")) with false. cbn iota.
      change (String.eqb "(" ",") with false. change (String.eqb "(" "(") with true. change (starts_b "(") with true. cbn [negb]. rewrite !andb_true_r.
      destruct L as [(<- & [Lp|Lf])|(Lp & L1 & L2 & L3 & L4)].
      * destruct t as [|d [|]]; try discriminate Lp. change (is_special d = true) in Lp. destruct (special_cases d Lp) as [(o & Ho)|[->|[->| ->]]].
        -- destruct (String.eqb_spec (String d "") ")") as [E|_]; [injection E as ->; discriminate Ho|].
           rewrite Ho. cbn [is_some negb]. rewrite andb_false_r. unfold ends_b. cbn [punct_b]. rewrite Lp.
           destruct (String.eqb_spec (String d "") ")") as [E|_]; [injection E as ->; discriminate Ho|]. cbn [orb negb andb app]. apply (wd_punct "("%char). reflexivity.
        -- exfalso. apply C1. now split.
        -- change (String.eqb ")" ")") with true. cbn iota. change (ends_b ")") with true. cbn [app].
           rewrite (wd_punct "*"%char) by reflexivity. now rewrite (wd_punct "("%char) by reflexivity.
        -- exfalso. apply C3. now split.
      * unfold ends_b. rewrite Lf. destruct (String.eqb_spec t ")") as [->|_]; [discriminate Lf|]. cbn [negb]. rewrite !andb_false_r. cbn [andb orb app].
        apply (wd_punct "("%char). reflexivity.
      * rewrite (piece_ends p Lp). destruct (String.eqb_spec t ")") as [->|_]; [discriminate L1|].
        destruct (String.eqb_spec t "") as [->|_]; [congruence|]. rewrite L2, L3. cbn [is_some negb andb app].
        rewrite (wd_punct "*"%char) by reflexivity. now rewrite (wd_punct "("%char) by reflexivity.
    + change (is_some (is_function ")") || is_some (is_operator ")")) with false. cbn iota.
      destruct (String.eqb_spec t ")") as [->|_]; [exfalso; apply C2; now split|]. change (String.eqb ")" "(") with false.
      rewrite !andb_false_r. cbn [andb]. change (starts_b ")") with false. rewrite ?andb_false_r. cbn [app]. change (expand [")"%char]) with [")"%char].
      cbn [app]. apply (wd_punct ")"%char). reflexivity.
    + change (is_some (is_function ",") || is_some (is_operator ",")) with false. cbn iota. change (String.eqb "," ",") with true. change (String.eqb "," "(") with false.
      cbn [negb]. rewrite !andb_false_r. change (starts_b ",") with false. rewrite ?andb_false_r. change (expand [","%char]) with [","%char].
      cbn [app]. apply (wd_punct ","%char). reflexivity.
  - (* a function *)
    apply function_b_spec in Hu. pose proof (function_not_punct u Hu) as Pu.
    specialize (IH u u (or_introl (conj eq_refl (or_intror Hu))) (clear_tail _ _ C)). cbn [mtail]. rewrite <- IH.
    cbn [implicit]. rewrite Hu. cbn [orb andb].
    assert (St : starts_b u = true) by (unfold starts_b; rewrite Pu; apply orb_true_r). rewrite St, andb_true_r.
    assert (Pt : punct_b t = true).
    { destruct (proj1 (proj1 C)) as [K|K]; [now apply punct_b_spec|]. apply punct_b_spec in K. congruence. }
    assert (Ep : (if String.eqb t ")" then ["*"%char] else []) = list_ascii_of_string (if ends_b p then "*" else "")).
    { destruct L as [(<- & _)|(_ & K & _)]; [|congruence]. unfold ends_b. rewrite Pt. cbn [negb andb]. rewrite orb_false_r. now destruct (String.eqb t ")"). }
    assert (Wu : wd (list_ascii_of_string u ++ implicit u ts) = u :: wd (implicit u ts)).
    { assert (Wd : wd (list_ascii_of_string u) = [u]) by (apply function_b_spec in Hu; destruct Hu as (o & Ho); destruct Ho; reflexivity).
      destruct ts as [|v ts]; [cbn [implicit]; now rewrite app_nil_r, Wd|].
      destruct (implicit_starts u v ts) as (c & l & Ei & Hc').
      { destruct (proj1 (proj1 (clear_tail _ _ C))) as [K|K]; [apply punct_b_spec in K; congruence|exact K]. }
      rewrite Ei, wd_start by exact Hc'. now rewrite Wd. }
    rewrite <- app_assoc, Ep. destruct (ends_b p); cbn [list_ascii_of_string app].
    + rewrite (wd_punct "*"%char) by reflexivity. now rewrite Wu.
    + exact Wu.
  - (* a word *)
    assert (Fu : is_function u = None).
    { destruct (is_function u) eqn:E; [|reflexivity]. exfalso. apply Hnf. apply function_b_spec. now rewrite E. }
    assert (Ne : list_ascii_of_string u <> []) by (destruct u; [congruence|discriminate]).
    pose proof (cut_word _ _ Hc Ne) as Wu. pose proof (wd_expand_cut _ _ Hc Ne) as We.
    destruct qs as [|q qs]; [contradiction|].
    assert (Pu : punct_b u = false).
    { destruct (punct_b u) eqn:E; [|reflexivity]. apply punct_b_spec in E. destruct E as (c & -> & Hc'). exfalso. destruct Wu as [_ Wu]. apply (proj1 (Wu c (or_introl eq_refl))); exact Hc'. }
    assert (Ou : is_operator u = None).
    { destruct (is_operator u) eqn:E; [|reflexivity]. apply operator_punct in E. congruence. }
    pose proof (cut_pieces _ _ Hc) as Fq.
    assert (Lq : link u (last (q :: qs) p)).
    { right. split; [|auto]. assert (K : In (last (q :: qs) p) (q :: qs)).
      { clear. revert q. induction qs as [|r qs IH]; intros q; [now left|]. right. apply IH. }
      rewrite Forall_forall in Fq. now apply Fq. }
    rewrite mtail_app, <- (IH u _ Lq (clear_tail _ _ C)). clear IH.
    assert (Pt : punct_b t = true).
    { destruct (proj1 (proj1 C)) as [K|K]; apply punct_b_spec in K; congruence. }
    assert (Join : forall body, (forall c, In c body -> ~ blank c) -> wd (body ++ implicit u ts) = wd body ++ wd (implicit u ts)).
    { intros body _. destruct ts as [|v ts]; [cbn [implicit]; now rewrite !app_nil_r|].
      destruct (implicit_starts u v ts) as (c & l & Ei & Hc').
      { destruct (proj1 (proj1 (clear_tail _ _ C))) as [K|K]; [apply punct_b_spec in K; congruence|exact K]. }
      rewrite Ei. now apply wd_start. }
    cbn [implicit]. rewrite Fu, Ou. cbn [is_some orb].
    destruct (String.eqb_spec u "(") as [->|_]; [discriminate Pu|]. destruct (String.eqb_spec u ",") as [->|_]; [discriminate Pu|].
    rewrite andb_false_r. cbn [negb]. rewrite andb_true_r. cbn [mtail].
    rewrite (piece_starts q) by now apply Forall_inv in Fq. rewrite andb_true_r.
    assert (Ep : ends_b p = String.eqb t ")").
    { destruct L as [(<- & _)|(_ & K & _)]; [|congruence]. unfold ends_b. rewrite Pt. cbn [negb andb]. apply orb_false_r. }
    rewrite Ep. destruct (String.eqb_spec t ")") as [->|_].
    + destruct (proj2 C [] ")" u ts eq_refl) as (_ & _ & _ & C4).
      destruct qs as [|r qs]; [|exfalso; apply C4; split; [reflexivity|now exists q, r, qs]].
      cbn [app mtail]. rewrite (wd_punct "*"%char) by reflexivity. f_equal.
      assert (Eq : q = u).
      { rewrite (cut_one _ _ Hc). apply str_list. }
      subst q. rewrite Join by (intros c Hc'; now apply Wu). rewrite (wd_word _ Wu), str_list. reflexivity.
    + cbn [app]. destruct ts as [|v ts].
      * cbn [implicit]. rewrite app_nil_r, wd_nil_l, app_nil_r. exact We.
      * destruct (implicit_starts u v ts) as (c & l & Ei & Hc').
        { destruct (proj1 (proj1 (clear_tail _ _ C))) as [K|K]; [apply punct_b_spec in K; congruence|exact K]. }
        rewrite Ei, wd_start by exact Hc'. rewrite We. reflexivity.
Qed.

Lemma implicit_start ts : implicit "" ts = implicit "+" ts.
Proof. destruct ts as [|t ts]; [reflexivity|]. cbn [implicit]. reflexivity. Qed.

Theorem typed_tokens l ts ps us : lexed l ts -> lexemes ts ps -> multiplied ps us -> clear ts ->
  tokens (preprocess (str l)) = us.
Proof.
  intros Hl Hp Hm C. apply lexed_wd in Hl.
  assert (P : tokens (preprocess (str l)) = wd (implicit "" ts)).
  { unfold preprocess, tokens, spaced. rewrite !list_ascii_of_string_of_list_ascii. unfold wd in Hl. now rewrite Hl. }
  rewrite P, implicit_start. rewrite (implicit_mtail ts ps Hp "+" "+").
  - apply multiplied_mtail in Hm. destruct ps as [|p ps]; [now subst|]. subst us. reflexivity.
  - left. split; [reflexivity|now left].
  - destruct C as [S C]. split.
    + destruct ts as [|t ts]; [exact I|]. split; [left; exists "+"%char; split; [reflexivity|cbn; tauto]|exact S].
    + intros [|x ts1] t u ts2 E; [|injection E as <- E; now apply (C ts1 t u ts2)]. injection E as <- E. repeat split; intros [K _]; discriminate K.
Qed.

(** ** Surplus signs *)

(* operands count one, what takes two operands counts minus one *)
Definition wt (t : string) : Z :=
  if existsb (String.eqb t) ["+"; "-"; "*"; "/"; "^"; "log"; "dd"; "in"] then (-1)%Z
  else if existsb (String.eqb t) reserved then 0%Z else 1%Z.
Definition W (ts : list string) : Z := fold_right (fun t z => (wt t + z)%Z) 0%Z ts.
Lemma W_app ts us : W (ts ++ us) = (W ts + W us)%Z.
Proof. unfold W. induction ts as [|t ts IH]; cbn [app fold_right]; [reflexivity|]. rewrite IH. lia. Qed.
Lemma W_cons t ts : W (t :: ts) = (wt t + W ts)%Z.
Proof. reflexivity. Qed.
Lemma W_counts ts : W ts = (Z.of_nat (count_operands ts) - Z.of_nat (count ["+"; "-"; "*"; "/"; "^"; "log"; "dd"; "in"] ts))%Z.
Proof.
  induction ts as [|t ts IH]; [reflexivity|]. rewrite W_cons, IH. unfold count_operands, count, wt. cbn [filter].
  destruct (existsb (String.eqb t) ["+"; "-"; "*"; "/"; "^"; "log"; "dd"; "in"]) eqn:E.
  - assert (R : existsb (String.eqb t) reserved = true).
    { apply existsb_exists in E. destruct E as (x & Hx & Ex). apply existsb_exists. exists x. split; [|exact Ex]. cbn in Hx |- *. tauto. }
    rewrite R. cbn [negb length]. lia.
  - destruct (existsb (String.eqb t) reserved); cbn [negb length]; lia.
Qed.
Lemma wt_operand t : ~ In t reserved -> wt t = 1%Z.
Proof.
  intros H. unfold wt. assert (R : existsb (String.eqb t) reserved = false).
  { apply not_true. intros E. apply existsb_exists in E. destruct E as (x & Hx & Ex). apply String.eqb_eq in Ex. now subst x. }
  destruct (existsb (String.eqb t) ["+"; "-"; "*"; "/"; "^"; "log"; "dd"; "in"]) eqn:E.
  - exfalso. apply H. apply existsb_exists in E. destruct E as (x & Hx & Ex). apply String.eqb_eq in Ex. subst x. cbn in Hx |- *. tauto.
  - now rewrite R.
Qed.
Lemma wt_word u : punct_b u = false -> is_function u = None -> wt u = 1%Z.
Proof.
  intros P F. apply wt_operand. cbn. intros K. repeat (destruct K as [<-|K]; [first [discriminate P|discriminate F]|]). destruct K.
Qed.
Lemma wt_piece q : is_piece q -> wt q = 1%Z.
Proof. intros (P & F & _). now apply wt_word. Qed.
Lemma W_pieces qs : Forall is_piece qs -> forall q, is_piece q -> W (mtail q qs) = 0%Z.
Proof.
  induction 1 as [|r qs Hr H IH]; intros q Hq; [reflexivity|]. cbn [mtail]. rewrite (piece_ends q Hq), (piece_starts r Hr).
  cbn [andb app]. rewrite !W_cons, (wt_piece r Hr), (IH r Hr). reflexivity.
Qed.

Lemma W_infix {num} (stof : string -> option num) k ts (e : expr num) : (forall t, In t reserved -> stof t = None) ->
  infix_of stof "i" k ts e -> W ts = 1%Z.
Proof.
  intros Hs. induction 1 as [t e He|ts e H IH|f o ts a us b Hf H1 IH1 H2 IH2|s o k ts a us b Ho H1 IH1 H2 IH2|k ts e H IH].
  - assert (Hn : ~ In t reserved).
    { inversion He; subst; auto.
      - intros Hin. rewrite (Hs _ Hin) in *. discriminate.
      - cbn; intros Hin; repeat (destruct Hin as [Hin|Hin]; [discriminate|]); destruct Hin.
      - cbn; intros Hin; repeat (destruct Hin as [Hin|Hin]; [discriminate|]); destruct Hin. }
    rewrite W_cons, (wt_operand t Hn). reflexivity.
  - rewrite W_cons, W_app, IH. reflexivity.
  - rewrite !W_cons, W_app, W_cons, W_app, IH1, IH2. destruct Hf; reflexivity.
  - rewrite W_app, W_cons, IH1, IH2. destruct Ho; reflexivity.
  - exact IH.
Qed.

(* the pairs between which a surplus sign is written *)
Definition bad_b (t u : string) : bool :=
  String.eqb t "(" && String.eqb u "(" || String.eqb t ")" && String.eqb u ")" || String.eqb t "," && String.eqb u "(".
Fixpoint extras (t : string) (ts : list string) : Z :=
  match ts with
  | [] => 0%Z
  | u :: ts => ((if bad_b t u then 1 else 0) + extras u ts)%Z
  end.
Lemma extras_nonneg ts : forall t, (0 <= extras t ts)%Z.
Proof. induction ts as [|u ts IH]; intros t; cbn [extras]; [lia|]. specialize (IH u). destruct (bad_b t u); lia. Qed.

Theorem implicit_weight ts ps : lexemes ts ps -> forall t p, link t p -> separated (t :: ts) ->
  W (wd (implicit t ts)) = (W (mtail p ps) - extras t ts)%Z.
Proof.
  assert (Tail : forall (x : string) xs, separated (x :: xs) -> separated xs) by (intros x xs S; destruct xs; [exact I|apply S]).
  induction 1 as [|u ts ps Hu H IH|u ts ps Hu H IH|u ts qs ps Hnf Hne Hc H IH]; intros t p L C.
  - reflexivity.
  - (* punctuation *)
    assert (Pb : punct_b u = true) by now apply punct_b_spec.
    specialize (IH u u (or_introl (conj eq_refl (or_introl Pb))) (Tail _ _ C)).
    destruct Hu as (c & -> & Hc). apply punct_special in Hc. cbn [mtail extras].
    cbn [implicit list_ascii_of_string]. destruct (special_cases c Hc) as [(o & Ho)|[->|[->| ->]]].
    + assert (F : is_function (String c "") = None).
      { destruct (is_function (String c "")) as [o'|] eqn:F; [|reflexivity]. exfalso. assert (K : is_some (is_function (String c "")) = true) by now rewrite F.
        apply function_not_punct in K. congruence. }
      assert (Hb : bad_b t (String c "") = false).
      { unfold bad_b. destruct (String.eqb_spec (String c "") "(") as [E|_]; [injection E as ->; discriminate Ho|].
        destruct (String.eqb_spec (String c "") ")") as [E|_]; [injection E as ->; discriminate Ho|]. now rewrite !andb_false_r. }
      rewrite F, Ho, Hb. cbn [is_some orb andb app].
      replace (starts_b (String c "")) with false.
      2:{ unfold starts_b. rewrite Pb. destruct (String.eqb_spec (String c "") "(") as [E|_]; [|reflexivity]. injection E as ->. discriminate Ho. }
      rewrite andb_false_r. cbn [app]. rewrite (wd_punct c _ Hc), !W_cons, IH. lia.
    + change (is_some (is_function "(") || is_some (is_operator "(")) with false. cbn iota.
      change (String.eqb "(" ",") with false. change (String.eqb "(" "(") with true. change (starts_b "(") with true. change (expand ["("%char]) with ["("%char]. cbn [negb]. rewrite !andb_true_r.
      assert (Hb : bad_b t "(" = String.eqb t "(" || String.eqb t ",") by (unfold bad_b; change (String.eqb "(" "(") with true; change (String.eqb "(" ")") with false; now rewrite !andb_true_r, andb_false_r, orb_false_r).
      rewrite Hb.
      destruct L as [(<- & [Lp|Lf])|(Lp & L1 & L2 & L3 & L4)].
      * destruct t as [|d [|]]; try discriminate Lp. change (is_special d = true) in Lp. destruct (special_cases d Lp) as [(o & Ho)|[->|[->| ->]]].
        -- destruct (String.eqb_spec (String d "") ")") as [E|_]; [injection E as ->; discriminate Ho|].
           destruct (String.eqb_spec (String d "") "(") as [E|_]; [injection E as ->; discriminate Ho|].
           destruct (String.eqb_spec (String d "") ",") as [E|_]; [injection E as ->; discriminate Ho|].
           rewrite Ho. cbn [is_some negb]. rewrite andb_false_r. unfold ends_b. cbn [punct_b]. rewrite Lp.
           destruct (String.eqb_spec (String d "") ")") as [E|_]; [injection E as ->; discriminate Ho|]. cbn [orb negb andb app].
           rewrite (wd_punct "("%char) by reflexivity. rewrite !W_cons, IH. lia.
        -- change (String.eqb "(" ")") with false. change (String.eqb "(" "") with false. change (String.eqb "(" "(") with true.
           change (is_some (is_function "(")) with false. change (is_some (is_operator "(")) with false. change (ends_b "(") with false. cbn [negb andb orb app].
           rewrite (wd_punct "*"%char), (wd_punct "("%char) by reflexivity. rewrite !W_cons, IH. change (wt "*") with (-1)%Z. lia.
        -- change (String.eqb ")" ")") with true. change (String.eqb ")" "(") with false. change (String.eqb ")" ",") with false.
           cbn iota. change (ends_b ")") with true. cbn [app andb orb].
           rewrite (wd_punct "*"%char), (wd_punct "("%char) by reflexivity. rewrite !W_cons, IH. lia.
        -- change (String.eqb "," ")") with false. change (String.eqb "," "") with false. change (String.eqb "," "(") with false. change (String.eqb "," ",") with true.
           change (is_some (is_function ",")) with false. change (is_some (is_operator ",")) with false. change (ends_b ",") with false. cbn [negb andb orb app].
           rewrite (wd_punct "*"%char), (wd_punct "("%char) by reflexivity. rewrite !W_cons, IH. change (wt "*") with (-1)%Z. lia.
      * unfold ends_b. rewrite Lf. destruct (String.eqb_spec t ")") as [->|_]; [discriminate Lf|]. cbn [negb]. rewrite !andb_false_r. cbn [andb orb app].
        destruct (String.eqb_spec t "(") as [->|_]; [discriminate Lf|]. destruct (String.eqb_spec t ",") as [->|_]; [discriminate Lf|]. cbn [orb].
        rewrite (wd_punct "("%char) by reflexivity. rewrite !W_cons, IH. lia.
      * rewrite (piece_ends p Lp). destruct (String.eqb_spec t ")") as [->|_]; [discriminate L1|].
        destruct (String.eqb_spec t "") as [->|_]; [congruence|]. rewrite L2, L3. cbn [is_some negb andb app].
        destruct (String.eqb_spec t "(") as [->|_]; [discriminate L1|]. destruct (String.eqb_spec t ",") as [->|_]; [discriminate L1|]. cbn [orb].
        rewrite (wd_punct "*"%char), (wd_punct "("%char) by reflexivity. rewrite !W_cons, IH. lia.
    + change (is_some (is_function ")") || is_some (is_operator ")")) with false. cbn iota.
      assert (Hb : bad_b t ")" = String.eqb t ")") by (unfold bad_b; change (String.eqb ")" "(") with false; change (String.eqb ")" ")") with true; now rewrite !andb_false_r, andb_true_r, orb_false_r).
      rewrite Hb. change (String.eqb ")" "(") with false. change (String.eqb ")" ",") with false. change (starts_b ")") with false. cbn [negb].
      rewrite !andb_false_r, andb_true_r. destruct (String.eqb t ")"); cbn [app].
      * rewrite (wd_punct "*"%char), (wd_punct ")"%char) by reflexivity. rewrite !W_cons, IH. change (wt "*") with (-1)%Z. lia.
      * change (expand [")"%char]) with [")"%char]. cbn [app]. rewrite (wd_punct ")"%char) by reflexivity. rewrite !W_cons, IH. lia.
    + change (is_some (is_function ",") || is_some (is_operator ",")) with false. cbn iota. change (String.eqb "," ",") with true. change (String.eqb "," "(") with false.
      assert (Hb : bad_b t "," = false) by (unfold bad_b; change (String.eqb "," "(") with false; change (String.eqb "," ")") with false; now rewrite !andb_false_r).
      rewrite Hb. cbn [negb]. rewrite !andb_false_r. change (starts_b ",") with false. rewrite ?andb_false_r. change (expand [","%char]) with [","%char].
      cbn [app]. rewrite (wd_punct ","%char) by reflexivity. rewrite !W_cons, IH. lia.
  - (* a function *)
    apply function_b_spec in Hu. pose proof (function_not_punct u Hu) as Pu.
    specialize (IH u u (or_introl (conj eq_refl (or_intror Hu))) (Tail _ _ C)). cbn [mtail extras].
    assert (Hb : bad_b t u = false).
    { unfold bad_b. destruct (String.eqb_spec u "(") as [->|_]; [discriminate Pu|]. destruct (String.eqb_spec u ")") as [->|_]; [discriminate Pu|]. now rewrite !andb_false_r. }
    rewrite Hb. cbn [implicit]. rewrite Hu. cbn [orb andb].
    assert (St : starts_b u = true) by (unfold starts_b; rewrite Pu; apply orb_true_r). rewrite St, andb_true_r.
    assert (Pt : punct_b t = true).
    { destruct (proj1 C) as [K|K]; [now apply punct_b_spec|]. apply punct_b_spec in K. congruence. }
    assert (Ep : (if String.eqb t ")" then ["*"%char] else []) = list_ascii_of_string (if ends_b p then "*" else "")).
    { destruct L as [(<- & _)|(_ & K & _)]; [|congruence]. unfold ends_b. rewrite Pt. cbn [negb andb]. rewrite orb_false_r. now destruct (String.eqb t ")"). }
    assert (Wu : wd (list_ascii_of_string u ++ implicit u ts) = u :: wd (implicit u ts)).
    { assert (Wd : wd (list_ascii_of_string u) = [u]) by (apply function_b_spec in Hu; destruct Hu as (o & Ho); destruct Ho; reflexivity).
      destruct ts as [|v ts]; [cbn [implicit]; now rewrite app_nil_r, Wd|].
      destruct (implicit_starts u v ts) as (c & l & Ei & Hc').
      { destruct (proj1 (Tail _ _ C)) as [K|K]; [apply punct_b_spec in K; congruence|exact K]. }
      rewrite Ei, wd_start by exact Hc'. now rewrite Wd. }
    rewrite <- app_assoc, Ep. destruct (ends_b p); cbn [list_ascii_of_string app].
    + rewrite (wd_punct "*"%char) by reflexivity. rewrite Wu, !W_cons, IH. lia.
    + rewrite Wu, !W_cons, IH. lia.
  - (* a word *)
    assert (Fu : is_function u = None).
    { destruct (is_function u) eqn:E; [|reflexivity]. exfalso. apply Hnf. apply function_b_spec. now rewrite E. }
    assert (Ne : list_ascii_of_string u <> []) by (destruct u; [congruence|discriminate]).
    pose proof (cut_word _ _ Hc Ne) as Wu. pose proof (wd_expand_cut _ _ Hc Ne) as We.
    destruct qs as [|q qs]; [contradiction|].
    assert (Pu : punct_b u = false).
    { destruct (punct_b u) eqn:E; [|reflexivity]. apply punct_b_spec in E. destruct E as (c & -> & Hc'). exfalso. destruct Wu as [_ Wu]. apply (proj1 (Wu c (or_introl eq_refl))); exact Hc'. }
    assert (Ou : is_operator u = None).
    { destruct (is_operator u) eqn:E; [|reflexivity]. apply operator_punct in E. congruence. }
    pose proof (cut_pieces _ _ Hc) as Fq.
    assert (Lq : link u (last (q :: qs) p)).
    { right. split; [|auto]. assert (K : In (last (q :: qs) p) (q :: qs)).
      { clear. revert q. induction qs as [|r qs IH]; intros q; [now left|]. right. apply IH. }
      rewrite Forall_forall in Fq. now apply Fq. }
    specialize (IH u _ Lq (Tail _ _ C)). rewrite mtail_app, W_app. cbn [extras].
    assert (Hb : bad_b t u = false).
    { unfold bad_b. destruct (String.eqb_spec u "(") as [->|_]; [discriminate Pu|]. destruct (String.eqb_spec u ")") as [->|_]; [discriminate Pu|]. now rewrite !andb_false_r. }
    rewrite Hb.
    assert (Pt : punct_b t = true).
    { destruct (proj1 C) as [K|K]; apply punct_b_spec in K; congruence. }
    assert (Join : forall body, wd (body ++ implicit u ts) = wd body ++ wd (implicit u ts)).
    { intros body. destruct ts as [|v ts]; [cbn [implicit]; now rewrite !app_nil_r|].
      destruct (implicit_starts u v ts) as (c & l & Ei & Hc').
      { destruct (proj1 (Tail _ _ C)) as [K|K]; [apply punct_b_spec in K; congruence|exact K]. }
      rewrite Ei. now apply wd_start. }
    cbn [implicit]. rewrite Fu, Ou. cbn [is_some orb].
    destruct (String.eqb_spec u "(") as [->|_]; [discriminate Pu|]. destruct (String.eqb_spec u ",") as [->|_]; [discriminate Pu|].
    rewrite andb_false_r. cbn [negb]. rewrite andb_true_r. cbn [mtail].
    pose proof (Forall_inv Fq) as Pq. pose proof (Forall_inv_tail Fq) as Pqs.
    rewrite (piece_starts q Pq), andb_true_r.
    assert (Ep : ends_b p = String.eqb t ")").
    { destruct L as [(<- & _)|(_ & K & _)]; [|congruence]. unfold ends_b. rewrite Pt. cbn [negb andb]. apply orb_false_r. }
    rewrite Ep. destruct (String.eqb t ")").
    + cbn [app]. rewrite (wd_punct "*"%char) by reflexivity. rewrite Join, (wd_word _ Wu), str_list. cbn [app].
      rewrite !W_cons, IH, (wt_word u Pu Fu), (wt_piece q Pq), (W_pieces qs Pqs q Pq). lia.
    + cbn [app]. rewrite Join, We, W_app, !W_cons, IH, (wt_piece q Pq), (W_pieces qs Pqs q Pq). lia.
Qed.

Theorem typed_weight {num} (stof : string -> option num) l ts (e : expr num) : sane_numbers stof -> means stof l ts e -> separated ts ->
  W (tokens (preprocess (str l))) = (1 - extras "+" ts)%Z.
Proof.
  intros sane (ps & us & Hl & Hp & Hm & Hi) S. apply lexed_wd in Hl.
  assert (P : tokens (preprocess (str l)) = wd (implicit "" ts)).
  { unfold preprocess, tokens, spaced. rewrite !list_ascii_of_string_of_list_ascii. unfold wd in Hl. now rewrite Hl. }
  rewrite P, implicit_start. rewrite (implicit_weight ts ps Hp "+" "+").
  - apply multiplied_mtail in Hm. apply W_infix in Hi; [|apply sane]. destruct ps as [|p ps]; subst us; [discriminate Hi|].
    cbn [mtail]. change (ends_b "+") with false. cbn [andb app]. now rewrite Hi.
  - left. split; [reflexivity|now left].
  - destruct ts as [|t ts]; [exact I|]. split; [left; exists "+"%char; split; [reflexivity|cbn; tauto]|exact S].
Qed.

Lemma bad_b_spec t u : bad_b t u = true <-> t = "(" /\ u = "(" \/ t = ")" /\ u = ")" \/ t = "," /\ u = "(".
Proof. unfold bad_b. rewrite !orb_true_iff, !andb_true_iff, !String.eqb_eq. tauto. Qed.
Lemma extras_crowded ts : forall t, (0 < extras t ts)%Z <-> crowded (t :: ts).
Proof.
  induction ts as [|u ts IH]; intros t.
  - cbn [extras]. split; [lia|]. intros ([|? [|]] & a & b & ts2 & E & _); discriminate E.
  - cbn [extras]. pose proof (extras_nonneg ts u) as P. split.
    + intros H. destruct (bad_b t u) eqn:E.
      * apply bad_b_spec in E. exists [], t, u, ts. now split.
      * destruct (proj1 (IH u)) as (ts1 & a & b & ts2 & E1 & E2); [lia|]. exists (t :: ts1), a, b, ts2. split; [now rewrite E1|exact E2].
    + intros ([|x ts1] & a & b & ts2 & E & H).
      * injection E as <- <- _. apply bad_b_spec in H. rewrite H. lia.
      * injection E as _ E. assert (K : (0 < extras u ts)%Z) by (apply IH; now exists ts1, a, b, ts2). destruct (bad_b t u); lia.
Qed.
Lemma extras_start ts : (0 < extras "+" ts)%Z <-> crowded ts.
Proof.
  rewrite extras_crowded. split.
  - intros ([|x ts1] & a & b & ts2 & E & H).
    + injection E as <- _. destruct H as [[H _]|[[H _]|[H _]]]; discriminate H.
    + injection E as _ E. now exists ts1, a, b, ts2.
  - intros (ts1 & a & b & ts2 & E & H). exists ("+" :: ts1), a, b, ts2. split; [now rewrite E|exact H].
Qed.
