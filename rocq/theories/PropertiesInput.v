(** Properties C82 and C83: how typed expressions are read, and the answers to
    typed arithmetic. *)
From Coq Require Import String Ascii Bool Arith ZArith QArith Reals Lra Lia Qreals.
From Coquelicot Require Import Coquelicot.
From Coq Require Import List.
From Flocq Require Import Core BinarySingleNaN.
From Verif Require Import Base Num Expr Ghost Simplify Calculus InFixSer FromInFix Frontends
  Spec SpecText SpecPoly SpecPolyInt SpecProd SpecQuot SpecLine SpecTyped SpecValue SpecInput QNum DoubleNum TreeProofs PowProofs SemProofs MonadProofs SimplifySound FuelProofs InFixProofs ProdProofs
  PolyProofs PolySem PolyDiff PolyDiffSem SumProofs PolyInt PolyIntSem PolyComb LineProofs TypedProofs InputProofs
  PropertiesSimplify PropertiesCalculus PropertiesPoly PropertiesPolyDiff PropertiesLinearPoly PropertiesIntegral PropertiesPolyInt PropertiesInFix PropertiesSafety PropertiesOperators
  PropertiesFrontends PropertiesTyped PropertiesTypedCalculus PropertiesTypedValue.
Import ListNotations.
Open Scope string_scope.
Open Scope Z_scope.
Open Scope list_scope.

(** ** C82: A typed expression is read as it is written *)
Definition C82_statement : Prop :=
  forall (num : Type) (number : string -> option num), sane_numbers number ->
  forall l ts e, means number l ts e -> from_infix number true (preprocess (str l)) = ret e.

(** Proved for texts in which parentheses and words keep some distance.
    Missing: two parentheses of the same kind next to each other, a
    parenthesis after a comma, words separated by white space only, and words
    with several pieces after a closing parenthesis; c82_needed shows that
    they are misread or rejected. *)
Theorem c82_reads_partial : forall (num : Type) (number : string -> option num), sane_numbers number ->
  forall l ts e, means number l ts e -> clear ts -> from_infix number true (preprocess (str l)) = ret e.
Proof.
  intros num number sane l ts e (ps & us & Hl & Hp & Hm & Hi) C. apply (from_infix_tokens number true); [apply sane|].
  now rewrite (typed_tokens l ts ps us Hl Hp Hm C).
Qed.
Print Assumptions c82_reads_partial.

(** So a text has at most one tree. *)
Theorem c82_unique : forall (num : Type) (number : string -> option num), sane_numbers number ->
  forall l ts e ts' e', means number l ts e -> means number l ts' e' -> clear ts -> e = e'.
Proof.
  intros num number sane l ts e ts' e' H H' C. assert (ts = ts') as <-.
  { destruct H as (? & ? & Hl & _), H' as (? & ? & Hl' & _). apply lexed_wd in Hl, Hl'. congruence. }
  apply (c82_reads_partial num number sane) in H, H'; auto. rewrite H in H'. now injection H'.
Qed.
Print Assumptions c82_unique.

(* every text consists of words *)
Lemma plain_span l : exists w r, l = w ++ r /\ (forall c, In c w -> ~ punct c /\ ~ blank c) /\ match r with [] => True | c :: _ => punct c \/ blank c end.
Proof.
  induction l as [|c l (w & r & -> & Hw & Hr)]; [exists [], []; cbn; auto|].
  destruct (is_special c) eqn:E1; [exists [], (c :: w ++ r); split; [reflexivity|split; [intros x []|left; now apply special_punct]]|].
  destruct (is_space c) eqn:E2; [exists [], (c :: w ++ r); split; [reflexivity|split; [intros x []|right; now apply is_space_blank]]|].
  exists (c :: w), r. split; [reflexivity|]. split; [|exact Hr]. intros x [<-|Hx]; [|now apply Hw].
  rewrite <- special_punct, <- is_space_blank. split; congruence.
Qed.
Lemma lexed_all : forall n l, (length l <= n)%nat -> exists ts, lexed l ts.
Proof.
  induction n as [|n IH]; intros l L.
  - destruct l; [exists []; constructor|cbn in L; lia].
  - destruct (plain_span l) as (w & r & -> & Hw & Hr). destruct w as [|c w].
    + destruct r as [|c r]; [exists []; constructor|]. cbn in L. destruct (IH r ltac:(lia)) as (ts & H).
      destruct Hr as [Hc|Hc]; eexists; [apply lx_punct|apply lx_blank]; eauto.
    + cbn in L. rewrite app_length in L. destruct (IH r ltac:(lia)) as (ts & H). eexists. apply lx_word; eauto. discriminate.
Qed.
Lemma wd_lexed l : lexed l (wd l).
Proof. destruct (lexed_all (length l) l ltac:(lia)) as (ts & H). now rewrite (lexed_wd l ts H). Qed.

(* pieces, computed *)
Fixpoint pieces (l : list ascii) : list (list ascii) :=
  match l with
  | [] => []
  | c :: l' =>
    if is_letter c then [c] :: pieces l'
    else match pieces l' with
         | [] => [[c]]
         | w :: ws => if match l' with d :: _ => is_letter d | [] => false end then [c] :: w :: ws else (c :: w) :: ws
         end
  end.
Lemma letter_of c : is_letter c = true -> letter c.
Proof.
  unfold is_letter, letter. intros H. apply orb_true_iff in H. destruct H as [H|H]; apply andb_true_iff in H; destruct H as [H1 H2];
    apply Nat.leb_le in H1, H2; [left|right]; lia.
Qed.
Lemma digit_of c : is_digit c = true -> digit c.
Proof. unfold is_digit, digit. intros H. apply andb_true_iff in H. destruct H as [H1 H2]. apply Nat.leb_le in H1, H2. lia. Qed.
Lemma digits_number l : l <> [] -> (forall c, In c l -> digit c) -> number_text l.
Proof.
  intros Hn H. split; [intros c Hc; left; now apply H|]. split.
  - destruct l as [|c l]; [congruence|]. exists c, l. split; [reflexivity|apply H; now left].
  - destruct (exists_last Hn) as (l' & c & ->). exists l', c. split; [reflexivity|]. apply H, in_or_app. right. now left.
Qed.
Lemma cut_of l : forallb (fun c => is_digit c || is_letter c) l = true -> cut l (map str (pieces l)) /\
  match l with [] => True | c :: _ => is_letter c = true \/ exists w r, l = w ++ r /\ (forall d, In d w -> digit d) /\ w <> [] /\
    match r with [] => True | c :: _ => letter c end /\ cut r (map str (pieces r)) /\ pieces l = w :: pieces r end.
Proof.
  induction l as [|c l IH]; intros H; [split; [constructor|exact I]|]. cbn [forallb] in H. apply andb_true_iff in H. destruct H as [Hc H].
  destruct (IH H) as [C P]. cbn [pieces]. destruct (is_letter c) eqn:Lc.
  - split; [|now left]. cbn [map]. apply (cut_letter c); [now apply letter_of|exact C].
  - rewrite orb_false_r in Hc. apply digit_of in Hc. destruct l as [|d l].
    + cbn [pieces map]. assert (N : number_text [c]) by (apply digits_number; [discriminate|intros x [<-|[]]; exact Hc]).
      split; [apply (cut_number [c] []); auto; constructor|]. right. exists [c], []. split; [reflexivity|]. split; [intros x [<-|[]]; exact Hc|]. split; [discriminate|]. split; [exact I|]. split; [constructor|reflexivity].
    + destruct (is_letter d) eqn:Ld.
      * assert (E : pieces (d :: l) = [d] :: pieces l) by (cbn [pieces]; now rewrite Ld). rewrite E. rewrite <- E.
        assert (N : number_text [c]) by (apply digits_number; [discriminate|intros x [<-|[]]; exact Hc]).
        split; [cbn [map]; rewrite E in C |- *; apply (cut_number [c] (d :: l)); auto; now apply letter_of|].
        right. exists [c], (d :: l). split; [reflexivity|]. split; [intros x [<-|[]]; exact Hc|]. split; [discriminate|]. split; [now apply letter_of|]. split; [exact C|reflexivity].
      * destruct P as [P|(w & r & El & Hw & Hn & Hr & Cr & Ep)]; [congruence|]. rewrite Ep.
        assert (Hcw : forall x, In x (c :: w) -> digit x) by (intros x [<-|Hx]; auto).
        split.
        -- rewrite El. cbn [map]. apply (cut_number (c :: w) r); auto. apply digits_number; [discriminate|exact Hcw].
        -- right. exists (c :: w), r. rewrite El. split; [reflexivity|]. split; [exact Hcw|]. split; [discriminate|]. auto.
Qed.
Definition simple_word (t : string) : bool :=
  negb (is_some (FromInFix.is_function t)) && negb (String.eqb t "") && forallb (fun c => is_digit c || is_letter c) (list_ascii_of_string t).
Fixpoint lexemes_of (ts : list string) : list string :=
  match ts with
  | [] => []
  | t :: ts => (if punct_b t || is_some (FromInFix.is_function t) then [t] else map str (pieces (list_ascii_of_string t))) ++ lexemes_of ts
  end.
Lemma lexemes_all ts : forallb (fun t => punct_b t || is_some (FromInFix.is_function t) || simple_word t) ts = true -> lexemes ts (lexemes_of ts).
Proof.
  induction ts as [|t ts IH]; intros H; [constructor|]. cbn [forallb] in H. apply andb_true_iff in H. destruct H as [Ht H]. specialize (IH H).
  cbn [lexemes_of]. destruct (punct_b t) eqn:Ep; cbn [orb].
  - apply (lm_punct t ts); [now apply punct_b_spec|exact IH].
  - destruct (is_some (FromInFix.is_function t)) eqn:Ef.
    + apply (lm_function t ts); [now apply function_b_spec|exact IH].
    + cbn [orb] in Ht. unfold simple_word in Ht. apply andb_true_iff in Ht. destruct Ht as [Ht Hc]. apply andb_true_iff in Ht. destruct Ht as [_ Hn].
      apply lm_word; [|destruct t; [discriminate Hn|discriminate]|now apply cut_of|exact IH].
      intros K. apply function_b_spec in K. congruence.
Qed.
Lemma multiplied_all ps : multiplied ps (match ps with [] => [] | p :: ps => p :: mtail p ps end).
Proof.
  destruct ps as [|p ps]; [constructor|]. revert p. induction ps as [|q ps IH]; intros p; [constructor|]. cbn [mtail].
  destruct (ends_b p) eqn:E1; destruct (starts_b q) eqn:E2; cbn [andb app].
  - apply mu_star; [now apply ends_b_spec|now apply starts_b_spec|apply IH].
  - apply mu_next; [|apply IH]. intros [_ K]. apply starts_b_spec in K. congruence.
  - apply mu_next; [|apply IH]. intros [K _]. apply ends_b_spec in K. congruence.
  - apply mu_next; [|apply IH]. intros [K _]. apply ends_b_spec in K. congruence.
Qed.
Lemma means_intro {num} (number : string -> option num) l e :
  let ts := wd l in forallb (fun t => punct_b t || is_some (FromInFix.is_function t) || simple_word t) ts = true ->
  infix_of number "i" 1 (match lexemes_of ts with [] => [] | p :: ps => p :: mtail p ps end) e -> means number l ts e.
Proof.
  intros ts H Hi. exists (lexemes_of ts), (match lexemes_of ts with [] => [] | p :: ps => p :: mtail p ps end).
  split; [apply wd_lexed|]. split; [now apply lexemes_all|]. split; [apply multiplied_all|exact Hi].
Qed.
(* clear, computed *)
Definition several_b (t : string) : bool := match pieces (list_ascii_of_string t) with _ :: _ :: _ => true | _ => false end.
Lemma cut_fun l qs : cut l qs -> forall qs', cut l qs' -> qs = qs'.
Proof.
  assert (NL : forall c, letter c -> digit_or_point c -> False) by (unfold letter; intros c H [K| ->]; [lia|cbv in H; lia]).
  assert (P : forall n l n' l', (forall c, In c n -> digit_or_point c) -> (forall c, In c n' -> digit_or_point c) ->
    match l with [] => True | c :: _ => letter c end -> match l' with [] => True | c :: _ => letter c end -> n ++ l = n' ++ l' -> n = n' /\ l = l').
  { induction n as [|c n IH]; intros m [|c' n'] l' H H' Hl Hl' E; cbn in E; auto.
    - subst m. exfalso. apply (NL c' Hl). apply H'. now left.
    - subst l'. exfalso. apply (NL c Hl'). apply H. now left.
    - injection E as -> E. destruct (IH m n' l') as [-> ->]; auto; intros x Hx; [apply H|apply H']; now right. }
  induction 1 as [|c l ps Hc H IH|n l ps Hn Hl H IH]; intros qs' K.
  - symmetry. now apply cut_nil_inv.
  - remember (c :: l) as m eqn:E. destruct K as [|c' l' ps' Hc' K|n l' ps' Hn Hl' K]; [discriminate| |].
    + injection E as -> ->. now rewrite (IH _ K).
    + destruct Hn as (Hn & (x & y & -> & Hx) & _). injection E as -> _. exfalso. apply (NL c Hc). apply Hn. now left.
  - remember (n ++ l) as m eqn:E. destruct K as [|c' l' ps' Hc' K|n' l' ps' Hn' Hl' K].
    + destruct Hn as (_ & (x & y & -> & _) & _). discriminate E.
    + destruct Hn as (Hn & (x & y & -> & Hx) & _). injection E as -> _. exfalso. apply (NL x Hc'). apply Hn. now left.
    + destruct (P n' l' n l) as [-> ->]; auto; [apply Hn'|apply Hn|]. now rewrite (IH _ K).
Qed.
Fixpoint clear_b (ts : list string) : bool :=
  match ts with
  | t :: ((u :: _) as ts') =>
    (punct_b t || punct_b u) && negb (String.eqb t "(" && String.eqb u "(") && negb (String.eqb t ")" && String.eqb u ")")
      && negb (String.eqb t "," && String.eqb u "(")
      && negb (String.eqb t ")" && negb (punct_b u) && negb (forallb (fun c => is_digit c || is_letter c) (list_ascii_of_string u) && negb (several_b u))) && clear_b ts'
  | _ => true
  end.
Lemma punct_several u : punct_b u = true -> ~ several u.
Proof.
  intros H (q & q' & qs & K). destruct u as [|c [|]]; try discriminate H. cbn in K.
  assert (S : letter c \/ digit_or_point c) by (apply (cut_usual _ _ K); now left). apply not_special in S. change (is_special c = true) in H. congruence.
Qed.
Lemma clear_intro ts : clear_b ts = true -> clear ts.
Proof.
  induction ts as [|t ts IH]; intros H.
  - split; [exact I|]. intros [|] ? ? ? E; discriminate E.
  - destruct ts as [|u ts]; [split; [exact I|]; intros [|? [|]] ? ? ? E; discriminate E|].
    cbn [clear_b] in H. rewrite !andb_true_iff, !negb_true_iff in H. destruct H as (((((H1 & H2) & H3) & H4) & H5) & H6).
    destruct (IH H6) as [S C]. split.
    + split; [|exact S]. apply orb_true_iff in H1. destruct H1 as [H1|H1]; apply punct_b_spec in H1; auto.
    + intros [|x ts1] a b ts2 E; [|injection E as _ E; now apply (C ts1 a b ts2)]. injection E as <- <- _. repeat split; intros [K1 K2]; subst t.
      * subst u. discriminate H2.
      * subst u. discriminate H3.
      * subst u. discriminate H4.
      * change (String.eqb ")" ")") with true in H5. cbn [andb] in H5. destruct (punct_b u) eqn:Pu; [now apply (punct_several u)|].
        cbn [negb andb] in H5. apply negb_false_iff in H5. apply andb_true_iff in H5. destruct H5 as [H5 H7]. apply negb_true_iff in H7.
        destruct K2 as (q & q' & qs & K). destruct (cut_of _ H5) as [Cc _]. unfold several_b in H7.
        destruct (pieces (list_ascii_of_string u)) as [|? [|]]; try discriminate H7; apply (cut_fun _ _ K) in Cc; discriminate Cc.
Qed.

Ltac leaf := apply ix_operand; first [apply opd_number; reflexivity | apply opd_var; [reflexivity|intros K; cbn in K; repeat (destruct K as [K|K]; [discriminate K|]); destruct K|discriminate|discriminate]].
Notation "'text' s" := (list_ascii_of_string s) (at level 10).

(** ((1)) is rejected. *)
Lemma one_typed : means q_read (text "((1))") (wd (text "((1))")) (EReal (inject_Z 1)).
Proof.
  apply means_intro; [vm_compute; reflexivity|]. change (infix_of q_read "i" 1 ("(" :: ("(" :: ["1"] ++ [")"]) ++ [")"]) (EReal (inject_Z 1))).
  do 3 apply ix_up. apply ix_paren. do 3 apply ix_up. apply ix_paren. do 3 apply ix_up. leaf.
Qed.
Theorem c82_refuted : ~ C82_statement.
Proof.
  intros S. specialize (S Q q_read (num_sane inject_Z) _ _ _ one_typed).
  assert (E : snd (from_infix q_read true (preprocess (str (text "((1))")))) = Err "Invalid number of operands") by (vm_compute; reflexivity).
  rewrite S in E. discriminate E.
Qed.
Print Assumptions c82_refuted.

(** The conditions are needed: (2(3)) and log(2,(3)) are rejected, 1 2 is read
    as 12, and x is not multiplied in (1)2x: with a reader that knows integers
    only, 2x is a variable; with std::stof it is 2 (c90_after_parenthesis). *)
Theorem c82_needed :
  (means q_read (text "(2(3))") ["("; "2"; "("; "3"; ")"; ")"] (EMul (qr 2) (qr 3)) /\
   snd (from_infix q_read true (preprocess "(2(3))")) = Err "Invalid number of operands") /\
  (means q_read (text "log(2,(3))") ["log"; "("; "2"; ","; "("; "3"; ")"; ")"] (ELog (qr 2) (qr 3)) /\
   snd (from_infix q_read true (preprocess "log(2,(3))")) = Err "Invalid number of operands") /\
  (means q_read (text "1 2") ["1"; "2"] (EMul (qr 1) (qr 2)) /\
   snd (from_infix q_read true (preprocess "1 2")) = Ok (EReal (inject_Z 12))) /\
  (means q_read (text "(1)2x") ["("; "1"; ")"; "2x"] (EMul (EMul (qr 1) (qr 2)) (qv "x")) /\
   snd (from_infix q_read true (preprocess "(1)2x")) = Ok (EMul (qr 1) (qv "2x"))).
Proof.
  split; [|split; [|split]]; (split; [|vm_compute; reflexivity]).
  - apply (means_intro q_read (text "(2(3))")); [vm_compute; reflexivity|].
    change (infix_of q_read "i" 1 ("(" :: (["2"] ++ "*" :: ("(" :: ["3"] ++ [")"])) ++ [")"]) (EMul (qr 2) (qr 3))).
    do 3 apply ix_up. apply ix_paren. apply ix_up. eapply ix_op; [constructor|do 2 apply ix_up; leaf|]. apply ix_up. apply ix_paren. do 3 apply ix_up. leaf.
  - apply (means_intro q_read (text "log(2,(3))")); [vm_compute; reflexivity|].
    change (infix_of q_read "i" 1 ("log" :: "(" :: ["2"] ++ "," :: ("(" :: ["3"] ++ [")"]) ++ [")"]) (ELog (qr 2) (qr 3))).
    do 3 apply ix_up. apply ix_call; [constructor|do 3 apply ix_up; leaf|]. do 3 apply ix_up. apply ix_paren. do 3 apply ix_up. leaf.
  - apply (means_intro q_read (text "1 2")); [vm_compute; reflexivity|].
    change (infix_of q_read "i" 1 (["1"] ++ "*" :: ["2"]) (EMul (qr 1) (qr 2))).
    apply ix_up. eapply ix_op; [constructor|do 2 apply ix_up; leaf|apply ix_up; leaf].
  - apply (means_intro q_read (text "(1)2x")); [vm_compute; reflexivity|].
    change (infix_of q_read "i" 1 ((("(" :: ["1"] ++ [")"]) ++ "*" :: ["2"]) ++ "*" :: ["x"]) (EMul (EMul (qr 1) (qr 2)) (qv "x"))).
    apply ix_up. eapply ix_op; [constructor| |apply ix_up; leaf]. eapply ix_op; [constructor| |apply ix_up; leaf].
    do 2 apply ix_up. apply ix_paren. do 3 apply ix_up. leaf.
Qed.
Print Assumptions c82_needed.

(** The first three are not accidents: an expression with two parentheses of
    the same kind next to each other, or with a parenthesis right after a
    comma, is always rejected. *)
Theorem c82_rejected : forall (num : Type) (number : string -> option num), sane_numbers number ->
  forall l ts e, means number l ts e -> separated ts -> crowded ts ->
  exists m, snd (from_infix number true (preprocess (str l))) = Err m.
Proof.
  intros num number sane l ts e M S K. apply extras_start in K. pose proof (typed_weight number l ts e sane M S) as Ew. rewrite W_counts in Ew.
  apply (c41_counts_partial number true (proj1 sane) _ (tokens (preprocess (str l)))); [apply words_of_tokens|]. right. lia.
Qed.
Print Assumptions c82_rejected.
Theorem c82_rejected_answer : forall (num : Type) (N : NumOps num) fmt5 stof, sane_numbers stof ->
  forall l ts e, means stof l ts e -> separated ts -> crowded ts ->
  exists m, forall n, session fmt5 stof n [str l] = ([Failure m], AtEof).
Proof.
  intros num N fmt5 stof sane l ts e M S K. destruct (trim_cases l) as [B|(b & m & b' & El & Hb & Hb' & Hm & Tm)].
  - exfalso. destruct M as (ps & us & Hl & Hp & Hu & Hi). apply lexed_wd in Hl.
    replace ts with (@nil string) in Hp.
    2:{ rewrite <- Hl. rewrite <- (app_nil_r l), wd_blank_l by exact B. reflexivity. }
    inversion Hp; subst. inversion Hu; subst.
    assert (NE : forall k us (e : expr num), infix_of stof "i" k us e -> us <> []) by (intros k us e'; induction 1; try discriminate; auto; destruct ts; [congruence|discriminate]).
    now apply NE in Hi.
  - assert (M' : means stof m ts e).
    { destruct M as (ps & us & Hl & Hr'). exists ps, us. split; [|exact Hr']. apply lexed_wd in Hl. rewrite El, wd_blank_l, wd_blank_r in Hl by assumption.
      rewrite <- Hl. apply wd_lexed. }
    destruct (c82_rejected num stof sane m ts e M' S K) as (s & E). exists s. intros n. subst l.
    pose proof (proj1 (proj2 (c60_lines fmt5 stof n)) b b' m Hb Hb') as E'. rewrite E'. clear E'.
    rewrite session_one, Tm. rewrite (str_nonempty m Hm). destruct (String.eqb_spec (str m) "exit") as [X|_].
    + exfalso. destruct M' as (ps & us & Hl & _). apply lexed_wd in Hl. rewrite <- (list_ascii_of_string_of_list_ascii m), X in Hl.
      change (["exit"] = ts) in Hl. subst ts. destruct K as ([|? [|]] & ? & ? & ? & E' & _); discriminate E'.
    + unfold answer. now rewrite E.
Qed.
Print Assumptions c82_rejected_answer.

(** Together: exactly the expressions without such places are read as written. *)
Theorem c82_exact : forall (num : Type) (number : string -> option num), sane_numbers number ->
  forall l ts e, means number l ts e -> separated ts -> (forall ts1 u ts2, ts = ts1 ++ ")" :: u :: ts2 -> ~ several u) ->
  (from_infix number true (preprocess (str l)) = ret e <-> ~ crowded ts).
Proof.
  intros num number sane l ts e M S Hs. split.
  - intros E K. destruct (c82_rejected num number sane l ts e M S K) as (m & Em). rewrite E in Em. discriminate Em.
  - intros K. apply (c82_reads_partial num number sane l ts e M). split; [exact S|]. intros ts1 t u ts2 E.
    repeat split; intros [K1 K2]; try (apply K; exists ts1, t, u, ts2; now auto). subst t. now apply (Hs ts1 u ts2).
Qed.
Print Assumptions c82_exact.
Example c82_rejected_case : means q_read (text "((1))") ["("; "("; "1"; ")"; ")"] (EReal (inject_Z 1)) /\ separated ["("; "("; "1"; ")"; ")"] /\
  crowded ["("; "("; "1"; ")"; ")"] /\ (forall ts1 u ts2, ["("; "("; "1"; ")"; ")"] = ts1 ++ ")" :: u :: ts2 -> ~ several u).
Proof.
  split; [exact one_typed|]. split; [|split].
  - cbn. repeat split; try (left; exists "("%char; split; [reflexivity|cbn; tauto]); right; exists ")"%char; (split; [reflexivity|cbn; tauto]).
  - exists [], "(", "(", ["1"; ")"; ")"]. auto.
  - intros ts1 u ts2 E. assert (u = ")") as ->.
    { destruct ts1 as [|? [|? [|? [|? [|? ts1]]]]]; try discriminate E; [now injection E|]. injection E as _ _ _ _ _ E. destruct ts1; discriminate E. }
    now apply punct_several.
Qed.

(** 2xy (x + 3z)y^2 - log(2, 8) *)
Definition long_text : list ascii := text "2xy (x + 3z)y^2 - log(2, 8)".
Definition long_tree : expr Q :=
  ESub (EMul (EMul (EMul (EMul (qr 2) (qv "x")) (qv "y")) (EAdd (qv "x") (EMul (qr 3) (qv "z")))) (EExp (qv "y") (qr 2))) (ELog (qr 2) (qr 8)).
Example c82_case : means q_read long_text (wd long_text) long_tree /\ clear (wd long_text) /\
  wd long_text = ["2xy"; "("; "x"; "+"; "3z"; ")"; "y"; "^"; "2"; "-"; "log"; "("; "2"; ","; "8"; ")"] /\
  from_infix q_read true (preprocess (str long_text)) = ret long_tree.
Proof.
  assert (M : means q_read long_text (wd long_text) long_tree).
  { apply means_intro; [vm_compute; reflexivity|].
    change (infix_of q_read "i" 1 ((((((["2"] ++ "*" :: ["x"]) ++ "*" :: ["y"]) ++ "*" :: ("(" :: (["x"] ++ "+" :: (["3"] ++ "*" :: ["z"])) ++ [")"]))
      ++ "*" :: (["y"] ++ "^" :: ["2"]))) ++ "-" :: ("log" :: "(" :: ["2"] ++ "," :: ["8"] ++ [")"])) long_tree).
    eapply ix_op; [constructor| |].
    - apply ix_up. eapply ix_op; [constructor| |].
      + eapply ix_op; [constructor| |].
        * eapply ix_op; [constructor| |apply ix_up; leaf]. eapply ix_op; [constructor|do 2 apply ix_up; leaf|apply ix_up; leaf].
        * apply ix_up. apply ix_paren. eapply ix_op; [constructor|do 3 apply ix_up; leaf|]. eapply ix_op; [constructor|do 2 apply ix_up; leaf|apply ix_up; leaf].
      + eapply ix_op; [constructor|apply ix_up; leaf|leaf].
    - do 2 apply ix_up. apply ix_call; [constructor|do 3 apply ix_up; leaf|do 3 apply ix_up; leaf]. }
  assert (C : clear (wd long_text)) by (apply clear_intro; vm_compute; reflexivity).
  split; [exact M|]. split; [exact C|]. split; [vm_compute; reflexivity|].
  exact (c82_reads_partial Q q_read (num_sane inject_Z) _ _ _ M C).
Qed.

(** ** C83: Typed arithmetic is answered with its value *)
Section Answer.
  Context {num : Type} {N : NumOps num} (fmt5 : num -> string) (stof : string -> option num).
  Hypothesis sane : sane_numbers stof.

  Lemma infix_nonempty k ts e : infix_of stof "i" k ts e -> ts <> [].
  Proof. induction 1; try discriminate; auto. destruct ts; [congruence|discriminate]. Qed.
  Lemma exit_read : from_infix stof true (preprocess "exit") = ret (EMul (EMul (EMul EEuler (EVar "x")) EImag) (EVar "t")).
  Proof.
    apply (from_infix_tokens stof true); [apply sane|].
    change (tokens (preprocess "exit")) with (((["e"] ++ "*" :: ["x"]) ++ "*" :: ["i"]) ++ "*" :: ["t"]).
    assert (K : forall c, letter c -> stof (String c "") = None) by apply sane.
    apply ix_up. eapply ix_op; [constructor| |apply ix_up, ix_operand, opd_var].
    - eapply ix_op; [constructor| |apply ix_up, ix_operand, opd_imag].
      + eapply ix_op; [constructor|do 2 apply ix_up; apply ix_operand, opd_e|apply ix_up, ix_operand, opd_var].
        * apply (K "e"%char). right. cbv. lia.
        * apply (K "x"%char). right. cbv. lia.
        * intros H; cbn in H; repeat (destruct H as [H|H]; [discriminate H|]); destruct H.
        * discriminate.
        * discriminate.
      + apply (K "i"%char). right. cbv. lia.
    - apply (K "t"%char). right. cbv. lia.
    - intros H; cbn in H; repeat (destruct H as [H|H]; [discriminate H|]); destruct H.
    - discriminate.
    - discriminate.
  Qed.

  (* a text is answered by the text of what Simplify makes of it *)
  Lemma means_answer l ts e : means stof l ts e -> clear ts -> ts <> ["exit"] ->
    forall n r t, snd (simp n false e) = Ok r -> infix fmt5 r = inl t -> session fmt5 stof n [str l] = ([Success t], AtEof).
  Proof.
    intros M C Hx n r t Hr Ht. destruct (trim_cases l) as [B|(b & m & b' & El & Hb & Hb' & Hm & Tm)].
    - exfalso. destruct M as (ps & us & Hl & Hp & Hu & Hi). apply lexed_wd in Hl.
      replace ts with (@nil string) in Hp.
      2:{ rewrite <- Hl. rewrite <- (app_nil_r l), wd_blank_l by exact B. reflexivity. }
      inversion Hp; subst. inversion Hu; subst. now apply infix_nonempty in Hi.
    - subst l. pose proof (proj1 (proj2 (c60_lines fmt5 stof n)) b b' m Hb Hb') as E. rewrite E. clear E.
      assert (M' : means stof m ts e).
      { destruct M as (ps & us & Hl & Hr'). exists ps, us. split; [|exact Hr']. apply lexed_wd in Hl. rewrite wd_blank_l, wd_blank_r in Hl by assumption.
        rewrite <- Hl. apply wd_lexed. }
      rewrite session_one, Tm. rewrite (str_nonempty m Hm). destruct (String.eqb_spec (str m) "exit") as [E|_].
      + exfalso. apply Hx. destruct M' as (ps & us & Hl & _). apply lexed_wd in Hl. rewrite <- Hl.
        rewrite <- (list_ascii_of_string_of_list_ascii m), E. reflexivity.
      + unfold answer. rewrite (c82_reads_partial num stof sane m ts e M' C). cbn [snd ret]. now rewrite Hr, Ht.
  Qed.
  Lemma literal_not_exit l ts e : means stof l ts e -> clear ts -> literal e -> ts <> ["exit"].
  Proof.
    intros M C L ->. assert (M' : means stof (text "exit") ["exit"] e).
    { destruct M as (ps & us & Hl & Hr). exists ps, us. split; [|exact Hr]. apply (wd_lexed (text "exit")). }
    apply (c82_reads_partial num stof sane) in M'; [|exact C]. rewrite string_of_list_ascii_of_string, exit_read in M'.
    injection M' as <-. cbn in L. tauto.
  Qed.
  Lemma literal_answer l ts e c : means stof l ts e -> clear ts -> literal e -> simplifies_to e (EReal c) ->
    exists n0, forall n, (n0 <= n)%nat -> session fmt5 stof n [str l] = ([Success (fmt5 c)], AtEof).
  Proof.
    intros M C L (n0 & H). exists n0. intros n Hn. apply (means_answer l ts e M C (literal_not_exit l ts e M C L) n (EReal c)); [now apply H|reflexivity].
  Qed.
End Answer.

Definition C83_statement : Prop :=
  forall (num : Type) (N : NumOps num), ieee_units N ->
  forall fmt5 stof, sane_numbers stof ->
  forall l ts e, means stof l ts e -> literal e ->
  exists n0, forall n, (n0 <= n)%nat -> session fmt5 stof n [str l] = ([Success (fmt5 (double_value e))], AtEof).

(** ((1)) is rejected. *)
Definition r_read (s : string) : option R := if is_num s then Some (IZR (value s)) else None.
Theorem c83_refuted : ~ C83_statement.
Proof.
  intros S. destruct (S R R_ops R_ieee (fun _ => ""%string) r_read (num_sane IZR) (text "((1))") (wd (text "((1))")) (EReal (IZR 1))) as (n0 & H).
  - apply means_intro; [vm_compute; reflexivity|]. change (infix_of r_read "i" 1 ("(" :: ("(" :: ["1"] ++ [")"]) ++ [")"]) (EReal (IZR 1))).
    do 3 apply ix_up. apply ix_paren. do 3 apply ix_up. apply ix_paren. do 3 apply ix_up. leaf.
  - exact I.
  - specialize (H n0 (le_n n0)). rewrite session_one in H.
    assert (E : snd (from_infix r_read true (preprocess "((1))")) = Err "Invalid number of operands") by (vm_compute; reflexivity).
    change (trim (str (text "((1))"))) with "((1))" in H. unfold answer in H. rewrite E in H. discriminate H.
Qed.
Print Assumptions c83_refuted.

(** Missing: texts that are not read as written (C82) and products and powers
    that Simplify does not compute (C13). *)
Theorem c83_arithmetic_partial : forall (num : Type) (N : NumOps num), ieee_units N ->
  forall fmt5 stof, sane_numbers stof ->
  forall l ts e, means stof l ts e -> clear ts -> literal e -> Spec.ordinary e ->
  exists n0, forall n, (n0 <= n)%nat -> session fmt5 stof n [str l] = ([Success (fmt5 (double_value e))], AtEof).
Proof.
  intros num N U fmt5 stof sane l ts e M C L O. apply (literal_answer fmt5 stof sane l ts e); auto. now apply c13_fold_constants_partial.
Qed.
Print Assumptions c83_arithmetic_partial.

(** Any arithmetic that is read as written gets a number as its answer. *)
Theorem c83_number : forall (num : Type) (N : NumOps num) fmt5 stof, sane_numbers stof ->
  forall l ts e, means stof l ts e -> clear ts -> literal e ->
  exists c n0, forall n, (n0 <= n)%nat -> session fmt5 stof n [str l] = ([Success (fmt5 c)], AtEof).
Proof.
  intros num N fmt5 stof sane l ts e M C L. destruct (c13_single_literal num N e L) as (c & Hc). exists c. now apply (literal_answer fmt5 stof sane l ts e).
Qed.
Print Assumptions c83_number.

(** Sums, differences and products of integers are exact. *)
Lemma integer_fold {num} (N : NumOps num) lit ok (IL : IntLits N lit ok) (e : expr num) z : integer_value lit ok e z ->
  literal e /\ lit (fold_lit e) z.
Proof.
  induction 1 as [c z H|a b x y _ [La Ha] _ [Lb Hb] Ho|a b x y _ [La Ha] _ [Lb Hb] Ho|a b x y _ [La Ha] _ [Lb Hb] Ho]; cbn [literal fold_lit fold2]; (split; [tauto|]).
  - exact H.
  - now apply (il_add _ _ _ IL).
  - now apply (il_sub _ _ _ IL).
  - unfold tiny. rewrite (il_tiny _ _ _ IL _ _ Ha). destruct (Z.eqb_spec x 0) as [->|Hx].
    + change (0 * y) with 0. apply (il_of_Z _ _ _ IL). eapply (il_ok_le _ _ _ IL); [apply (il_ok_2 _ _ _ IL)|lia].
    + assert (H1 : lit n1 1) by (apply (il_of_Z _ _ _ IL); eapply (il_ok_le _ _ _ IL); [apply (il_ok_2 _ _ _ IL)|lia]).
      rewrite (il_eqb _ _ _ IL _ _ _ _ Ha H1). destruct (Z.eqb_spec x 1) as [->|Hx1].
      * now rewrite Z.mul_1_l.
      * now apply (il_mul _ _ _ IL).
Qed.
Theorem c83_integers_partial : forall (num : Type) (N : NumOps num) lit ok, IntLits N lit ok ->
  forall fmt5 stof, sane_numbers stof ->
  forall l ts e z, means stof l ts e -> clear ts -> integer_value lit ok e z ->
  exists c n0, lit c z /\ forall n, (n0 <= n)%nat -> session fmt5 stof n [str l] = ([Success (fmt5 c)], AtEof).
Proof.
  intros num N lit ok IL fmt5 stof sane l ts e z M C V. destruct (integer_fold N lit ok IL e z V) as [L F].
  destruct (literal_answer fmt5 stof sane l ts e (fold_lit e) M C L) as (n0 & A).
  { exists (height e). intros n prefer Hn. now apply literal_fold. }
  exists (fold_lit e), n0. auto.
Qed.
Print Assumptions c83_integers_partial.
Theorem c83_doubles : forall pw lg pwx lgx, let N := double_ops pw lg pwx lgx in
  forall fmt5 stof, sane_numbers stof -> forall l ts e z, means stof l ts e -> clear ts -> integer_value d_int d_ok e z ->
  exists c n0, B2R c = IZR z /\ forall n, (n0 <= n)%nat -> session fmt5 stof n [str l] = ([Success (fmt5 c)], AtEof).
Proof.
  intros pw lg pwx lgx N fmt5 stof sane l ts e z M C V.
  destruct (c83_integers_partial double N d_int d_ok (double_ints pw lg pwx lgx) fmt5 stof sane l ts e z M C V) as (c & n0 & Hc & A).
  exists c, n0. split; [exact (proj2 Hc)|exact A].
Qed.
Print Assumptions c83_doubles.

(** 12 - 3(4 - 2*5) is 30. *)
Definition sum_text : list ascii := text "12 - 3(4 - 2*5)".
Definition sum_tree : expr Q := ESub (qr 12) (EMul (qr 3) (ESub (qr 4) (EMul (qr 2) (qr 5)))).
Example c83_case : means q_read sum_text (wd sum_text) sum_tree /\ clear (wd sum_text) /\ integer_value q_int any sum_tree (12 - 3 * (4 - 2 * 5)) /\
  exists c n0, (c == inject_Z 30)%Q /\ forall n, (n0 <= n)%nat -> session q_show q_read n [str sum_text] = ([Success (q_show c)], AtEof).
Proof.
  assert (M : means q_read sum_text (wd sum_text) sum_tree).
  { apply means_intro; [vm_compute; reflexivity|].
    change (infix_of q_read "i" 1 (["12"] ++ "-" :: (["3"] ++ "*" :: ("(" :: (["4"] ++ "-" :: (["2"] ++ "*" :: ["5"])) ++ [")"]))) sum_tree).
    eapply ix_op; [constructor|do 3 apply ix_up; leaf|]. eapply ix_op; [constructor|do 2 apply ix_up; leaf|]. apply ix_up. apply ix_paren.
    eapply ix_op; [constructor|do 3 apply ix_up; leaf|]. eapply ix_op; [constructor|do 2 apply ix_up; leaf|apply ix_up; leaf]. }
  assert (C : clear (wd sum_text)) by (apply clear_intro; vm_compute; reflexivity).
  assert (V : integer_value q_int any sum_tree (12 - 3 * (4 - 2 * 5))).
  { apply iv_sub; [apply iv_number; reflexivity| |exact I]. apply iv_mul; [apply iv_number; reflexivity| |exact I].
    apply iv_sub; [apply iv_number; reflexivity| |exact I]. apply iv_mul; [apply iv_number; reflexivity|apply iv_number; reflexivity|exact I]. }
  split; [exact M|]. split; [exact C|]. split; [exact V|].
  exact (c83_integers_partial Q Q_ops q_int any q_ints q_show q_read (num_sane inject_Z) _ _ _ _ M C V).
Qed.

(** ** C84: An answer has the value of what was typed *)
Definition C84_statement : Prop :=
  forall (num : Type) (N : NumOps num) (toR : num -> R), Exact N toR ->
  forall fmt5 stof, sane_numbers stof ->
  forall l ts e, means stof l ts e ->
  forall n t, session fmt5 stof n [str l] = ([Success t], AtEof) ->
  exists r, infix fmt5 r = inl t /\ forall rho v, ev toR e rho v -> ev toR r rho v.

(** (x+y)/(x+y+z) is answered with 1. *)
Definition xyz_tree : expr Q := EDiv (EAdd (qv "x") (qv "y")) (EAdd (EAdd (qv "x") (qv "y")) (qv "z")).
Lemma xyz_means : means q_read (text "(x+y)/(x+y+z)") (wd (text "(x+y)/(x+y+z)")) xyz_tree.
Proof.
  apply means_intro; [vm_compute; reflexivity|].
  change (infix_of q_read "i" 1 (("(" :: (["x"] ++ "+" :: ["y"]) ++ [")"]) ++ "/" :: ("(" :: ((["x"] ++ "+" :: ["y"]) ++ "+" :: ["z"]) ++ [")"])) xyz_tree).
  apply ix_up. eapply ix_op; [constructor|do 2 apply ix_up; apply ix_paren|apply ix_up; apply ix_paren].
  - eapply ix_op; [constructor|do 3 apply ix_up; leaf|do 2 apply ix_up; leaf].
  - eapply ix_op; [constructor| |do 2 apply ix_up; leaf]. eapply ix_op; [constructor|do 3 apply ix_up; leaf|do 2 apply ix_up; leaf].
Qed.
Definition at_z (c : R) (s : string) : R := if String.eqb s "z" then c else 1%R.
Lemma xyz_value c : (0 < c)%R -> ev Q2R xyz_tree (at_z c) (RtoC (2 / (2 + c))).
Proof.
  intros Hc. replace (RtoC (2 / (2 + c))) with (Cdiv (Cplus (RtoC 1) (RtoC 1)) (Cplus (Cplus (RtoC 1) (RtoC 1)) (RtoC c))).
  - apply ev_div; [repeat eexists|repeat eexists|]. rewrite <- !RtoC_plus. apply RtoC_neq. lra.
  - rewrite <- !RtoC_plus, <- RtoC_div by lra. reflexivity.
Qed.
Theorem c84_refuted : ~ C84_statement.
Proof.
  intros S. destruct (S Q Q_ops Q2R Q_exact (fun _ => "1") q_read (num_sane inject_Z) _ _ _ xyz_means 60%nat "1") as (r & Hi & Hv).
  - vm_compute. reflexivity.
  - assert (K : ev Q2R r (at_z 1) (RtoC (2 / (2 + 1))) /\ ev Q2R r (at_z 2) (RtoC (2 / (2 + 2)))) by (split; apply Hv, xyz_value; lra).
    assert (E : (2 / (2 + 1) <> 2 / (2 + 2))%R) by lra.
    destruct r as [c| |x| | | |m1 m2 m3|o a b|o a]; cbn [infix] in Hi; try discriminate Hi.
    + destruct K as [K1 K2]. cbn in K1, K2. apply E, RtoC_inj. congruence.
    + injection Hi as ->. destruct K as [K1 K2]. cbn in K1, K2. apply E, RtoC_inj. congruence.
    + destruct (infix _ a), (infix _ b); try discriminate Hi. destruct o; discriminate Hi.
    + destruct (infix _ a); try discriminate Hi. destruct o; discriminate Hi.
Qed.
Print Assumptions c84_refuted.

Lemma means_trim {num} (stof : string -> option num) l ts e : means stof l ts e -> exists m, trim (str l) = str m /\ means stof m ts e.
Proof.
  intros M. destruct (trim_cases l) as [B|(b & m & b' & El & Hb & Hb' & Hm & Tm)].
  - exfalso. destruct M as (ps & us & Hl & Hp & Hu & Hi). apply lexed_wd in Hl.
    replace ts with (@nil string) in Hp.
    2:{ rewrite <- Hl. rewrite <- (app_nil_r l), wd_blank_l by exact B. reflexivity. }
    inversion Hp; subst. inversion Hu; subst. now apply infix_nonempty in Hi.
  - subst l. exists m. split.
    + rewrite trim_padded by assumption. exact Tm.
    + destruct M as (ps & us & Hl & Hr'). exists ps, us. split; [|exact Hr']. apply lexed_wd in Hl. rewrite wd_blank_l, wd_blank_r in Hl by assumption.
      rewrite <- Hl. apply wd_lexed.
Qed.

(** Proved for texts that are read as written, if no rule that can change the
    value was used (C12).  Missing: the texts of c82_needed, and the rules of
    C12 that change the value. *)
Theorem c84_value_partial : forall (num : Type) (N : NumOps num) (toR : num -> R), Exact N toR ->
  forall fmt5 stof, sane_numbers stof ->
  forall l ts e, means stof l ts e -> clear ts ->
  forall n t, session fmt5 stof n [str l] = ([Success t], AtEof) -> fst (simp n false e) = [] ->
  exists r, infix fmt5 r = inl t /\ forall rho v, ev toR e rho v -> ev toR r rho v.
Proof.
  intros num N toR EX fmt5 stof sane l ts e M C n t Hs Hf.
  destruct (c63_again_partial num N fmt5 stof sane n (str l) t Hs) as (e' & r & Hr & Hn & Ht & _).
  destruct (means_trim stof l ts e M) as (m & Em & Mm). rewrite Em, (c82_reads_partial num stof sane m ts e Mm C) in Hr. injection Hr as <-.
  exists r. split; [exact Ht|]. apply (c12_simplify_value_partial num N toR EX n false). rewrite <- Hf, <- Hn. apply surjective_pairing.
Qed.
Print Assumptions c84_value_partial.

(** Polynomials written with parentheses are always answered, by an expression
    with the same value; if two or more terms are left, by the combined terms. *)
Theorem c84_polynomials_partial : forall (num : Type) (N : NumOps num) lit ok, IntLits N lit ok ->
  forall toR, (forall c z, lit c z -> toR c = IZR z) ->
  forall fmt5 stof, sane_numbers stof ->
  forall l ts e ms D, means stof l ts e -> clear ts -> poly lit ok false false e ms -> ok (weight ms) -> exponents_to D ms ->
  exists r t n0, (forall rho, ev toR r rho (RtoC (typed_value rho ms))) /\
    (two_left ms -> exists ls, tree_over OAdd (Nat.log2_up (length ls)) ls r /\ combined lit ls ms) /\ infix fmt5 r = inl t /\
    forall n, (n0 <= n)%nat -> session fmt5 stof n [str l] = ([Success t], AtEof).
Proof.
  intros num N lit ok IL toR HR fmt5 stof sane l ts e ms D M C He Hw HD.
  destruct (poly_plain lit ok IL false false e ms He Hw) as (r & tr & Y & P & T & K).
  destruct (plain_printed lit fmt5 false r tr P) as (t & Ht). destruct (yields_always _ _ _ Y) as (n0 & Hn).
  exists r, t, n0. split; [|split; [|split; [exact Ht|]]].
  - intros rho. rewrite (typed_rsum D rho ms HD), <- (csum_rsum rho ms (exponents_kok D rho ms HD)), <- (csum_totals rho tr ms T).
    apply (ev_plain lit toR HR rho false r tr P). intros p Hp. now apply (exponents_kok D rho ms HD), K.
  - intros H2. destruct (c58_like_terms_partial num N lit ok IL false false e ms He Hw H2) as (ls & r' & Y' & B & Cb).
    assert (r' = r) by (eapply always_fun; [exact Y'|now exists n0]). subst r'. now exists ls.
  - intros n L. apply (means_answer fmt5 stof sane l ts e M C) with (r := r); [|now rewrite (Hn n L)|exact Ht].
    intros ->. assert (M' : means stof (text "exit") ["exit"] e).
    { destruct M as (ps & us & Hl & Hr). exists ps, us. split; [|exact Hr]. apply (wd_lexed (text "exit")). }
    apply (c82_reads_partial num stof sane) in M'; [|exact C]. rewrite string_of_list_ascii_of_string, exit_read in M' by exact sane.
    injection M' as <-. inversion He as [? ? ? Ht'| | | | |]; subst. inversion Ht' as [|? ? ? Hp|? ? ? ? ? ? ? Hp Hm]; subst; [inversion Hp|].
    inversion Hm.
Qed.
Print Assumptions c84_polynomials_partial.

(** 2x - (3x^2 + 4y - (2y - x) + 5) + 1 *)
Definition nested_text : list ascii := text "2x - (3x^2 + 4y - (2y - x) + 5) + 1".
Definition nested_tree : expr Q :=
  EAdd (ESub (EMul (qr 2) (qv "x"))
     (EAdd (ESub (EAdd (EMul (qr 3) (EExp (qv "x") (qr 2))) (EMul (qr 4) (qv "y"))) (ESub (EMul (qr 2) (qv "y")) (qv "x"))) (qr 5))) (qr 1).
Definition nested_terms : list monomial :=
  ([(Some ("x", 1), 2)] ++ scale (-1) ((([(Some ("x", 2), 3)] ++ [(Some ("y", 1), 4)]) ++ scale (-1) ([(Some ("y", 1), 2)] ++ scale (-1) [(Some ("x", 1), 1)])) ++ [(None, 5)]))
  ++ [(None, 1)].
Lemma nested_means : means q_read nested_text (wd nested_text) nested_tree.
Proof.
  apply means_intro; [vm_compute; reflexivity|].
  change (infix_of q_read "i" 1 (((["2"] ++ "*" :: ["x"]) ++ "-" :: ("(" :: ((((["3"] ++ "*" :: (["x"] ++ "^" :: ["2"])) ++ "+" :: (["4"] ++ "*" :: ["y"]))
     ++ "-" :: ("(" :: ((["2"] ++ "*" :: ["y"]) ++ "-" :: ["x"]) ++ [")"])) ++ "+" :: ["5"]) ++ [")"])) ++ "+" :: ["1"]) nested_tree).
  eapply ix_op; [constructor| |do 2 apply ix_up; leaf]. eapply ix_op; [constructor| |].
  - apply ix_up. eapply ix_op; [constructor|do 2 apply ix_up; leaf|apply ix_up; leaf].
  - do 2 apply ix_up. apply ix_paren. eapply ix_op; [constructor| |do 2 apply ix_up; leaf]. eapply ix_op; [constructor| |].
    + eapply ix_op; [constructor| |].
      * apply ix_up. eapply ix_op; [constructor|do 2 apply ix_up; leaf|]. eapply ix_op; [constructor|apply ix_up; leaf|leaf].
      * eapply ix_op; [constructor|do 2 apply ix_up; leaf|apply ix_up; leaf].
    + do 2 apply ix_up. apply ix_paren. eapply ix_op; [constructor| |do 2 apply ix_up; leaf].
      apply ix_up. eapply ix_op; [constructor|do 2 apply ix_up; leaf|apply ix_up; leaf].
Qed.
Lemma nested_clear : clear (wd nested_text).
Proof. apply clear_intro; vm_compute; reflexivity. Qed.
Lemma scaled_term c z x : q_int c z -> poly q_int any false false (EMul (EReal c) (qv x)) [(Some (x, 1), z)].
Proof. intros H. apply po_term. eapply tm_scaled; [exact H|apply pw_var|constructor]. Qed.
Lemma nested_poly : poly q_int any false false nested_tree nested_terms.
Proof.
  apply po_add; [|apply po_term, tm_const; reflexivity|right; left; reflexivity].
  apply po_sub; [apply scaled_term; reflexivity| |left; reflexivity|now left].
  apply po_add; [|apply po_term, tm_const; reflexivity|right; left; reflexivity].
  apply po_sub; [| | |now left].
  - apply po_add; [|apply scaled_term; reflexivity|left; reflexivity].
    apply po_term. eapply tm_scaled; [reflexivity|apply pw_exp; [reflexivity|lia|lia]|constructor].
  - apply po_sub; [apply scaled_term; reflexivity|apply po_term, tm_power, pw_var|left; reflexivity|now left].
  - right; right. exists ("x", 2). split; [vm_compute; discriminate|]. cbn. intros [H|[H|[]]]; discriminate H.
Qed.
Lemma nested_exponents : exponents_to 2 nested_terms.
Proof. intros x k H. cbn in H. repeat (destruct H as [H|H]; [try discriminate H; injection H as _ <-; lia|]). destruct H. Qed.
Example c84_case : means q_read nested_text (wd nested_text) nested_tree /\ clear (wd nested_text) /\
  poly q_int any false false nested_tree nested_terms /\ exponents_to 2 nested_terms /\ two_left nested_terms /\
  session q_show q_read 60 [str nested_text] = ([Success "((x+(?*(x^2)))+((?*y)+?))"], AtEof) /\ fst (simp 60 false nested_tree) = [].
Proof.
  split; [apply nested_means|]. split; [apply nested_clear|]. split; [apply nested_poly|]. split; [apply nested_exponents|]. split.
  - exists (Some ("x", 2)), (Some ("y", 1)). split; [discriminate|]. split; vm_compute; discriminate.
  - split; vm_compute; reflexivity.
Qed.

(** ** Sessions with typed arithmetic and parentheses (C61) *)
(** Lines on which no crash is possible: those before, arithmetic, and
    polynomials with parentheses. *)
Inductive harmless_text {num} (N : NumOps num) (lit : num -> Z -> Prop) (ok : Z -> Prop) (top : Z) (stof : string -> option num) : list ascii -> Prop :=
| ht_input l : harmless_input N lit ok top stof l -> harmless_text N lit ok top stof l
| ht_arithmetic l ts e : means stof l ts e -> clear ts -> literal e -> harmless_text N lit ok top stof l
| ht_polynomial l ts e ms D : means stof l ts e -> clear ts -> poly lit ok false false e ms -> ok (weight ms) -> exponents_to D ms ->
    harmless_text N lit ok top stof l.

(** Missing: see C61. *)
Theorem c61_texts_partial : forall (num : Type) (N : NumOps num) lit ok, IntLits N lit ok -> signs N lit -> squares N lit ok ->
  forall toR, (forall c z, lit c z -> toR c = IZR z) ->
  forall top, ok top -> Reciprocals N lit top ->
  forall fmt5 stof, sane_numbers stof ->
  forall lines, List.Forall (harmless_text N lit ok top stof) lines ->
  exists n0, forall n, (n0 <= n)%nat -> forall o, snd (session fmt5 stof n (map str lines)) <> Crashed o.
Proof.
  intros num N lit ok IL SG SQ toR HR top Hok RC fmt5 stof sane lines H.
  assert (One : forall l, harmless_text N lit ok top stof l -> exists n0, forall n, (n0 <= n)%nat -> forall o,
     snd (session fmt5 stof n [str l]) <> Crashed o).
  { intros l [l0 Hl|l0 ts e M C L|l0 ts e ms D M C P Hw HD].
    - apply (c61_calls_partial num N lit ok IL SG SQ top Hok RC fmt5 stof sane [l0]). constructor; [exact Hl|constructor].
    - destruct (c83_number num N fmt5 stof sane l0 ts e M C L) as (c & n0 & A). exists n0. intros n Hn o. rewrite (A n Hn). discriminate.
    - destruct (c84_polynomials_partial num N lit ok IL toR HR fmt5 stof sane l0 ts e ms D M C P Hw HD) as (r & t & n0 & _ & _ & _ & A).
      exists n0. intros n Hn o. rewrite (A n Hn). discriminate. }
  induction H as [|l lines Hl Hls (n1 & IH)]; [exists 0%nat; intros; discriminate|].
  destruct (One l Hl) as (n0 & A). exists (n0 + n1)%nat. intros n L o. cbn [map].
  pose proof (proj1 (c60_lines fmt5 stof n) [str l] (map str lines)) as E. cbn [app] in E. rewrite E.
  specialize (A n ltac:(lia)). specialize (IH n ltac:(lia) o).
  destruct (session fmt5 stof n [str l]) as [out [| |o']]; [exact IH|discriminate|]. now destruct (A o').
Qed.
Print Assumptions c61_texts_partial.
Example c61_texts_case : List.Forall (harmless_text Q_ops q_int any (2 ^ 22) q_read) [typed_product; sum_text; nested_text; dd_text].
Proof.
  destruct c83_case as (M & C & V & _). pose proof c61_calls_case as K. inversion K as [|? ? K1 K2]; subst. inversion K2 as [|? ? K3 _]; subst.
  repeat apply List.Forall_cons; [| | | |apply List.Forall_nil].
  - now apply ht_input.
  - eapply ht_arithmetic; [exact M|exact C|cbn; tauto].
  - eapply ht_polynomial; [exact nested_means|exact nested_clear|exact nested_poly|exact I|exact nested_exponents].
  - now apply ht_input.
Qed.
