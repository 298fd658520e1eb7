(** Properties of the infix serializer and parser: C36 - C42. *)
From Coq Require Import String Ascii Bool Arith ZArith QArith Reals Lia Lra.
From Coquelicot Require Import Coquelicot.
From Coq Require Import List.
From Verif Require Import Base Num Expr Spec SpecText InFixSer FromInFix InFixProofs QNum.
Import ListNotations.
Open Scope string_scope.
Open Scope nat_scope.

(** ** C36: InFix serialization is total except for matrices *)

Section C36.
  Context {num : Type} (fmt5 : num -> string).
  Notation expr := (expr num).

  Theorem c36_total (e : expr) :
    (contains_matrix e -> exists m, infix fmt5 e = inr m)
    /\ (~ contains_matrix e -> exists s, infix fmt5 e = inl s).
  Proof.
    induction e as [c| |x| | | |r c d|o a IHa b IHb|o a IHa]; cbn;
      try (split; [contradiction|eauto]).
    - split; [eauto|tauto].
    - destruct IHa as [Ha1 Ha2], IHb as [Hb1 Hb2]. split.
      + intros [H|H].
        * destruct (Ha1 H) as [m ->]. cbn. eauto.
        * destruct (Hb1 H) as [m ->]. destruct (infix fmt5 a); cbn; eauto.
      + intros H. destruct Ha2 as [s ->]; [tauto|]. destruct Hb2 as [t ->]; [tauto|]. cbn. eauto.
    - destruct IHa as [Ha1 Ha2]. split.
      + intros H. destruct (Ha1 H) as [m ->]. eauto.
      + intros H. destruct (Ha2 H) as [s ->]. eauto.
  Qed.

  Lemma depth_app l1 : forall d l2, depth d (l1 ++ l2) = match depth d l1 with Some d' => depth d' l2 | None => None end.
  Proof.
    induction l1 as [|c l1 IH]; intros d l2; [reflexivity|]. cbn [app depth].
    destruct (c =? "(")%char; [apply IH|]. destruct (c =? ")")%char; [|apply IH]. destruct d; [reflexivity|apply IH].
  Qed.
  Lemma depth_shift l : forall d d', depth d l = Some d' -> forall k, depth (k + d) l = Some (k + d').
  Proof.
    induction l as [|c l IH]; intros d d' H k; cbn in *; [congruence|].
    destruct (c =? "(")%char; [rewrite plus_n_Sm; now apply IH|].
    destruct (c =? ")")%char; [|now apply IH]. destruct d; [discriminate|]. rewrite <- plus_n_Sm. now apply IH.
  Qed.
  Lemma balanced_depth s : balanced s -> forall d, depth d (list_ascii_of_string s) = Some d.
  Proof. intros H d. specialize (depth_shift _ _ _ H d). now rewrite Nat.add_0_r. Qed.

  Theorem c36_balanced (e : expr) s : leaves_balanced fmt5 e -> infix fmt5 e = inl s -> balanced s.
  Proof.
    revert s. induction e as [c| |x| | | |r c d|o a IHa b IHb|o a IHa]; cbn [leaves_balanced infix]; intros s Hl H;
      try (injection H as <-; auto; reflexivity); try discriminate.
    - destruct Hl as [Ha Hb]. destruct (infix fmt5 a) as [x|]; [|discriminate].
      destruct (infix fmt5 b) as [y|]; [|discriminate]. injection H as <-.
      specialize (IHa _ Ha eq_refl). specialize (IHb _ Hb eq_refl).
      assert (Da := balanced_depth _ IHa). assert (Db := balanced_depth _ IHb).
      unfold balanced. destruct o; cbn [bin_text]; unfold arith, func; rewrite !laos_app; cbn;
        repeat (rewrite ?depth_app, ?Da, ?Db; cbn); reflexivity.
    - destruct (infix fmt5 a) as [x|]; [|discriminate]. injection H as <-.
      specialize (IHa _ Hl eq_refl). assert (Da := balanced_depth _ IHa).
      unfold balanced. destruct o; cbn; rewrite !laos_app; repeat (rewrite ?depth_app, ?Da; cbn); reflexivity.
  Qed.
End C36.
Print Assumptions c36_total.
Print Assumptions c36_balanced.

Definition show (q : Q) : string := if Qeq_bool q 2 then "2" else "0.5".
Example c36_case :
  leaves_balanced show (EAdd (EVar "x") (ELog (EReal 2%Q) (ENeg (EVar "y"))))
  /\ infix show (EAdd (EVar "x") (ELog (EReal 2%Q) (ENeg (EVar "y")))) = inl "(x+log(2,-(y)))"
  /\ balanced "(x+log(2,-(y)))" /\ ~ balanced ")x(".
Proof. repeat split; try reflexivity. discriminate. Qed.
Example c36_matrix_case : contains_matrix (EAdd (EVar "x") (EMat 1 1 [2%Q])).
Proof. right. exact I. Qed.

(** ** C37: InFix round trip *)

Section C37.
  Context {num : Type} (fmt5 : num -> string) (stof : string -> option num).
  Notation expr := (expr num).

  Definition C37_statement : Prop :=
    forall e : expr, school fmt5 stof e ->
    exists s, infix fmt5 e = inl s /\ snd (from_infix stof true (preprocess s)) = Ok e.

  Lemma letter_x c : In c ["x"; "y"; "z"]%char -> letter c.
  Proof. intros H. right. cbn in H. repeat (destruct H as [<-|H]; [cbv; lia|]). destruct H. Qed.

  (** Nested parentheses are broken by the preprocessor: it turns the text
      ((x+y)+z) into ( * (x+y)+z ). *)
  Theorem c37_refuted : sane_numbers stof -> ~ C37_statement.
  Proof.
    intros [Hr Hl] H.
    destruct (H (EAdd (EAdd (EVar "x") (EVar "y")) (EVar "z"))) as (s & Hs & Hp).
    { cbn. repeat split; eexists; (split; [reflexivity|]); (split; [apply letter_x; cbn; auto|]); split; discriminate. }
    cbn in Hs. injection Hs as <-.
    replace (preprocess (arith "+" (arith "+" "x" "y") "z"))
      with " (  *  ( x + y )  + z ) " in Hp by reflexivity.
    unfold from_infix in Hp.
    replace (tokens _) with ["("; "*"; "("; "x"; "+"; "y"; ")"; "+"; "z"; ")"] in Hp by reflexivity.
    cbn [parse_loop] in Hp. unfold parse_token in Hp.
    repeat (rewrite (Hr "(") in Hp by (cbn; auto 20)).
    repeat (rewrite (Hr ")") in Hp by (cbn; auto 20)).
    repeat (rewrite (Hr "+") in Hp by (cbn; auto 20)).
    repeat (rewrite (Hr "*") in Hp by (cbn; auto 20)).
    rewrite (Hl "x"%char), (Hl "y"%char), (Hl "z"%char) in Hp by (apply letter_x; cbn; auto).
    cbn in Hp. discriminate Hp.
  Qed.

  (** Missing: the multiplication signs inserted by the preprocessor between
      parentheses.  Without that pass every expression is read back. *)
  Theorem c37_spaced_partial : sane_numbers stof ->
    forall e : expr, school fmt5 stof e ->
    exists s, infix fmt5 e = inl s /\ from_infix stof true (spaced s) = ret e.
  Proof.
    intros Hs e He. assert (Hw := school_writable _ _ Hs _ He).
    destruct (infix_text _ _ _ Hw) as (s & Hi & Ht). exists s. split; [exact Hi|].
    apply from_infix_tokens; [apply Hs|]. rewrite (tokens_spaced_toks _ _ _ _ Hw Ht).
    assert (Hx := toks_infix _ _ _ Hw). rewrite (school_reread _ _ _ He) in Hx.
    do 3 apply ix_up. exact Hx.
  Qed.

  (** Missing: expressions in whose text two opening or two closing
      parentheses, or a comma and an opening parenthesis, are adjacent. *)
  Theorem c37_preprocessed_partial : sane_numbers stof ->
    forall e : expr, school fmt5 stof e -> shallow e ->
    exists s, infix fmt5 e = inl s /\ from_infix stof true (preprocess s) = ret e.
  Proof.
    intros Hs e He Hsh. assert (Hw := school_writable _ _ Hs _ He).
    destruct (infix_text _ _ _ Hw) as (s & Hi & Ht).
    destruct (c37_spaced_partial Hs e He) as (s' & Hi' & Hr).
    rewrite Hi in Hi'. injection Hi' as <-. exists s. split; [exact Hi|].
    unfold preprocess. rewrite (tokens_spaced_toks _ _ _ _ Hw Ht), implicit_quiet.
    - rewrite <- Ht, string_of_list_ascii_of_string. exact Hr.
    - apply quiets_shallow; [exact Hsh|]. now apply (school_tame _ stof).
  Qed.
End C37.
Print Assumptions c37_refuted.
Print Assumptions c37_spaced_partial.
Print Assumptions c37_preprocessed_partial.

Definition read (s : string) : option Q :=
  if String.eqb s "2" then Some 2%Q else if String.eqb s "0.5" then Some (1 # 2)%Q else None.
Lemma read_sane : sane_numbers read.
Proof.
  split.
  - intros t Ht. cbn in Ht. repeat (destruct Ht as [<-|Ht]; [reflexivity|]). destruct Ht.
  - intros c Hc. unfold read. destruct (String.eqb_spec (String c "") "2") as [E|E].
    + injection E as ->. destruct Hc as [Hc|Hc]; cbv in Hc; lia.
    + destruct (String.eqb_spec (String c "") "0.5") as [E'|E']; [discriminate|reflexivity].
Qed.
Lemma school_var x c : x = String c "" -> letter c -> x <> "i" -> x <> "e" -> school show read (EVar x).
Proof. intros. exists c. auto. Qed.
Example c37_case :
  school show read (EMul (EAdd (EVar "x") (EReal 2%Q)) (ELog EEuler (EExp (EReal (1 # 2)%Q) (EVar "y"))))
  /\ school show read (EAdd (ELog (EDeriv (EVar "x") (EVar "y")) (EReal 2%Q)) EImag)
  /\ shallow (EAdd (ELog (EDeriv (EVar "x") (EVar "y")) (EReal 2%Q)) (EImag : expr Q)).
Proof.
  assert (Hd : forall d, In d (list_ascii_of_string "2") \/ In d (list_ascii_of_string "0.5") -> digit_or_point d).
  { cbn. intros d [Hd|Hd]; repeat (destruct Hd as [<-|Hd]; [try (left; cbv; lia); now right|]); destruct Hd. }
  assert (H2 : school show read (EReal 2%Q)) by (split; [discriminate|split; [intros d Hx; apply Hd; now left|reflexivity]]).
  assert (Hh : school show read (EReal (1 # 2)%Q)) by (split; [discriminate|split; [intros d Hx; apply Hd; now right|reflexivity]]).
  assert (Hx : school show read (EVar "x")) by (eapply school_var; [reflexivity|right; cbv; lia|discriminate|discriminate]).
  assert (Hy : school show read (EVar "y")) by (eapply school_var; [reflexivity|right; cbv; lia|discriminate|discriminate]).
  cbn [school] in *. cbn. tauto.
Qed.

(** ** C38: InFix output of any serializable expression can be parsed back *)

Section C38.
  Context {num : Type} (fmt5 : num -> string) (stof : string -> option num) (toR : num -> R).
  Notation expr := (expr num).

  Definition C38_statement (prepare : string -> string) : Prop :=
    forall (e : expr) s, infix fmt5 e = inl s ->
    exists e', snd (from_infix stof true (prepare s)) = Ok e' /\ forall rho v, ev toR e rho v <-> ev toR e' rho v.

  (** pi is written "pi", which reads as the product of p and i, or as a
      variable named pi. *)
  Theorem c38_refuted : sane_numbers stof -> ~ C38_statement preprocess.
  Proof.
    intros [Hr Hl] H. destruct (H EPi _ eq_refl) as (e' & He & Hv).
    replace (preprocess "pi") with "p * i" in He by reflexivity.
    unfold from_infix in He. replace (tokens _) with ["p"; "*"; "i"] in He by reflexivity.
    cbn [parse_loop] in He. unfold parse_token in He.
    rewrite (Hr "*") in He by (cbn; auto 20).
    rewrite (Hl "p"%char), (Hl "i"%char) in He by (right; cbv; lia).
    cbn in He. injection He as <-.
    destruct (proj1 (Hv (fun _ => 0%R) (RtoC PI)) eq_refl) as (p & q & Hp & Hq & E). cbn in Hp, Hq. subst p q.
    assert (E' := f_equal fst E). cbn in E'. assert (Hpi := PI_RGT_0). lra.
  Qed.
  Theorem c38_refuted_unprepared : sane_numbers stof -> stof "pi" = None -> ~ C38_statement (fun s => s).
  Proof.
    intros Hs Hpi H. destruct (H EPi _ eq_refl) as (e' & He & Hv).
    assert (Hf : from_infix stof true "pi" = ret (EVar "pi")).
    { apply from_infix_tokens; [apply Hs|]. do 3 apply ix_up. apply ix_operand. apply opd_var; auto; try discriminate.
      cbn. intros Hin. repeat (destruct Hin as [Hin|Hin]; [discriminate|]). destruct Hin. }
    rewrite Hf in He. injection He as <-.
    assert (E := proj1 (Hv (fun _ => 0%R) (RtoC PI)) eq_refl). cbn in E.
    assert (E' := f_equal fst E). cbn in E'. assert (Hpi' := PI_RGT_0). lra.
  Qed.

  (** Missing: pi, Undefined, the unary operations, literals with a sign or
      an exponent, and the preprocessor. *)
  Theorem c38_reread_partial : (forall t, In t reserved -> stof t = None) ->
    forall e : expr, writable fmt5 stof e ->
    exists s, infix fmt5 e = inl s /\ from_infix stof true (spaced s) = ret (reread fmt5 stof e).
  Proof.
    intros Hs e Hw. destruct (infix_text _ _ _ Hw) as (s & Hi & Ht). exists s. split; [exact Hi|].
    apply from_infix_tokens; [exact Hs|]. rewrite (tokens_spaced_toks _ _ _ _ Hw Ht).
    do 3 apply ix_up. now apply toks_infix.
  Qed.

  Lemma reread_var (b : expr) x : reread fmt5 stof b = EVar x -> b = EVar x.
  Proof. destruct b; cbn; try discriminate; try congruence. destruct (stof (fmt5 c)); discriminate. Qed.
  Lemma ev_reread (e : expr) : (forall c c', stof (fmt5 c) = Some c' -> toR c' = toR c) ->
    forall rho v, ev toR e rho v <-> ev toR (reread fmt5 stof e) rho v.
  Proof.
    intros Hx. induction e as [c| |x| | | |r c d|o a IHa b IHb|o a IHa]; intros rho v; cbn; try tauto.
    - destruct (stof (fmt5 c)) eqn:E; cbn; [|tauto]. now rewrite (Hx _ _ E).
    - destruct o; try tauto;
        try (split; intros (p & q & Hp & Hq & Hv); exists p, q; (split; [now apply IHa|split; [now apply IHb|exact Hv]])).
      destruct b; cbn; try tauto; [destruct (stof (fmt5 c)); tauto|].
      split; intros (f & d & Hf & Hd & Hv); exists f, d; (split; [|now split]);
        (eapply filter_imp; [|exact Hf]); intros t Ht; now apply IHa.
    - destruct o.
      + split; intros (w & Hw & Hv); exists w; (split; [now apply IHa|exact Hv]).
      + split; intros (w & Hw & Hv); exists w; (split; [now apply IHa|exact Hv]).
      + split; intros (w & Hw & Hv); exists w; (split; [now apply IHa|exact Hv]).
  Qed.

  Theorem c38_value_partial : (forall t, In t reserved -> stof t = None) ->
    (forall c c', stof (fmt5 c) = Some c' -> toR c' = toR c) ->
    forall (e : expr) s, writable fmt5 stof e -> infix fmt5 e = inl s ->
    exists e', snd (from_infix stof true (spaced s)) = Ok e' /\ forall rho v, ev toR e rho v <-> ev toR e' rho v.
  Proof.
    intros Hs Hx e s Hw Hi. destruct (c38_reread_partial Hs e Hw) as (s' & Hi' & Hr).
    rewrite Hi in Hi'. injection Hi' as <-. rewrite Hr. exists (reread fmt5 stof e). split; [reflexivity|].
    now apply ev_reread.
  Qed.
End C38.
Print Assumptions c38_refuted.
Print Assumptions c38_refuted_unprepared.
Print Assumptions c38_reread_partial.
Print Assumptions c38_value_partial.

Example c38_case : writable show read (EDiv (EVar "alpha") (EAdd (EReal (1 # 3)%Q) EImag))
  /\ reread show read (EDiv (EVar "alpha") (EAdd (EReal (1 # 3)%Q) EImag)) = EDiv (EVar "alpha") (EAdd (EReal (1 # 2)%Q) EImag).
Proof.
  split; [|reflexivity]. cbn [writable].
  assert (W : forall t, (forall c, In c (list_ascii_of_string t) -> letter c \/ digit_or_point c) -> t <> "" -> one_word t).
  { intros t Ht Hn. rewrite <- (string_of_list_ascii_of_string t). apply letter_digit_word; [|exact Ht].
    destruct t; [congruence|discriminate]. }
  assert (L : forall c, In c (list_ascii_of_string "alpha") -> letter c \/ digit_or_point c).
  { cbn. intros c H. repeat (destruct H as [<-|H]; [left; right; cbv; lia|]). destruct H. }
  assert (D : forall c, In c (list_ascii_of_string "0.5") -> letter c \/ digit_or_point c).
  { cbn. intros c H. repeat (destruct H as [<-|H]; [right; try (left; cbv; lia); now right|]). destruct H. }
  split; [|split; [|reflexivity]].
  - split; [apply W; [exact L|discriminate]|]. split; [reflexivity|]. split; [|split; discriminate].
    cbn. intros Hin. repeat (destruct Hin as [Hin|Hin]; [discriminate|]). destruct Hin.
  - split; [apply (W (show (1 # 3)%Q)); [exact D|discriminate]|discriminate].
Qed.

(** ** C39: Operator precedence and associativity of the infix parser *)

Section C39.
  Context {num : Type} (stof : string -> option num) (use_i : bool).
  Notation expr := (expr num).
  Notation unit_name := (if use_i then "i" else "j").
  Notation flat_tree := (flat_tree stof unit_name).
  Notation alternating := (alternating stof unit_name).
  Notation operand := (operand stof unit_name).
  Notation infix_of := (infix_of stof unit_name).

  Lemma infix_up j k ts (e : expr) : k <= j -> infix_of j ts e -> infix_of k ts e.
  Proof.
    intros Hk. replace j with ((j - k) + k) by lia. generalize (j - k) as n. clear Hk.
    induction n as [|n IH]; [auto|]. intros H. apply IH. apply ix_up. exact H.
  Qed.
  Lemma operand_top t (e : expr) : operand t e -> top_prec e = 4 /\ grouped e.
  Proof. intros H. inversion H; subst; cbn; auto. Qed.
  Lemma operator_top s o k (a b : expr) : operator s o k -> top_prec (EBin o a b) = k.
  Proof. intros H. inversion H; reflexivity. Qed.

  Lemma grouped_infix ts (e : expr) : flat_tree ts e -> grouped e -> infix_of (top_prec e) ts e.
  Proof.
    induction 1 as [t e H|s o k ts a us b Ho _ IHa _ IHb]; intros Hg.
    - rewrite (proj1 (operand_top t e H)). now apply ix_operand.
    - cbn [grouped] in Hg. rewrite (operator_top _ _ _ _ _ Ho) in *. destruct Hg as (H1 & H2 & H3 & H4).
      eapply ix_op; [exact Ho| |].
      + eapply infix_up; [exact H1|auto].
      + eapply infix_up; [exact H2|auto].
  Qed.
  Lemma top_prec_pos (e : expr) : 1 <= top_prec e.
  Proof. destruct e; cbn; try lia. destruct o; lia. Qed.

  Theorem c39_precedence : (forall t, In t reserved -> stof t = None) ->
    forall s ts (e : expr), words_of s ts -> flat_tree ts e -> grouped e ->
    from_infix stof use_i s = ret e.
  Proof.
    intros Hs s ts e Hw Ht Hg. apply tokens_words in Hw. subst ts.
    apply from_infix_tokens; [exact Hs|].
    eapply infix_up; [apply top_prec_pos|]. now apply grouped_infix.
  Qed.

  (** Every sequence has such a tree. *)
  Lemma insert_leaf s o k t (l : expr) : operator s o k -> operand t l -> forall us a, flat_tree us a -> grouped a ->
    exists a', flat_tree (us ++ [s; t]) a' /\ grouped a' /\ (top_prec a <= top_prec a' \/ k <= top_prec a').
  Proof.
    intros Ho Hl us a H. destruct (operand_top _ _ Hl) as [Hl4 Hlg].
    assert (Hk : k <= 3) by (inversion Ho; lia).
    induction H as [u e He|s0 o0 k0 ts x us y Ho0 Hx IHx Hy IHy]; intros Hg.
    - exists (EBin o e l). split; [|split].
      + change ([u] ++ [s; t])%list with ([u] ++ s :: [t])%list. eapply ft_op; [exact Ho|now apply ft_operand|now apply ft_operand].
      + cbn [grouped]. rewrite (operator_top _ _ _ _ _ Ho), Hl4, (proj1 (operand_top _ _ He)). repeat split; auto; lia.
      + right. now rewrite (operator_top _ _ _ _ _ Ho).
    - destruct (le_lt_dec k k0) as [Hle|Hlt].
      + exists (EBin o (EBin o0 x y) l). split; [|split].
        * eapply ft_op; [exact Ho| |now apply ft_operand]. eapply ft_op; eauto.
        * cbn [grouped]. cbn [grouped] in Hg. rewrite (operator_top _ _ _ _ _ Ho), Hl4, (operator_top _ _ _ _ _ Ho0) in *.
          repeat split; try tauto; lia.
        * right. now rewrite (operator_top _ _ _ _ _ Ho).
      + cbn [grouped] in Hg. rewrite (operator_top _ _ _ _ _ Ho0) in Hg. destruct Hg as (H1 & H2 & H3 & H4).
        destruct (IHy H4) as (y' & Hy' & Hgy & Hp).
        exists (EBin o0 x y'). split; [|split].
        * rewrite <- app_assoc. cbn [app]. eapply ft_op; eauto.
        * cbn [grouped]. rewrite (operator_top _ _ _ _ _ Ho0). repeat split; auto. lia.
        * left. now rewrite !(operator_top _ _ _ _ _ Ho0).
  Qed.

  Lemma extend_tree ts : alternating ts -> forall us (a : expr) s o k,
    flat_tree us a -> grouped a -> operator s o k ->
    exists e : expr, flat_tree (us ++ s :: ts) e /\ grouped e.
  Proof.
    induction 1 as [t l Hl|t l s' o' k' ts Hl Ho' _ IH]; intros us a s o k Ha Hg Ho.
    - destruct (insert_leaf s o k t l Ho Hl us a Ha Hg) as (a' & H1 & H2 & _). eauto.
    - destruct (insert_leaf s o k t l Ho Hl us a Ha Hg) as (a' & H1 & H2 & _).
      destruct (IH _ _ _ _ _ H1 H2 Ho') as (e & H3 & H4). exists e. split; [|exact H4].
      rewrite <- app_assoc in H3. exact H3.
  Qed.

  Theorem c39_total : (forall t, In t reserved -> stof t = None) ->
    forall s ts, words_of s ts -> alternating ts ->
    exists e : expr, from_infix stof use_i s = ret e /\ flat_tree ts e /\ grouped e.
  Proof.
    intros Hs s ts Hw Ha.
    assert (Ht : exists e : expr, flat_tree ts e /\ grouped e).
    { inversion Ha as [t l Hl|t l s' o k ts' Hl Ho Ha']; subst.
      - exists l. split; [now apply ft_operand|apply (operand_top _ _ Hl)].
      - destruct (extend_tree ts' Ha' [t] l s' o k) as (e & He); [now apply ft_operand|apply (operand_top _ _ Hl)|exact Ho|].
        exists e. exact He. }
    destruct Ht as (e & Ht & Hg). exists e. split; [|now split].
    eapply c39_precedence; eauto.
  Qed.
End C39.
Print Assumptions c39_precedence.
Print Assumptions c39_total.

Example c39_case : from_infix read true "2 - x*y" = ret (ESub (EReal 2%Q) (EVar "x*y"))
  /\ from_infix read true "2 - x - y * 2 ^ x ^ y"
     = ret (ESub (ESub (EReal 2%Q) (EVar "x")) (EMul (EVar "y") (EExp (EExp (EReal 2%Q) (EVar "x")) (EVar "y"))))
  /\ alternating read "i" ["2"; "-"; "x"; "^"; "i"].
Proof.
  split; [reflexivity|]. split; [reflexivity|].
  eapply alt_more; [apply opd_number; reflexivity|constructor|].
  eapply alt_more; [apply opd_var|constructor|]; try reflexivity; try discriminate.
  - cbn. intros Hin. repeat (destruct Hin as [Hin|Hin]; [discriminate|]). destruct Hin.
  - eapply alt_one. now apply opd_imag.
Qed.

(** ** C40: The infix parser never crashes *)

Theorem c40_answers {num : Type} (stof : string -> option num) (use_i : bool) (s : string) :
  (exists e, snd (from_infix stof use_i s) = Ok e) \/ (exists m, snd (from_infix stof use_i s) = Err m).
Proof. apply from_infix_answers. Qed.
Print Assumptions c40_answers.

Example c40_case : from_infix read true ") + (" = fail "Mismatched parenthesis"
  /\ from_infix read true "+ +" = fail "Invalid number of operands"
  /\ from_infix read true "log )" = fail "Invalid number of operands"
  /\ from_infix read true "" = fail "Parsing failed".
Proof. repeat split; reflexivity. Qed.

(** ** C41: The infix parser rejects malformed input *)

Section C41.
  Context {num : Type} (stof : string -> option num) (use_i : bool).
  Notation expr := (expr num).
  Notation unit_name := (if use_i then "i" else "j").

  Definition C41_statement : Prop :=
    forall s ts, words_of s ts -> (forall e, ~ infix_of stof unit_name 1 ts e) ->
    exists m, snd (from_infix stof use_i s) = Err m.

  Lemma infix_counts k ts (e : expr) : (forall t, In t reserved -> stof t = None) ->
    infix_of stof unit_name k ts e -> count_operands ts = S (count ["+"; "-"; "*"; "/"; "^"; ","] ts).
  Proof.
    intros Hs.
    assert (A : forall l ts us, count l (ts ++ us) = count l ts + count l us)
      by (intros; unfold count; now rewrite filter_app, app_length).
    assert (B : forall ts us, count_operands (ts ++ us) = count_operands ts + count_operands us)
      by (intros; unfold count_operands; now rewrite filter_app, app_length).
    assert (A1 : forall l t ts, count l (t :: ts) = count l [t] + count l ts)
      by (intros; rewrite <- A; reflexivity).
    assert (B1 : forall t ts, count_operands (t :: ts) = count_operands [t] + count_operands ts)
      by (intros; rewrite <- B; reflexivity).
    induction 1 as [t e He|ts e H IH|f o ts a us b Hf H1 IH1 H2 IH2|s o k ts a us b Ho H1 IH1 H2 IH2|k ts e H IH].
    - assert (Hn : ~ In t reserved).
      { inversion He; subst; auto.
        - intros Hin. rewrite (Hs _ Hin) in *. discriminate.
        - destruct use_i; cbn; intros Hin; repeat (destruct Hin as [Hin|Hin]; [discriminate|]); destruct Hin.
        - cbn; intros Hin; repeat (destruct Hin as [Hin|Hin]; [discriminate|]); destruct Hin. }
      unfold count_operands, count. cbn [filter]. rewrite (proj2 (not_reserved t) Hn). cbn [negb length].
      cbn [existsb]. assert (Hr : forall r, In r reserved -> String.eqb t r = false).
      { intros r Hr. apply String.eqb_neq. intros ->. contradiction. }
      now rewrite !Hr by (cbn; auto 20).
    - rewrite A1, B1, A, B, IH. cbn. lia.
    - rewrite (A1 _ f), (B1 f), (A1 _ "("), (B1 "("), A, B, (A1 _ ","), (B1 ","), A, B, IH1, IH2.
      inversion Hf; cbn; lia.
    - rewrite A, B, (A1 _ s), (B1 s), IH1, IH2. inversion Ho; cbn; lia.
    - exact IH.
  Qed.

  (** Two operands in a row are accepted; the first is dropped. *)
  Theorem c41_refuted : sane_numbers stof -> ~ C41_statement.
  Proof.
    intros [Hs Hl] H.
    destruct (H "x y" ["x"; "y"]) as [m Hm].
    - replace ["x"; "y"] with (tokens "x y") by reflexivity. apply words_of_tokens.
    - intros e He. apply infix_counts in He; [|exact Hs]. discriminate He.
    - unfold from_infix in Hm. replace (tokens _) with ["x"; "y"] in Hm by reflexivity.
      cbn [parse_loop] in Hm. unfold parse_token in Hm.
      rewrite (Hl "x"%char), (Hl "y"%char) in Hm by (right; cbv; lia).
      destruct use_i; discriminate Hm.
  Qed.

  (** What is rejected: unbalanced parentheses and missing operands.
      Missing: surplus operands and misplaced operators. *)
  Theorem c41_counts_partial : (forall t, In t reserved -> stof t = None) ->
    forall s ts, words_of s ts ->
    (word_depth 0 ts <> Some 0
     \/ count_operands ts <= count ["+"; "-"; "*"; "/"; "^"; "log"; "dd"; "in"] ts) ->
    exists m, snd (from_infix stof use_i s) = Err m.
  Proof.
    intros Hs s ts Hw Hbad. apply tokens_words in Hw. subst ts.
    destruct (from_infix_answers stof use_i s) as [[e He]|Hm]; [|exact Hm].
    apply from_infix_counts in He; [|exact Hs]. destruct He as [H1 H2]. unfold consumers in H2.
    destruct Hbad as [Hb|Hb]; [contradiction|lia].
  Qed.

  (** What is accepted: every well-formed expression, with the tree the
      grammar gives it. *)
  Theorem c41_accepts_partial : (forall t, In t reserved -> stof t = None) ->
    forall s ts (e : expr), words_of s ts -> infix_of stof unit_name 1 ts e -> from_infix stof use_i s = ret e.
  Proof.
    intros Hs s ts e Hw He. apply tokens_words in Hw. subst ts. now apply from_infix_tokens.
  Qed.
End C41.
Print Assumptions c41_refuted.
Print Assumptions c41_counts_partial.
Print Assumptions c41_accepts_partial.

Example c41_case : words_of "x * ( y + " ["x"; "*"; "("; "y"; "+"] /\ word_depth 0 ["x"; "*"; "("; "y"; "+"] <> Some 0
  /\ words_of "log ( x + )" ["log"; "("; "x"; "+"; ")"]
  /\ count_operands ["log"; "("; "x"; "+"; ")"] <= count ["+"; "-"; "*"; "/"; "^"; "log"; "dd"; "in"] ["log"; "("; "x"; "+"; ")"]
  /\ infix_of read "i" 1 ["dd"; "("; "x"; "*"; "y"; ","; "("; "2"; ")"; ")"] (EDeriv (EMul (EVar "x") (EVar "y")) (EReal 2%Q)).
Proof.
  split; [exact (words_of_tokens "x * ( y + ")|]. split; [discriminate|].
  split; [exact (words_of_tokens "log ( x + )")|]. split; [cbn; lia|].
  assert (V : forall x, read x = None -> ~ In x reserved -> x <> "i" -> x <> "e" -> infix_of read "i" 4 [x] (EVar x))
    by (intros; apply ix_operand; now apply opd_var).
  do 3 apply ix_up. apply (ix_call read "i" "dd" ODeriv ["x"; "*"; "y"] _ ["("; "2"; ")"]); [constructor| |].
  - apply ix_up. eapply (ix_op _ _ "*" OMul 2 ["x"] _ ["y"]); [constructor| |].
    + do 2 apply ix_up. apply V; try reflexivity; try discriminate.
      cbn. intros Hin. repeat (destruct Hin as [Hin|Hin]; [discriminate|]). destruct Hin.
    + apply ix_up. apply V; try reflexivity; try discriminate.
      cbn. intros Hin. repeat (destruct Hin as [Hin|Hin]; [discriminate|]). destruct Hin.
  - do 3 apply ix_up. apply (ix_paren _ _ ["2"]). do 3 apply ix_up. apply ix_operand. now apply opd_number.
Qed.

(** ** C42: Preprocessing only inserts spaces and multiplication signs *)

Lemma adds_refl l : adds l l.
Proof. induction l; [constructor|now apply adds_keep]. Qed.
Lemma adds_app a a' b b' : adds a a' -> adds b b' -> adds (a ++ b) (a' ++ b').
Proof.
  induction 1; cbn; intros Hb; [exact Hb|apply adds_keep|apply adds_drop|apply adds_blank|apply adds_star]; auto.
Qed.
Lemma adds_trans l2 l3 : adds l2 l3 -> forall l1, adds l1 l2 -> adds l1 l3.
Proof.
  induction 1 as [|c l l' _ IH|c l l' Hc _ IH|c l l' Hc _ IH|l l' _ IH]; intros l1 H.
  - exact H.
  - remember (c :: l) as l2 eqn:E. induction H; try discriminate.
    + injection E as -> ->. apply adds_keep. auto.
    + apply adds_drop; auto.
    + injection E as -> ->. apply adds_blank; auto.
    + injection E as <- ->. apply adds_star; auto.
  - remember (c :: l) as l2 eqn:E. induction H; try discriminate.
    + injection E as -> ->. apply adds_drop; auto.
    + apply adds_drop; auto.
    + injection E as -> ->. auto.
    + injection E as <- ->. auto.
  - apply adds_blank; auto.
  - apply adds_star; auto.
Qed.
Lemma adds_space_around l : adds l (space_around l).
Proof.
  unfold space_around. induction l as [|c l IH]; [constructor|]. cbn [flat_map]. destruct (is_special c).
  - cbn [app]. apply adds_blank; [now apply is_space_blank|]. apply adds_keep.
    apply adds_blank; [now apply is_space_blank|exact IH].
  - cbn [app]. now apply adds_keep.
Qed.
Lemma adds_expand l : adds l (expand l).
Proof.
  induction l as [|c l IH]; [constructor|]. destruct l as [|d l]; [apply adds_refl|].
  change (expand (c :: d :: l)) with
      (c :: (if (is_digit c && is_letter d) || (is_letter c && is_digit d) then ["*"%char] else [])
         ++ (if is_letter c && is_letter d then ["*"%char] else []) ++ expand (d :: l))%list.
  apply adds_keep. destruct ((is_digit c && is_letter d) || (is_letter c && is_digit d)), (is_letter c && is_letter d);
    cbn [app]; repeat apply adds_star; exact IH.
Qed.
Lemma adds_implicit l ws : splits l ws -> forall last, adds l (implicit last (map string_of_list_ascii ws)).
Proof.
  induction 1 as [|c l ws Hc _ IH|w l ws Hn Hw Hl _ IH]; intros last.
  - constructor.
  - apply adds_drop; auto.
  - cbn [map implicit]. apply adds_app; [|apply IH].
    rewrite list_ascii_of_string_of_list_ascii.
    repeat match goal with |- adds _ (if ?b then _ else _) => destruct b end.
    + destruct (_ && _); cbn [app]; [apply adds_star|]; apply adds_refl.
    + apply adds_star, adds_refl.
    + apply adds_star, adds_refl.
    + apply adds_expand.
Qed.

Theorem c42_preprocess s : adds (list_ascii_of_string s) (list_ascii_of_string (preprocess s)).
Proof.
  unfold preprocess, spaced at 1. rewrite !list_ascii_of_string_of_list_ascii.
  apply (adds_trans (implicit "" (tokens (spaced s)))); [apply adds_space_around|].
  apply (adds_trans (list_ascii_of_string (spaced s))).
  - unfold tokens. apply adds_implicit, words_split.
  - unfold spaced. rewrite list_ascii_of_string_of_list_ascii. apply adds_space_around.
Qed.
Print Assumptions c42_preprocess.

Example c42_case : preprocess "2x (y+1)" = "2 * x *  ( y + 1 ) " /\ preprocess "(x)(y)" = " ( x )  *  ( y ) "
  /\ ~ adds (list_ascii_of_string "x+y") (list_ascii_of_string "y+x").
Proof.
  split; [reflexivity|]. split; [reflexivity|].
  intros H. cbn in H. inversion H; subst; match goal with H : blank _ |- _ => cbv in H; lia | _ => idtac end.
Qed.
