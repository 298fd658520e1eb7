(** Properties C102 to C104: the variables and operands of what is read, and that the web page shows
    what the command line answers. *)
From Coq Require Import String Ascii Bool Arith ZArith QArith Lia List.
From Verif Require Import Base Num Expr Simplify Calculus InFixSer FromInFix SpecMarkup MathMLSer Frontends XmlText
  Spec SpecText SpecPoly SpecLine SpecXml QNum TreeProofs MonadProofs InFixProofs LineProofs MathMLProofs XmlProofs
  PropertiesSimplify PropertiesMatrix PropertiesSafety PropertiesFrontends PropertiesXml PropertiesPage.
Import ListNotations.
Open Scope nat_scope.
Open Scope string_scope.
Open Scope list_scope.

Section Read.
  Context {num : Type}.
  Notation E := (expr num).
  Variable stof : string -> option num.
  Variable use_i : bool.

  Definition gives {A} (Q : A -> Prop) (m : M A) : Prop := forall a, snd m = Ok a -> Q a.
  Lemma gives_bind {A B} (Q : A -> Prop) (R : B -> Prop) (m : M A) (k : A -> M B) :
    gives Q m -> (forall a, Q a -> gives R (k a)) -> gives R (bind m k).
  Proof.
    intros Hm Hk b. destruct m as [t [a|s| | | |]]; cbn; try discriminate.
    intros H. apply (Hk a (Hm a eq_refl) b). destruct (k a) as [t' o]. exact H.
  Qed.
  Lemma gives_ret {A} (Q : A -> Prop) a : Q a -> gives Q (ret a).
  Proof. intros H b [= <-]. exact H. Qed.

  (** Expressions with variables from [P] only. *)
  Variable P : string -> Prop.
  Definition good (s : list opitem * list E) : Prop := Forall (names P) (snd s).

  Lemma process_op_good ops (st : list E) : Forall (names P) st -> gives good (process_op ops st).
  Proof.
    intros H. unfold process_op. destruct st as [|y [|x st]]; [intros a; discriminate|intros a; discriminate|].
    destruct ops as [|[o|o|] ops]; try (intros a; discriminate). apply gives_ret.
    inversion H as [|? ? Hy H']; subst. inversion H' as [|? ? Hx H'']; subst. constructor; [split; assumption|exact H''].
  Qed.
  Lemma drain_good k cond : forall ops (st : list E), Forall (names P) st -> gives good (drain k cond ops st).
  Proof.
    induction k as [|k IH]; intros ops st H; destruct ops as [|top ops]; cbn [drain].
    - now apply gives_ret.
    - destruct (cond top); [intros a; discriminate|now apply gives_ret].
    - now apply gives_ret.
    - destruct (cond top); [|now apply gives_ret].
      apply (gives_bind good); [now apply process_op_good|]. intros [ops' st'] H'. now apply IH.
  Qed.
  Lemma process_function_good f (st : list E) : Forall (names P) st -> gives (Forall (names P)) (process_function f st).
  Proof.
    intros H. unfold process_function. destruct st as [|y [|x st]]; [intros a; discriminate|intros a; discriminate|]. apply gives_ret.
    inversion H as [|? ? Hy H']; subst. inversion H' as [|? ? Hx H'']; subst. constructor; [split; assumption|exact H''].
  Qed.
  Lemma parse_token_good t s : P t -> good s -> gives good (parse_token stof use_i s t).
  Proof.
    intros Ht H. destruct s as [ops st]. unfold parse_token. cbn [snd] in H. destruct (stof t) as [c|].
    { apply gives_ret. constructor; [exact I|exact H]. }
    destruct (is_function t); [now apply gives_ret|]. destruct (is_operator t).
    { apply (gives_bind good); [now apply drain_good|]. intros [ops' st'] H'. now apply gives_ret. }
    destruct (String.eqb t "("); [now apply gives_ret|]. destruct (String.eqb t ","); [now apply drain_good|].
    destruct (String.eqb t ")").
    - apply (gives_bind good); [now apply drain_good|]. intros [ops' st'] H'. cbn [fst snd].
      destruct ops' as [|[o|f|] ops']; try (intros a; discriminate). destruct ops' as [|[o|f|] ops']; try now apply gives_ret.
      apply (gives_bind (Forall (names P))); [now apply process_function_good|]. intros st'' H''. now apply gives_ret.
    - apply gives_ret. constructor; [|exact H]. unfold parse_operand. destruct (String.eqb t _); [exact I|]. destruct (String.eqb t "e"); [exact I|exact Ht].
  Qed.
  Lemma parse_loop_good ts : forall s, (forall t, In t ts -> P t) -> good s -> gives good (parse_loop stof use_i s ts).
  Proof.
    induction ts as [|t ts IH]; intros s Ht H; cbn [parse_loop]; [now apply gives_ret|].
    apply (gives_bind good); [apply parse_token_good; [apply Ht; now left|exact H]|]. intros s' H'. apply IH; [|exact H']. intros u Hu. apply Ht. now right.
  Qed.
  Lemma from_infix_good s : (forall t, In t (tokens s) -> P t) -> gives (names P) (from_infix stof use_i s).
  Proof.
    intros Ht. unfold from_infix. apply (gives_bind good); [apply parse_loop_good; [exact Ht|constructor]|]. intros [ops st] H. cbn [fst snd].
    apply (gives_bind good); [now apply drain_good|]. intros [ops' st'] H'. cbn [snd]. cbn [snd] in H'. destruct st' as [|e st'']; [intros a; discriminate|]. inversion H'; subst. now apply gives_ret.
  Qed.
End Read.

(** ** C103: every variable that is read is a word of the text *)
Theorem c103_variables : forall (num : Type) (stof : string -> option num) use_i s ts e x,
  words_of s ts -> snd (from_infix stof use_i s) = Ok e -> mentions_var x e -> In x ts.
Proof.
  intros num stof use_i s ts e x Hw H Hx. apply tokens_words in Hw. subst ts.
  pose proof (from_infix_good stof use_i (fun x => In x (tokens s)) s (fun t Ht => Ht) e H) as G.
  now apply (proj1 (names_mentions _ e) G).
Qed.
Print Assumptions c103_variables.

(* characters *)
Lemma words_chars (Q : ascii -> Prop) l : (forall c, In c l -> Q c) -> forall w, In w (words l) -> forall c, In c w -> Q c.
Proof.
  induction l as [|c l IH]; cbn [words]; intros H w Hw d Hd; [destruct Hw|].
  assert (IH' := IH (fun c Hc => H c (or_intror Hc))). destruct (is_space c); [now apply (IH' w)|].
  assert (Hc : Q c) by (apply H; now left). destruct l as [|e l'].
  - destruct Hw as [<-|[]]. destruct Hd as [<-|[]]. exact Hc.
  - destruct (is_space e).
    + destruct Hw as [<-|Hw]; [|now apply (IH' w)]. destruct Hd as [<-|[]]. exact Hc.
    + destruct (words (e :: l')) as [|v vs].
      * destruct Hw as [<-|[]]. destruct Hd as [<-|[]]. exact Hc.
      * destruct Hw as [<-|Hw]; [|apply (IH' w); [now right|exact Hd]]. destruct Hd as [<-|Hd]; [exact Hc|]. apply (IH' v); [now left|exact Hd].
Qed.
Definition all_chars (Q : ascii -> Prop) (s : string) : Prop := forall c, In c (list_ascii_of_string s) -> Q c.
Lemma tokens_chars Q s : all_chars Q s -> forall t, In t (tokens s) -> all_chars Q t.
Proof.
  intros H t Ht c Hc. unfold tokens in Ht. apply in_map_iff in Ht. destruct Ht as (w & <- & Hw).
  rewrite list_ascii_of_string_of_list_ascii in Hc. now apply (words_chars Q _ H w).
Qed.
Lemma spaced_chars (Q : ascii -> Prop) s : Q " "%char -> all_chars Q s -> all_chars Q (spaced s).
Proof.
  intros Hb H c Hc. unfold spaced in Hc. rewrite list_ascii_of_string_of_list_ascii in Hc. unfold space_around in Hc.
  apply in_flat_map in Hc. destruct Hc as (d & Hd & Hc). apply H in Hd. destruct (is_special d); cbn in Hc; intuition (subst; auto).
Qed.
Lemma expand_chars (Q : ascii -> Prop) l : Q "*"%char -> (forall c, In c l -> Q c) -> forall c, In c (expand l) -> Q c.
Proof.
  intros Hs. induction l as [|c l IH]; intros H d Hd; [destruct Hd|]. destruct l as [|e l].
  - now apply H.
  - rewrite expand_cons in Hd. assert (IH' := IH (fun c Hc => H c (or_intror Hc))).
    destruct Hd as [<-|Hd]; [apply H; now left|].
    apply in_app_or in Hd. destruct Hd as [Hd|Hd]; [|apply in_app_or in Hd; destruct Hd as [Hd|Hd]; [|now apply IH']].
    + destruct (_ || _) in Hd; [|destruct Hd]. destruct Hd as [<-|[]]. exact Hs.
    + destruct (_ && _) in Hd; [|destruct Hd]. destruct Hd as [<-|[]]. exact Hs.
Qed.
Lemma implicit_chars (Q : ascii -> Prop) ts : Q "*"%char -> (forall t, In t ts -> all_chars Q t) ->
  forall last c, In c (implicit last ts) -> Q c.
Proof.
  intros Hs. induction ts as [|t ts IH]; intros H last c Hc; [destruct Hc|].
  assert (IH' := IH (fun t Ht => H t (or_intror Ht)) t c). pose proof (H t (or_introl eq_refl)) as Ht.
  destruct (implicit_step last t ts) as (pre & Hp & [E|E]); rewrite E in Hc; apply in_app_or in Hc; destruct Hc as [Hc|Hc].
  1, 3: destruct Hp as [->| ->]; [destruct Hc|destruct Hc as [<-|[]]; exact Hs].
  1, 2: apply in_app_or in Hc; destruct Hc as [Hc|Hc]; [|now apply IH'].
  - now apply Ht.
  - now apply (expand_chars Q (list_ascii_of_string t) Hs Ht).
Qed.
Lemma preprocess_chars (Q : ascii -> Prop) s : Q " "%char -> Q "*"%char -> all_chars Q s -> forall t, In t (tokens (preprocess s)) -> all_chars Q t.
Proof.
  intros Hb Hs H. apply tokens_chars. unfold preprocess. apply spaced_chars; [exact Hb|]. intros c Hc.
  rewrite list_ascii_of_string_of_list_ascii in Hc. revert Hc. apply implicit_chars; [exact Hs|]. apply tokens_chars. now apply spaced_chars.
Qed.
Lemma xml_text_chars s : xml_text s <-> all_chars (fun c => xml_char c = true) s.
Proof. unfold xml_text, all_chars. apply forallb_forall. Qed.

Lemma preprocess_padded b l b' : blanks b -> blanks b' -> preprocess (str (b ++ l ++ b')) = preprocess (str l).
Proof.
  intros Hb Hb'. assert (E : tokens (spaced (str (b ++ l ++ b'))) = tokens (spaced (str l))).
  { assert (W : forall k, tokens (spaced (str k)) = wd k) by (intros k; unfold tokens, spaced, wd; now rewrite !list_ascii_of_string_of_list_ascii).
    rewrite !W, wd_blank_l, wd_blank_r by assumption. reflexivity. }
  unfold preprocess. now rewrite E.
Qed.

Lemma preprocess_trim s : preprocess (trim s) = preprocess s.
Proof.
  rewrite <- (string_of_list_ascii_of_string s).
  destruct (trim_cases (list_ascii_of_string s)) as [B|(b & m & b' & E & Hb & Hb' & Hm & Ht)].
  - rewrite (trim_blank _ B). rewrite <- (app_nil_r (list_ascii_of_string s)). symmetry. exact (preprocess_padded _ [] [] B (fun c (H : In c []) => match H with end)).
  - rewrite E, trim_padded, Ht, preprocess_padded by assumption. reflexivity.
Qed.

(** ** C102: the web page shows what the command line answers *)

(** If the command line answers a line with the text of an expression, the page
    shows the MathML of the same expression. *)
Theorem c102_page : forall (num : Type) (N : NumOps num) fmt5 fmt17 stof,
  (forall c, xml_text (fmt5 c)) -> (forall c, xml_text (fmt17 c)) ->
  forall n s t, xml_text s -> session fmt5 stof n [s] = ([Success t], AtEof) ->
  exists r d, infix fmt5 r = inl t /\ document d = Some (content (mathml fmt5 fmt17 r)) /\ page_text fmt5 fmt17 stof n s = Ok d.
Proof.
  intros num N fmt5 fmt17 stof X5 X17 n s t Hs H. cbn [session] in H.
  destruct (String.eqb (trim s) ""); [discriminate|]. destruct (String.eqb (trim s) "exit"); [discriminate|].
  unfold answer in H. rewrite preprocess_trim in H.
  destruct (snd (from_infix stof true (preprocess s))) as [e|?| | | |] eqn:E1; try discriminate.
  destruct (snd (simp n false e)) as [r|?| | | |] eqn:E2; try discriminate.
  destruct (infix fmt5 r) as [t'|t'] eqn:E3; [|discriminate]. injection H as <-.
  assert (Ne : names xml_text e).
  { apply (from_infix_good stof true xml_text (preprocess s)); [|exact E1]. intros u Hu. apply xml_text_chars.
    revert u Hu. apply preprocess_chars; [reflexivity|reflexivity|now apply xml_text_chars]. }
  assert (Nr : names xml_text r).
  { apply names_mentions. intros x Hx. destruct (c17_integral_constant num N n false e r x E2 Hx) as [K| ->]; [|reflexivity].
    now apply (proj1 (names_mentions xml_text e) Ne). }
  destruct (c92_document num N fmt5 fmt17 r Nr) as (d & Hd & D).
  { clear - X5. induction r; cbn [literals]; auto. }
  { clear - X17. induction r; cbn [matrices]; auto. apply List.Forall_forall. auto. }
  exists r, d. split; [exact E3|]. split; [exact D|]. unfold page_text, js_from_infix. rewrite E1. cbn [js_simplify]. rewrite E2. exact Hd.
Qed.
Print Assumptions c102_page.

(** The other way round: if the page shows anything for a line that is neither
    blank nor exit, the command line replies, with the text of the same
    expression or, for matrices, the serializer's error. *)
Theorem c102_command_line : forall (num : Type) (N : NumOps num) fmt5 fmt17 stof n s d,
  page_text fmt5 fmt17 stof n s = Ok d -> trim s <> "" -> trim s <> "exit" ->
  exists r, js_mathml_string fmt5 fmt17 (Some r) = Ok d /\
    session fmt5 stof n [s] = ([match infix fmt5 r with inl t => Success t | inr t => Failure t end], AtEof).
Proof.
  intros num N fmt5 fmt17 stof n s d H H1 H2. apply String.eqb_neq in H1, H2. unfold page_text, js_from_infix in H.
  cbn [session]. rewrite H1, H2. unfold answer. rewrite preprocess_trim.
  destruct (snd (from_infix stof true (preprocess s))) as [e|?| | | |]; try discriminate H. cbn [js_simplify] in H.
  destruct (snd (simp n false e)) as [r|?| | | |]; try discriminate H.
  exists r. split; [exact H|]. now destruct (infix fmt5 r).
Qed.
Print Assumptions c102_command_line.

(** If the command line replies with an error, the page dereferences a null
    pointer, unless the error came from the serializer; and they crash in the
    same way. *)
Theorem c102_failures : forall (num : Type) (N : NumOps num) fmt5 fmt17 stof n s,
  (forall t, session fmt5 stof n [s] = ([Failure t], AtEof) ->
     page_text fmt5 fmt17 stof n s = Undef NullDeref \/
     exists r d, infix fmt5 r = inr t /\ js_mathml_string fmt5 fmt17 (Some r) = Ok d /\ page_text fmt5 fmt17 stof n s = Ok d) /\
  (forall o, session fmt5 stof n [s] = ([], Crashed o) -> page_text fmt5 fmt17 stof n s = crash o).
Proof.
  intros num N fmt5 fmt17 stof n s. cbn [session]. unfold page_text, js_from_infix, answer. rewrite preprocess_trim.
  destruct (String.eqb (trim s) ""); [split; intros; discriminate|]. destruct (String.eqb (trim s) "exit"); [split; intros; discriminate|].
  destruct (snd (from_infix stof true (preprocess s))) as [e|?| | | |]; cbn [js_simplify crash].
  - destruct (snd (simp n false e)) as [r|?| | | |]; cbn [crash].
    + destruct (infix fmt5 r) as [t'|t'] eqn:E; split; intros t H; try discriminate. injection H as <-. right. exists r. eexists. repeat split; auto.
    + split; intros t H; [now left|discriminate].
    + split; intros t H; [discriminate|]. now injection H as <-.
    + split; intros t H; [discriminate|]. now injection H as <-.
    + split; intros t H; [discriminate|]. now injection H as <-.
    + split; intros t H; [discriminate|]. now injection H as <-.
  - split; intros t H; [now left|discriminate].
  - split; intros t H; [discriminate|]. now injection H as <-.
  - split; intros t H; [discriminate|]. now injection H as <-.
  - split; intros t H; [discriminate|]. now injection H as <-.
  - split; intros t H; [discriminate|]. now injection H as <-.
Qed.
Print Assumptions c102_failures.

(** 3x + y^2-x *)
Example c102_case : xml_text (str typed) /\ (forall c, xml_text (q_show c)) /\
  exists t, session q_show q_read 30 [str typed] = ([Success t], AtEof).
Proof.
  split; [reflexivity|]. split.
  - intros c. unfold q_show. repeat destruct (Qeq_bool _ _); reflexivity.
  - eexists. vm_compute. reflexivity.
Qed.
Example c103_variables_case : exists ts e, words_of (preprocess (str typed)) ts /\ snd (from_infix q_read true (preprocess (str typed))) = Ok e /\ mentions_var "y" e.
Proof. eexists _, _. split; [apply words_of_tokens|]. split; [vm_compute; reflexivity|]. cbn. tauto. Qed.
Example c102_failures_case : exists t, session q_show q_read 30 ["x+"] = ([Failure t], AtEof).
Proof. eexists. vm_compute. reflexivity. Qed.

(** ** C104: the operands are read in the order in which they are written *)

(** The leaves of an expression from left to right. *)
Fixpoint leaves {num} (e : expr num) : list (expr num) :=
  match e with
  | EBin _ a b => leaves a ++ leaves b
  | EUn _ a => leaves a
  | _ => [e]
  end.
(** The words of a text that are neither operators, functions nor punctuation. *)
Definition operand_words (ts : list string) : list string := filter (fun t => negb (existsb (String.eqb t) reserved)) ts.

Section Order.
  Context {num : Type}.
  Notation E := (expr num).
  Variable stof : string -> option num.
  Variable use_i : bool.
  Notation unit_name := (if use_i then "i" else "j").
  Hypothesis Hres : forall t, In t reserved -> stof t = None.

  (* the operand stack, from the bottom to the top *)
  Definition line_up (st : list E) : list E := flat_map leaves (rev st).
  Definition reads (ws : list string) (s : list opitem * list E) : Prop := Forall2 (operand stof unit_name) ws (line_up (snd s)).

  Lemma line_up_join o (y x : E) st : line_up (EBin o x y :: st) = line_up (y :: x :: st).
  Proof. unfold line_up. cbn [rev]. rewrite !flat_map_app. cbn. now rewrite !app_nil_r, <- app_assoc. Qed.
  Lemma process_op_line ops (st : list E) : gives (fun r => line_up (snd r) = line_up st) (process_op ops st).
  Proof.
    unfold process_op. destruct st as [|y [|x st]]; [intros a; discriminate|intros a; discriminate|].
    destruct ops as [|[o|o|] ops]; try (intros a; discriminate). apply gives_ret, line_up_join.
  Qed.
  Lemma drain_line k cond : forall ops (st : list E), gives (fun r => line_up (snd r) = line_up st) (drain k cond ops st).
  Proof.
    induction k as [|k IH]; intros ops st; destruct ops as [|top ops]; cbn [drain].
    - now apply gives_ret.
    - destruct (cond top); [intros a; discriminate|now apply gives_ret].
    - now apply gives_ret.
    - destruct (cond top); [|now apply gives_ret].
      eapply gives_bind; [apply process_op_line|]. intros [ops' st'] H a Ha. cbn [snd] in H. rewrite <- H. now apply (IH ops' st').
  Qed.
  Lemma reserved_word t : existsb (String.eqb t) reserved = true -> In t reserved.
  Proof. intros H. apply existsb_exists in H. destruct H as (u & Hu & E). apply String.eqb_eq in E. now subst. Qed.
  Lemma parse_token_line s t : gives (fun r => line_up (snd r) = line_up (snd s) /\ existsb (String.eqb t) reserved = true \/
      exists e, line_up (snd r) = line_up (snd s) ++ [e] /\ operand stof unit_name t e /\ existsb (String.eqb t) reserved = false)
    (parse_token stof use_i s t).
  Proof.
    destruct s as [ops st]. unfold parse_token. cbn [snd]. destruct (existsb (String.eqb t) reserved) eqn:R.
    - rewrite (Hres t (reserved_word t R)).
      destruct (is_function t) as [f|] eqn:F; [apply gives_ret; now left|]. destruct (is_operator t) as [o|] eqn:O.
      { eapply gives_bind; [apply drain_line|]. intros [ops' st'] H. apply gives_ret. now left. }
      destruct (String.eqb t "(") eqn:E1; [apply gives_ret; now left|]. destruct (String.eqb t ",") eqn:E2.
      { intros r Hr. left. split; [|reflexivity]. eapply drain_line. exact Hr. }
      destruct (String.eqb t ")") eqn:E3.
      + eapply gives_bind; [apply drain_line|]. intros [ops' st'] H. cbn [fst snd] in *.
        destruct ops' as [|[o|f|] ops']; try (intros a; discriminate). destruct ops' as [|[o|f|] ops']; try (apply gives_ret; now left).
        apply (gives_bind (fun st2 => line_up st2 = line_up st')).
        * unfold process_function. destruct st' as [|y [|x st']]; [intros a; discriminate|intros a; discriminate|]. apply gives_ret, line_up_join.
        * intros st2 H2. apply gives_ret. left. split; [cbn [snd]; congruence|reflexivity].
      + exfalso. apply reserved_word in R. cbn in R. repeat (destruct R as [<-|R]; [first [discriminate E1|discriminate E2|discriminate E3|discriminate F|discriminate O]|]). destruct R.
    - assert (K : is_function t = None /\ is_operator t = None /\ String.eqb t "(" = false /\ String.eqb t "," = false /\ String.eqb t ")" = false).
      { unfold is_function, is_operator. cbn [existsb reserved] in R.
        repeat match type of R with _ || _ = false => apply orb_false_iff in R; destruct R as [? R] end.
        repeat match goal with H : String.eqb t _ = false |- _ => rewrite H; clear H end. repeat split. }
      destruct (stof t) as [c|] eqn:Ec.
      { apply gives_ret. right. exists (EReal c). split; [|split; [now constructor|reflexivity]]. unfold line_up. cbn [snd rev]. now rewrite flat_map_app. }
      destruct K as (-> & -> & -> & -> & ->). apply gives_ret. right. exists (parse_operand use_i t).
      assert (O : operand stof unit_name t (parse_operand use_i t)).
      { unfold parse_operand. destruct (String.eqb t unit_name) eqn:E1.
        - apply String.eqb_eq in E1. subst t. now apply opd_imag.
        - destruct (String.eqb t "e") eqn:E2.
          + apply String.eqb_eq in E2. subst t. now apply opd_e.
          + apply String.eqb_neq in E1, E2. apply opd_var; auto. intros Hin.
            assert (X : existsb (String.eqb t) reserved = true) by (apply existsb_exists; exists t; split; [exact Hin|apply String.eqb_refl]). congruence. }
      split; [|split; [exact O|reflexivity]]. unfold line_up. cbn [snd rev]. rewrite flat_map_app. f_equal.
      unfold parse_operand. destruct (String.eqb t unit_name); [reflexivity|]. now destruct (String.eqb t "e").
  Qed.
  Lemma parse_loop_line ts : forall s ws, reads ws s -> gives (reads (ws ++ operand_words ts)) (parse_loop stof use_i s ts).
  Proof.
    induction ts as [|t ts IH]; intros s ws H; cbn [parse_loop].
    - rewrite app_nil_r. now apply gives_ret.
    - eapply gives_bind; [apply parse_token_line|]. intros s' [[E R]|(e & E & O & R)]; unfold operand_words; cbn [filter]; rewrite R; cbn [negb].
      + apply IH. unfold reads. now rewrite E.
      + change (t :: filter (fun t0 => negb (existsb (String.eqb t0) reserved)) ts) with ([t] ++ operand_words ts). rewrite app_assoc. apply IH. unfold reads. rewrite E. apply Forall2_app; [exact H|]. constructor; [exact O|constructor].
  Qed.
End Order.

(** The leaves of what is read are the last operand words of the text, in the
    order of the text: nothing but operands at the beginning can be left out. *)
Theorem c104_order : forall (num : Type) (stof : string -> option num) use_i, (forall t, In t reserved -> stof t = None) ->
  forall s ts e, words_of s ts -> snd (from_infix stof use_i s) = Ok e ->
  exists ignored ws, operand_words ts = ignored ++ ws /\ Forall2 (operand stof (if use_i then "i" else "j")) ws (leaves e).
Proof.
  intros num stof use_i Hres s ts e Hw H. apply tokens_words in Hw. unfold from_infix in H. rewrite Hw in H.
  set (G := fun st : list (expr num) => Forall2 (operand stof (if use_i then "i" else "j")) (operand_words ts) (line_up st)).
  assert (K : gives (fun e => exists st, G (e :: st)) (r <- parse_loop stof use_i ([], []) ts ;;
    r <- drain_all (fun _ => true) (fst r) (snd r) ;; match snd r with [] => fail "Parsing failed" | e :: _ => ret e end)).
  { eapply gives_bind; [apply (parse_loop_line stof use_i Hres ts ([], []) []); constructor|]. intros [ops st] H1. cbn [fst snd].
    eapply gives_bind; [apply drain_line|]. intros [ops' st'] H2. cbn [snd] in *. destruct st' as [|e' st']; [intros a; discriminate|].
    apply gives_ret. exists st'. unfold G. rewrite H2. exact H1. }
  destruct (K e H) as (st & Hst). unfold G, line_up in Hst. cbn [rev] in Hst. rewrite flat_map_app in Hst. cbn [flat_map] in Hst. rewrite app_nil_r in Hst.
  apply Forall2_app_inv_r in Hst. destruct Hst as (l1 & l2 & _ & H2 & E). exists l1, l2. split; assumption.
Qed.
Print Assumptions c104_order.

(** In "x + 2 * y" all three operands are read, in this order. *)
Example c104_case : (forall t, In t reserved -> q_read t = None) /\ words_of "x + 2 * y" ["x"; "+"; "2"; "*"; "y"] /\
  exists e, snd (from_infix q_read true "x + 2 * y") = Ok e /\ leaves e = [EVar "x"; EReal (inject_Z 2); EVar "y"].
Proof.
  split; [intros t H; cbn in H; repeat (destruct H as [<-|H]; [reflexivity|]); destruct H|].
  split; [apply (words_of_tokens "x + 2 * y")|]. eexists. split; vm_compute; reflexivity.
Qed.
