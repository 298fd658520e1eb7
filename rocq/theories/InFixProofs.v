(** Lemmas about the infix serializer and parser. *)
From Coq Require Import String Ascii Bool Arith ZArith Lia List.
From Verif Require Import Base Num Expr SpecText InFixSer FromInFix MonadProofs.
Import ListNotations.
Open Scope string_scope.
Open Scope m_scope.

(** ** Characters and words *)

Lemma is_space_blank c : is_space c = true <-> blank c.
Proof.
  unfold is_space, blank. set (n := nat_of_ascii c).
  rewrite orb_true_iff, andb_true_iff, Nat.eqb_eq, !Nat.leb_le. cbn [In]. lia.
Qed.

Lemma words_space c l : is_space c = true -> words (c :: l) = words l.
Proof. intros H. cbn. now rewrite H. Qed.

Lemma words_cons c d l : is_space c = false -> is_space d = false ->
  words (c :: d :: l) = match words (d :: l) with w :: ws => (c :: w) :: ws | [] => [[c]] end.
Proof. intros Hc Hd. remember (d :: l) as l'. cbn. rewrite Hc. subst. now rewrite Hd. Qed.

Lemma words_cons_space c d l : is_space c = false -> is_space d = true ->
  words (c :: d :: l) = [c] :: words (d :: l).
Proof. intros Hc Hd. remember (d :: l) as l'. cbn. rewrite Hc. subst. now rewrite Hd. Qed.

Lemma words_one w l :
  w <> [] -> (forall c, In c w -> is_space c = false) ->
  match l with [] => True | c :: _ => is_space c = true end ->
  words (w ++ l) = w :: words l.
Proof.
  intros Hn Hw Hl. induction w as [|c w IH]; [congruence|].
  destruct w as [|d w].
  - cbn [app]. destruct l as [|d l].
    + cbn. now rewrite (Hw c (or_introl eq_refl)).
    + apply words_cons_space; [apply Hw; now left | exact Hl].
  - cbn [app]. rewrite words_cons; [|apply Hw; now left|apply Hw; right; now left].
    change (d :: w ++ l)%list with ((d :: w) ++ l)%list. rewrite IH; [reflexivity|congruence|].
    intros x Hx. apply Hw. now right.
Qed.

Lemma splits_words l ws : splits l ws -> words l = ws.
Proof.
  induction 1 as [|c l ws Hc _ IH|w l ws Hn Hw Hl _ IH].
  - reflexivity.
  - rewrite words_space; [exact IH|now apply is_space_blank].
  - rewrite words_one; [now rewrite IH|exact Hn| |].
    + intros c Hc. apply Hw in Hc. destruct (is_space c) eqn:E; [|reflexivity].
      apply is_space_blank in E. contradiction.
    + destruct l; [exact I|]. now apply is_space_blank.
Qed.

Lemma words_split l : splits l (words l).
Proof.
  induction l as [|c l IH]; [constructor|].
  destruct (is_space c) eqn:Hc.
  - rewrite words_space by exact Hc. constructor; [now apply is_space_blank|exact IH].
  - assert (Hb : ~ blank c) by (intros Hb; apply is_space_blank in Hb; congruence).
    destruct l as [|d l].
    + cbn. rewrite Hc. change [c] with ([c] ++ [])%list at 1. constructor; [congruence| |exact I|constructor].
      intros x [<-|[]]. exact Hb.
    + destruct (is_space d) eqn:Hd.
      * rewrite words_cons_space by assumption.
        change (c :: d :: l) with ([c] ++ d :: l)%list. constructor; [congruence| | |exact IH].
        -- intros x [<-|[]]. exact Hb.
        -- now apply is_space_blank.
      * rewrite words_cons by assumption. remember (words (d :: l)) as ws eqn:E.
        inversion IH as [|? ? ? Hbl _ E1|w l' ws' Hn Hw Hl Hs E1 E2].
        -- subst. apply is_space_blank in Hbl. congruence.
        -- subst. change (c :: w ++ l')%list with ((c :: w) ++ l')%list.
           constructor; [congruence| |exact Hl|exact Hs].
           intros x [<-|Hx]; [exact Hb|now apply Hw].
Qed.

Lemma tokens_words s ts : words_of s ts -> tokens s = ts.
Proof.
  intros H. unfold tokens. rewrite (splits_words _ _ H), map_map.
  rewrite <- (map_id ts) at 2. apply map_ext. intros t. apply string_of_list_ascii_of_string.
Qed.

Lemma words_of_tokens s : words_of s (tokens s).
Proof.
  unfold words_of, tokens. rewrite map_map.
  replace (map _ _) with (words (list_ascii_of_string s)); [apply words_split|].
  rewrite <- (map_id (words _)) at 1. apply map_ext. intros t. symmetry. apply list_ascii_of_string_of_list_ascii.
Qed.

Lemma words_app l1 c l2 : is_space c = true -> words (l1 ++ c :: l2) = (words l1 ++ words l2)%list.
Proof.
  intros Hc. induction l1 as [|a l1 IH]; cbn [app].
  - now rewrite words_space.
  - destruct (is_space a) eqn:Ha.
    + now rewrite !words_space.
    + destruct l1 as [|b l1].
      * cbn [app]. rewrite words_cons_space by assumption. cbn. rewrite Ha, Hc. reflexivity.
      * cbn [app] in *. destruct (is_space b) eqn:Hb.
        -- rewrite !words_cons_space by assumption. now rewrite IH.
        -- rewrite !words_cons by assumption. rewrite IH.
           destruct (words (b :: l1)) eqn:E; [|reflexivity]. exfalso.
           assert (Hs := words_split (b :: l1)). rewrite E in Hs. inversion Hs; subst.
           match goal with H : blank b |- _ => apply is_space_blank in H; congruence end.
Qed.

(** ** Spaces around operators *)

Lemma sa_app l1 l2 : space_around (l1 ++ l2) = (space_around l1 ++ space_around l2)%list.
Proof. apply flat_map_app. Qed.

Lemma special_not_space c : is_special c = true -> is_space c = false.
Proof.
  unfold is_special. cbn [existsb]. rewrite !orb_true_iff.
  repeat (intros [H|H]; [apply Ascii.eqb_eq in H; subst; reflexivity|revert H]). discriminate.
Qed.

Lemma words_sa_special l1 c l2 : is_special c = true ->
  words (space_around (l1 ++ c :: l2)) = (words (space_around l1) ++ [c] :: words (space_around l2))%list.
Proof.
  intros Hc. rewrite sa_app. cbn [space_around flat_map]. rewrite Hc. cbn [app].
  rewrite words_app by reflexivity. f_equal.
  change ([c] :: words (space_around l2)) with ([[c]] ++ words (space_around l2))%list.
  rewrite words_cons_space; [|now apply special_not_space|reflexivity].
  now rewrite words_space.
Qed.

Lemma sa_plain l : (forall c, In c l -> is_special c = false) -> space_around l = l.
Proof.
  induction l as [|c l IH]; intros H; [reflexivity|]. unfold space_around. cbn [flat_map]. rewrite (H c (or_introl eq_refl)).
  cbn [app]. f_equal. apply IH. intros x Hx. apply H. now right.
Qed.

(** A word that spacing leaves alone. *)
Definition plain_word (t : string) : Prop :=
  t <> "" /\ forall c, In c (list_ascii_of_string t) -> is_special c = false /\ is_space c = false.

Lemma words_sa_plain t : plain_word t -> words (space_around (list_ascii_of_string t)) = [list_ascii_of_string t].
Proof.
  intros [Hn H]. rewrite sa_plain by (intros c Hc; apply H; exact Hc).
  rewrite <- (app_nil_r (list_ascii_of_string t)) at 1. rewrite words_one; [reflexivity| | |exact I].
  - destruct t; [congruence|discriminate].
  - intros c Hc. apply H. exact Hc.
Qed.

Lemma laos_app s t : list_ascii_of_string (s ++ t) = (list_ascii_of_string s ++ list_ascii_of_string t)%list.
Proof. induction s; cbn; [reflexivity|]. now rewrite IHs. Qed.

(** ** The parser *)
Section Parser.
  Context {num : Type}.
  Notation expr := (expr num).
  Variable stof : string -> option num.
  Variable use_i : bool.
  Definition imag : string := if use_i then "i" else "j".
  Hypothesis stof_words : forall t, In t reserved -> stof t = None.

  Notation parse_token := (parse_token stof use_i).
  Notation parse_loop := (parse_loop stof use_i).
  Notation operand := (operand stof imag).
  Notation infix_of := (infix_of stof imag).

  Lemma parse_loop_app s ts us :
    parse_loop s (ts ++ us) = (s' <- parse_loop s ts ;; parse_loop s' us).
  Proof.
    revert s. induction ts as [|t ts IH]; intros s; cbn.
    - now destruct (parse_loop s us).
    - destruct (parse_token s t) as [d o]. unfold bind. destruct o; try reflexivity.
      rewrite IH. unfold bind. destruct (parse_loop a ts) as [d' o']. destruct o'; cbn; try reflexivity.
      now rewrite app_assoc.
  Qed.

  (** Operators waiting on the stack. *)
  Fixpoint pending (k : nat) (p : list binop) : Prop :=
    match p with
    | [] => True
    | o :: p => (Z.of_nat k <= op_prec o)%Z /\ pending k p
    end.
  Fixpoint reduce (p : list binop) (st : list expr) : option (list expr) :=
    match p with
    | [] => Some st
    | o :: p => match st with y :: x :: st => reduce p (EBin o x y :: st) | _ => None end
    end.

  Lemma drain_pending cond p ops st st' :
    (forall o, In o p -> cond (IOp o) = true) ->
    match ops with [] => True | i :: _ => cond i = false end ->
    reduce p st = Some st' ->
    forall k, length p <= k ->
    drain k cond (map IOp p ++ ops) st = ret (ops, st').
  Proof.
    revert st. induction p as [|o p IH]; intros st Hp Hops Hr k Hk; cbn in *.
    - injection Hr as <-. destruct k, ops as [|i ops]; cbn; try reflexivity; now rewrite Hops.
    - destruct st as [|y [|x st]]; try discriminate.
      destruct k as [|k]; [cbn in Hk; lia|]. cbn [drain]. rewrite (Hp o (or_introl eq_refl)).
      unfold process_op. unfold bind, ret. cbn [fst snd app].
      rewrite (IH (EBin o x y :: st)); auto. lia.
  Qed.

  Lemma drain_all_pending cond p ops st st' :
    (forall o, In o p -> cond (IOp o) = true) ->
    match ops with [] => True | i :: _ => cond i = false end ->
    reduce p st = Some st' ->
    drain_all cond (map IOp p ++ ops) st = ret (ops, st').
  Proof.
    intros. unfold drain_all. apply drain_pending; auto. rewrite app_length, map_length. lia.
  Qed.

  Lemma reduce_app p q st st' : reduce p st = Some st' -> reduce (p ++ q) st = reduce q st'.
  Proof.
    revert st. induction p as [|o p IH]; intros st; cbn; [congruence|].
    destruct st as [|y [|x st]]; try discriminate. apply IH.
  Qed.
  Lemma reduce_stack p st st' r : reduce p st = Some st' -> reduce p (st ++ r) = Some (st' ++ r)%list.
  Proof.
    revert st. induction p as [|o p IH]; intros st; cbn; [congruence|].
    destruct st as [|y [|x st]]; try discriminate. apply IH.
  Qed.
  Lemma pending_app k p q : pending k p -> pending k q -> pending k (p ++ q).
  Proof. induction p; cbn; tauto. Qed.
  Lemma pending_le k j p : j <= k -> pending k p -> pending j p.
  Proof. induction p; cbn; [tauto|]. intros H [H1 H2]. split; [lia|auto]. Qed.
  Lemma pending_in k p o : pending k p -> In o p -> (Z.of_nat k <= op_prec o)%Z.
  Proof. induction p; cbn; [tauto|]. intros [H1 H2] [<-|H]; auto. Qed.

  (** What may be below an expression of precedence [k]. *)
  Definition below (k : nat) (ops : list opitem) : Prop :=
    match ops with
    | [] | IParen :: _ => True
    | IOp o :: _ => (op_prec o < Z.of_nat k)%Z
    | IFun _ :: _ => False
    end.

  Lemma operator_prec s o k : operator s o k -> op_prec o = Z.of_nat k /\ 1 <= k <= 3 /\ In s reserved
      /\ is_function s = None /\ is_operator s = Some o.
  Proof. intros H. inversion H; subst; cbn; repeat split; auto 20; lia. Qed.

  Lemma operand_step t e ops st : operand t e -> parse_token (ops, st) t = ret (ops, e :: st).
  Proof.
    intros H. inversion H; subst; unfold FromInFix.parse_token.
    - now rewrite H0.
    - rewrite H0. unfold imag, parse_operand. destruct use_i; reflexivity.
    - rewrite H0. unfold parse_operand. destruct use_i; reflexivity.
    - rewrite H0.
      assert (Hr : forall r, In r reserved -> String.eqb t r = false).
      { intros r Hr. apply String.eqb_neq. intros ->. contradiction. }
      unfold is_function, is_operator, parse_operand, imag in *.
      rewrite !Hr by (cbn; auto 20).
      replace (t =? (if use_i then "i" else "j")) with false by (symmetry; now apply String.eqb_neq).
      replace (t =? "e") with false by (symmetry; now apply String.eqb_neq). reflexivity.
  Qed.

  Lemma infix_level k ts e : infix_of k ts e -> k <= 4.
  Proof. induction 1; lia. Qed.

  Lemma below_mono j k ops : j <= k -> below j ops -> below k ops.
  Proof. destruct ops as [|[]]; cbn; auto. lia. Qed.

  Lemma bind_ret {A B} (a : A) (k : A -> M B) : bind (ret a) k = k a.
  Proof. unfold bind, ret. now destruct (k a). Qed.
  Lemma loop_step s s' t ts : parse_token s t = ret s' -> parse_loop s (t :: ts) = parse_loop s' ts.
  Proof. intros H. cbn [FromInFix.parse_loop]. now rewrite H, bind_ret. Qed.
  Lemma loop_steps s s' ts us : parse_loop s ts = ret s' -> parse_loop s (ts ++ us) = parse_loop s' us.
  Proof. intros H. now rewrite parse_loop_app, H, bind_ret. Qed.

  Lemma tok_open ops st : parse_token (ops, st) "(" = ret (IParen :: ops, st).
  Proof. unfold FromInFix.parse_token. rewrite stof_words by (cbn; auto 20). reflexivity. Qed.
  Lemma tok_comma ops st : parse_token (ops, st) "," = drain_all not_paren ops st.
  Proof. unfold FromInFix.parse_token. rewrite stof_words by (cbn; auto 20). reflexivity. Qed.
  Lemma tok_close ops ops' st st' :
    drain_all not_paren ops st = ret (IParen :: ops', st') ->
    match ops' with IFun _ :: _ => False | _ => True end ->
    parse_token (ops, st) ")" = ret (ops', st').
  Proof.
    intros H Hn. unfold FromInFix.parse_token. rewrite stof_words by (cbn; auto 20).
    cbn [is_function is_operator String.eqb Ascii.eqb Bool.eqb]. rewrite H, bind_ret. cbn [fst snd].
    destruct ops' as [|[]]; try reflexivity. destruct Hn.
  Qed.
  Lemma tok_close_fun ops ops' f a b st st' :
    drain_all not_paren ops st = ret (IParen :: IFun f :: ops', b :: a :: st') ->
    parse_token (ops, st) ")" = ret (ops', EBin f a b :: st').
  Proof.
    intros H. unfold FromInFix.parse_token. rewrite stof_words by (cbn; auto 20).
    cbn [is_function is_operator String.eqb Ascii.eqb Bool.eqb]. rewrite H, bind_ret. reflexivity.
  Qed.
  Lemma tok_fun f o ops st : function f o -> parse_token (ops, st) f = ret (IFun o :: ops, st).
  Proof.
    intros Hf. unfold FromInFix.parse_token.
    inversion Hf; subst; rewrite stof_words by (cbn; auto 20); reflexivity.
  Qed.
  Lemma tok_op s o k ops ops' st st' : operator s o k ->
    drain_all (fun i => (op_prec o <=? prec i)%Z) ops st = ret (ops', st') ->
    parse_token (ops, st) s = ret (IOp o :: ops', st').
  Proof.
    intros Ho H. destruct (operator_prec _ _ _ Ho) as (Hk & Hk3 & Hs & Hnf & Hop).
    unfold FromInFix.parse_token. rewrite stof_words by exact Hs. now rewrite Hnf, Hop, H, bind_ret.
  Qed.

  (** Reading an expression leaves it on the stack, up to operators that bind
      at least as tightly as its own. *)
  Lemma parse_infix k ts e : infix_of k ts e -> forall ops st, below k ops ->
    exists p s, parse_loop (ops, st) ts = ret ((map IOp p ++ ops)%list, (s ++ st)%list)
                /\ pending k p /\ reduce p s = Some [e].
  Proof.
    induction 1 as [t e He|ts e H IH|f o ts a us b Hf H1 IH1 H2 IH2|s o k ts a us b Ho H1 IH1 H2 IH2|k ts e H IH];
      intros ops st Hb.
    - exists [], [e]. rewrite (loop_step _ _ _ _ (operand_step _ _ _ _ He)). now cbn.
    - destruct (IH (IParen :: ops) st I) as (p & s & Hrun & Hp & Hr).
      exists [], [e]. split; [|now cbn].
      rewrite (loop_step _ _ _ _ (tok_open _ _)), (loop_steps _ _ _ _ Hrun).
      assert (Hd : drain_all not_paren (map IOp p ++ IParen :: ops) (s ++ st) = ret (IParen :: ops, [e] ++ st)%list)
        by (apply drain_all_pending; auto using reduce_stack).
      apply tok_close in Hd; [|destruct ops as [|[]]; auto].
      rewrite (loop_step _ _ _ _ Hd). reflexivity.
    - destruct (IH1 (IParen :: IFun o :: ops) st I) as (p & s & Hrun & Hp & Hr).
      destruct (IH2 (IParen :: IFun o :: ops) (a :: st) I) as (p2 & s2 & Hrun2 & Hp2 & Hr2).
      exists [], [EBin o a b]. split; [|now cbn].
      rewrite (loop_step _ _ _ _ (tok_fun _ _ _ _ Hf)), (loop_step _ _ _ _ (tok_open _ _)), (loop_steps _ _ _ _ Hrun).
      assert (Hd : drain_all not_paren (map IOp p ++ IParen :: IFun o :: ops) (s ++ st) = ret (IParen :: IFun o :: ops, [a] ++ st)%list)
        by (apply drain_all_pending; auto using reduce_stack).
      rewrite <- tok_comma in Hd. rewrite (loop_step _ _ _ _ Hd).
      cbn [app]. rewrite (loop_steps _ _ _ _ Hrun2).
      assert (Hd2 : drain_all not_paren (map IOp p2 ++ IParen :: IFun o :: ops) (s2 ++ a :: st)
                    = ret (IParen :: IFun o :: ops, [b] ++ a :: st)%list)
        by (apply drain_all_pending; auto using reduce_stack).
      rewrite (loop_step _ _ _ _ (tok_close_fun _ _ _ _ _ _ _ Hd2)). reflexivity.
    - destruct (operator_prec _ _ _ Ho) as (Hk & Hk3 & _).
      destruct (IH1 ops st Hb) as (p & s1 & Hrun & Hp & Hr).
      destruct (IH2 (IOp o :: ops) (a :: st)) as (p2 & s2 & Hrun2 & Hp2 & Hr2); [cbn; lia|].
      exists (p2 ++ [o])%list, (s2 ++ [a])%list. split; [|split].
      + rewrite (loop_steps _ _ _ _ Hrun).
        assert (Hd : drain_all (fun i => (op_prec o <=? prec i)%Z) (map IOp p ++ ops) (s1 ++ st) = ret (ops, [a] ++ st)%list).
        { apply drain_all_pending; auto using reduce_stack.
          * intros o' Ho'. apply Z.leb_le. cbn. rewrite Hk. eapply pending_in; eauto.
          * destruct ops as [|i ops]; [exact I|]. apply Z.leb_gt. destruct i; cbn in *; lia. }
        rewrite (loop_step _ _ _ _ (tok_op _ _ _ _ _ _ _ Ho Hd)). cbn [app]. rewrite Hrun2.
        rewrite map_app, <- !app_assoc. reflexivity.
      + apply pending_app; [apply (pending_le (S k)); [lia|exact Hp2]|]. cbn. lia.
      + rewrite (reduce_app p2 [o] (s2 ++ [a]) ([b] ++ [a])); [reflexivity|]. now apply reduce_stack.
    - destruct (IH ops st) as (p & s & Hrun & Hp & Hr); [apply (below_mono k); [lia|exact Hb]|].
      exists p, s. split; [exact Hrun|]. split; [apply (pending_le (S k)); [lia|exact Hp]|exact Hr].
  Qed.

  Lemma from_infix_tokens s e : infix_of 1 (tokens s) e -> from_infix stof use_i s = ret e.
  Proof.
    intros H. destruct (parse_infix _ _ _ H [] [] I) as (p & st & Hrun & Hp & Hr).
    unfold from_infix. rewrite Hrun, !app_nil_r, bind_ret. cbn [fst snd].
    rewrite <- (app_nil_r (map IOp p)).
    now rewrite (drain_all_pending _ p [] st [e]) by auto.
  Qed.
End Parser.

(** ** The parser never runs off its stacks *)
Section Safe.
  Context {num : Type}.
  Notation expr := (expr num).

  Definition answers {A} (m : M A) : Prop := (exists x, snd m = Ok x) \/ exists s, snd m = @Err A s.

  Lemma answers_bind {A B} (m : M A) (k : A -> M B) :
    answers m -> (forall a, snd m = Ok a -> answers (k a)) -> answers (bind m k).
  Proof.
    unfold answers, bind. destruct m as [t [a|s|x| |u|]]; cbn;
      intros [[y Hy]|[s' Hs]] H; try discriminate.
    - apply H. reflexivity.
    - right. eauto.
  Qed.
  Lemma answers_ret {A} (a : A) : answers (ret a).
  Proof. left. now exists a. Qed.
  Lemma answers_fail {A} s : answers (@fail A s).
  Proof. right. now exists s. Qed.

  (** A successful round removes the top operator and one operand. *)
  Lemma process_op_cases i ops (st : list expr) :
    (exists s, process_op (i :: ops) st = fail s)
    \/ (exists o x y st', i = IOp o /\ st = y :: x :: st' /\ process_op (i :: ops) st = ret (ops, EBin o x y :: st')).
  Proof.
    destruct st as [|y [|x st]]; cbn; eauto. destruct i as [o|f|]; eauto.
    right. exists o, x, y, st. auto.
  Qed.

  Lemma drain_answers cond k : forall ops (st : list expr), length ops <= k -> answers (drain k cond ops st).
  Proof.
    induction k as [|k IH]; intros ops st Hk; destruct ops as [|i ops]; cbn [drain length] in *; try lia;
      try apply answers_ret.
    destruct (cond i); [|apply answers_ret].
    destruct (process_op_cases i ops st) as [[s ->]|(o & x & y & st' & -> & -> & ->)].
    - right. now exists s.
    - apply answers_bind; [apply answers_ret|]. intros a [= <-]. apply IH. cbn. lia.
  Qed.

  Variable stof : string -> option num.
  Variable use_i : bool.

  Lemma parse_token_answers s t : answers (parse_token stof use_i s t).
  Proof.
    destruct s as [ops st]. unfold parse_token.
    destruct (stof t); [apply answers_ret|]. destruct (is_function t); [apply answers_ret|].
    destruct (is_operator t).
    { apply answers_bind; [apply drain_answers; lia|]. intros; apply answers_ret. }
    destruct (t =? "("); [apply answers_ret|]. destruct (t =? ","); [apply drain_answers; lia|].
    destruct (t =? ")"); [|apply answers_ret].
    apply answers_bind; [apply drain_answers; lia|]. intros [ops' st'] _. cbn [fst snd].
    destruct ops' as [|[o|f|] [|[o'|f'|] ops']]; try apply answers_ret; try apply answers_fail.
    apply answers_bind; [|intros; apply answers_ret].
    destruct st' as [|y [|x st']]; cbn; try apply answers_ret; apply answers_fail.
  Qed.

  Lemma parse_loop_answers ts : forall s, answers (parse_loop stof use_i s ts).
  Proof.
    induction ts as [|t ts IH]; intros s; [apply answers_ret|].
    cbn [parse_loop]. apply answers_bind; [apply parse_token_answers|auto].
  Qed.

  Lemma from_infix_answers s : answers (from_infix stof use_i s).
  Proof.
    unfold from_infix. apply answers_bind; [apply parse_loop_answers|]. intros r _.
    apply answers_bind; [apply drain_answers; lia|]. intros r' _.
    destruct (snd r'); [apply answers_fail|apply answers_ret].
  Qed.

  (** ** What is on the stacks *)
  Definition parens (ops : list opitem) : nat :=
    length (filter (fun i => negb (not_paren i)) ops).
  Definition waiting (ops : list opitem) : nat := length (filter not_paren ops).

  Lemma oks_bind {A B} (m : M A) (k : A -> M B) b :
    snd (bind m k) = Ok b -> exists a, snd m = Ok a /\ snd (k a) = Ok b.
  Proof. unfold bind. destruct m as [t [a|s|x| |u|]]; cbn; intros H; try discriminate. eauto. Qed.

  Lemma drain_counts cond k : forall ops (st : list expr) ops' st',
    snd (drain k cond ops st) = Ok (ops', st') ->
    parens ops' = parens ops /\ waiting ops + length st' = waiting ops' + length st
    /\ match ops' with [] => True | i :: _ => cond i = false end.
  Proof.
    induction k as [|k IH]; intros ops st ops' st'; destruct ops as [|i ops]; cbn [drain].
    - intros [= <- <-]. auto with arith.
    - destruct (cond i) eqn:E; [discriminate|]. intros [= <- <-]. auto with arith.
    - intros [= <- <-]. auto with arith.
    - destruct (cond i) eqn:E; [|intros [= <- <-]; auto with arith].
      intros H. apply oks_bind in H. destruct H as ([ops1 st1] & H1 & H2).
      destruct (process_op_cases i ops st) as [[s Hs]|(o & x & y & st2 & -> & -> & Hs)]; rewrite Hs in H1;
        [discriminate|]. injection H1 as <- <-. apply IH in H2. cbn [fst snd] in H2.
      destruct H2 as (-> & H2 & H3). cbn in *. split; [reflexivity|]. split; [|exact H3].
      unfold waiting in *. cbn. lia.
  Qed.

  Definition consumers : list string := ["+"; "-"; "*"; "/"; "^"; "log"; "dd"; "in"].
  Hypothesis stof_words : forall t, In t reserved -> stof t = None.

  Lemma not_reserved t : existsb (String.eqb t) reserved = false <-> ~ In t reserved.
  Proof.
    rewrite <- not_true_iff_false, existsb_exists. split; intros H H1; apply H.
    - exists t. split; [exact H1|apply String.eqb_refl].
    - destruct H1 as (x & Hx & E). apply String.eqb_eq in E. now subst.
  Qed.

  Lemma word_depth_app ts us d d' : word_depth d ts = Some d' -> word_depth d (ts ++ us) = word_depth d' us.
  Proof.
    revert d. induction ts as [|t ts IH]; intros d; cbn; [congruence|].
    destruct (t =? "("); [apply IH|]. destruct (t =? ")"); [|apply IH]. destruct d; [discriminate|apply IH].
  Qed.

  Ltac word_cases t :=
    destruct (in_dec string_dec t reserved) as [Hin|Hin];
    [cbn in Hin; repeat (destruct Hin as [Hin|Hin]; [subst t|]); [..|destruct Hin]|].

  Lemma parse_token_counts ops (st : list expr) t ops' st' :
    snd (parse_token stof use_i (ops, st) t) = Ok (ops', st') ->
    word_depth (parens ops) [t] = Some (parens ops')
    /\ length st' + waiting ops + count consumers [t] = length st + waiting ops' + count_operands [t].
  Proof.
    word_cases t; unfold parse_token; try (rewrite stof_words by (cbn; auto 20));
      cbn [is_function is_operator String.eqb Ascii.eqb Bool.eqb].
    1-5: intros H; apply oks_bind in H; destruct H as ([o1 s1] & H & [= <- <-]);
         apply drain_counts in H; destruct H as (Hp & Hw & _); cbn [fst snd] in *;
         unfold parens, waiting in *; cbn in *; split; [congruence|lia].
    - intros [= <- <-]. unfold parens, waiting; cbn. split; [reflexivity|lia].
    - intros H; apply oks_bind in H; destruct H as ([o1 s1] & H & H2).
      apply drain_counts in H; destruct H as (Hp & Hw & _); cbn [fst snd] in *.
      destruct o1 as [|[o|f|] o1]; try discriminate.
      assert (Hp' : parens ops = S (parens o1)) by (rewrite <- Hp; reflexivity).
      rewrite Hp'. cbn [word_depth String.eqb Ascii.eqb Bool.eqb].
      change (waiting (IParen :: o1)) with (waiting o1) in Hw.
      change (count consumers [")"]) with 0. change (count_operands [")"]) with 0.
      destruct o1 as [|[o|f|] o1].
      1,2,4: injection H2 as <- <-; split; [reflexivity|lia].
      apply oks_bind in H2. destruct H2 as (s2 & H2 & [= <- <-]).
      destruct s1 as [|y [|x s1]]; try discriminate. injection H2 as <-.
      split; [reflexivity|]. cbn [length] in *.
      change (waiting (IFun f :: o1)) with (S (waiting o1)) in Hw. lia.
    - intros H. apply drain_counts in H; destruct H as (Hp & Hw & _).
      change (count consumers [","]) with 0. change (count_operands [","]) with 0.
      cbn [word_depth String.eqb Ascii.eqb Bool.eqb]. split; [congruence|lia].
    - intros [= <- <-]. unfold parens, waiting; cbn. split; [reflexivity|lia].
    - intros [= <- <-]. unfold parens, waiting; cbn. split; [reflexivity|lia].
    - intros [= <- <-]. unfold parens, waiting; cbn. split; [reflexivity|lia].
    - assert (Hr : forall r, In r reserved -> String.eqb t r = false).
      { intros r Hr. apply String.eqb_neq. intros ->. contradiction. }
      unfold is_function, is_operator, count, count_operands, consumers, word_depth. cbn [filter].
      rewrite (proj2 (not_reserved t) Hin). cbn [existsb]. rewrite !Hr by (cbn; auto 20).
      cbn [negb orb length].
      destruct (stof t); intros [= <- <-]; cbn [length]; split; try reflexivity; lia.
  Qed.

  Lemma parse_loop_counts ts : forall ops (st : list expr) ops' st',
    snd (parse_loop stof use_i (ops, st) ts) = Ok (ops', st') ->
    word_depth (parens ops) ts = Some (parens ops')
    /\ length st' + waiting ops + count consumers ts = length st + waiting ops' + count_operands ts.
  Proof.
    induction ts as [|t ts IH]; intros ops st ops' st' H.
    - injection H as <- <-. cbn. split; [reflexivity|lia].
    - cbn [parse_loop] in H. apply oks_bind in H. destruct H as ([o1 s1] & H1 & H2).
      apply parse_token_counts in H1. apply IH in H2. destruct H1 as (Hd1 & Hc1), H2 as (Hd2 & Hc2).
      split.
      + change (t :: ts) with ([t] ++ ts)%list. now rewrite (word_depth_app _ _ _ _ Hd1).
      + assert (E1 : count consumers (t :: ts) = count consumers [t] + count consumers ts)
          by (change (t :: ts) with ([t] ++ ts)%list; unfold count; now rewrite filter_app, app_length).
        assert (E2 : count_operands (t :: ts) = count_operands [t] + count_operands ts)
          by (change (t :: ts) with ([t] ++ ts)%list; unfold count_operands; now rewrite filter_app, app_length).
        lia.
  Qed.

  Lemma from_infix_counts s (e : expr) :
    snd (from_infix stof use_i s) = Ok e ->
    word_depth 0 (tokens s) = Some 0 /\ count consumers (tokens s) < count_operands (tokens s).
  Proof.
    unfold from_infix. intros H. apply oks_bind in H. destruct H as ([o1 s1] & H1 & H).
    apply oks_bind in H. destruct H as ([o2 s2] & H2 & H).
    apply parse_loop_counts in H1. apply drain_counts in H2. cbn [fst snd] in *.
    destruct H1 as (Hd & Hc), H2 as (Hp & Hw & Ht).
    destruct o2 as [|i o2]; [|discriminate]. destruct s2 as [|e2 s2]; [discriminate|].
    cbn in Hp, Hw, Hc. change (parens []) with 0 in Hd. split; [congruence|]. unfold waiting in *. cbn in *. lia.
  Qed.
End Safe.

(** ** Text and words of an expression *)
Section Text.
  Context {num : Type}.
  Notation expr := (expr num).
  Variable fmt5 : num -> string.

  Definition op_word (o : binop) : string :=
    match o with
    | OAdd => "+" | OSub => "-" | OMul => "*" | ODiv => "/" | OExp => "^"
    | OLog => "log" | ODeriv => "dd" | OInt => "in"
    end.
  Definition is_call (o : binop) : bool := match o with OLog | ODeriv | OInt => true | _ => false end.

  (** The words of the infix form. *)
  Fixpoint toks (e : expr) : list string :=
    match e with
    | EReal c => [fmt5 c]
    | EImag => ["i"]
    | EVar x => [x]
    | EEuler => ["e"]
    | EBin o a b =>
      if is_call o then op_word o :: "(" :: toks a ++ "," :: toks b ++ [")"]
      else "(" :: toks a ++ op_word o :: toks b ++ [")"]
    | _ => []
    end.

  Definition chars (ts : list string) : list ascii := concat (map list_ascii_of_string ts).
  Lemma chars_app ts us : chars (ts ++ us) = (chars ts ++ chars us)%list.
  Proof. unfold chars. now rewrite map_app, concat_app. Qed.
  Lemma chars_cons t ts : chars (t :: ts) = (list_ascii_of_string t ++ chars ts)%list.
  Proof. reflexivity. Qed.

  Lemma special_punct c : is_special c = true <-> punct c.
  Proof.
    unfold is_special, punct. rewrite existsb_exists. split.
    - intros (x & Hx & E). apply Ascii.eqb_eq in E. now subst.
    - intros H. exists c. split; [exact H|apply Ascii.eqb_refl].
  Qed.
  Lemma one_word_plain t : one_word t <-> plain_word t.
  Proof.
    unfold one_word, plain_word. split; intros [H1 H2]; (split; [exact H1|]); intros c Hc;
      specialize (H2 c Hc) as [Ha Hb].
    - split; apply not_true_iff_false; [now rewrite special_punct|now rewrite is_space_blank].
    - rewrite <- special_punct, <- is_space_blank. split; congruence.
  Qed.

  Variable number : string -> option num.
  Notation writable := (writable fmt5 number).
  Notation reread := (reread fmt5 number).

  Lemma infix_text (e : expr) : writable e ->
    exists s, infix fmt5 e = inl s /\ list_ascii_of_string s = chars (toks e).
  Proof.
    induction e as [c| |x| | | |r c d|o a IHa b IHb|o a IHa]; cbn [SpecText.writable]; try contradiction.
    - intros _. exists (fmt5 c). cbn. now rewrite app_nil_r.
    - intros _. now exists "i".
    - intros _. exists x. cbn. now rewrite app_nil_r.
    - intros _. now exists "e".
    - intros [Ha Hb]. destruct (IHa Ha) as (s & Hs & Es), (IHb Hb) as (t & Ht & Et).
      exists (bin_text o s t). cbn [infix]. rewrite Hs, Ht. split; [reflexivity|].
      destruct o; cbn [bin_text toks is_call op_word]; unfold arith, func; rewrite !laos_app, Es, Et;
        rewrite !chars_cons, !chars_app, !chars_cons, ?chars_app, ?chars_cons; cbn; rewrite <- ?app_assoc; reflexivity.
  Qed.

  Lemma words_sa_toks (e : expr) : writable e ->
    words (space_around (chars (toks e))) = map list_ascii_of_string (toks e).
  Proof.
    induction e as [c| |x| | | |r c d|o a IHa b IHb|o a IHa]; cbn [SpecText.writable]; try contradiction.
    - intros [H _]. apply one_word_plain in H. cbn [toks]. rewrite chars_cons. cbn [chars map concat]. rewrite app_nil_r. now apply words_sa_plain.
    - reflexivity.
    - intros [H _]. apply one_word_plain in H. cbn [toks]. rewrite chars_cons. cbn [chars map concat]. rewrite app_nil_r. now apply words_sa_plain.
    - reflexivity.
    - intros [Ha Hb]. specialize (IHa Ha). specialize (IHb Hb).
      cbn [toks]. destruct (is_call o) eqn:Ho.
      + rewrite !chars_cons, chars_app, chars_cons, chars_app, chars_cons.
        cbn [list_ascii_of_string chars map concat app].
        rewrite words_sa_special by reflexivity.
        rewrite words_sa_special by reflexivity.
        rewrite words_sa_special by reflexivity.
        fold (chars (toks a)) (chars (toks b)). rewrite IHa, IHb.
        rewrite words_sa_plain by (destruct o; try discriminate; (split; [discriminate|]);
          cbn; intros ch Hch; repeat (destruct Hch as [<-|Hch]; [split; reflexivity|]); destruct Hch).
        rewrite !map_app. cbn [map]. rewrite map_app. reflexivity.
      + rewrite !chars_cons, chars_app, chars_cons, chars_app, chars_cons.
        replace (list_ascii_of_string (op_word o)) with
          [match o with OAdd => "+" | OSub => "-" | OMul => "*" | ODiv => "/" | _ => "^" end%char]
          by (destruct o; try discriminate; reflexivity).
        cbn [list_ascii_of_string chars map concat app].
        change ("("%char :: ?l)%list with ([] ++ "("%char :: l)%list.
        rewrite words_sa_special by reflexivity.
        rewrite words_sa_special by (destruct o; reflexivity).
        rewrite words_sa_special by reflexivity.
        fold (chars (toks a)) (chars (toks b)). rewrite IHa, IHb.
        rewrite !map_app. cbn [map]. rewrite map_app. destruct o; try discriminate; reflexivity.
  Qed.

  Lemma tokens_spaced_toks (e : expr) s : writable e -> list_ascii_of_string s = chars (toks e) ->
    tokens (spaced s) = toks e.
  Proof.
    intros H E. unfold tokens, spaced. rewrite list_ascii_of_string_of_list_ascii, E, words_sa_toks by exact H.
    rewrite map_map. rewrite <- (map_id (toks e)) at 2. apply map_ext. apply string_of_list_ascii_of_string.
  Qed.

  Lemma toks_infix (e : expr) : writable e -> infix_of number "i" 4 (toks e) (reread e).
  Proof.
    induction e as [c| |x| | | |r c d|o a IHa b IHb|o a IHa]; cbn [SpecText.writable]; try contradiction.
    - intros [_ H]. cbn. destruct (number (fmt5 c)) eqn:E; [|congruence]. apply ix_operand. now apply opd_number.
    - intros H. apply ix_operand. now apply opd_imag.
    - intros (_ & H1 & H2 & H3 & H4). apply ix_operand. now apply opd_var.
    - intros H. apply ix_operand. now apply opd_e.
    - intros [Ha Hb]. specialize (IHa Ha). specialize (IHb Hb).
      assert (Ua : infix_of number "i" 1 (toks a) (reread a)) by (do 3 apply ix_up; exact IHa).
      assert (Ub : infix_of number "i" 1 (toks b) (reread b)) by (do 3 apply ix_up; exact IHb).
      cbn [toks SpecText.reread].
      destruct o; cbn [is_call op_word];
        try (apply ix_call; [constructor|exact Ua|exact Ub]);
        change (toks a ++ ?s :: toks b ++ [")"])%list with (toks a ++ (s :: toks b) ++ [")"])%list;
        rewrite app_assoc; apply ix_paren.
      + eapply ix_op; [constructor|exact Ua|]. do 2 apply ix_up; exact IHb.
      + eapply ix_op; [constructor|exact Ua|]. do 2 apply ix_up; exact IHb.
      + apply ix_up. eapply ix_op; [constructor| |]; [do 2 apply ix_up; exact IHa|apply ix_up; exact IHb].
      + apply ix_up. eapply ix_op; [constructor| |]; [do 2 apply ix_up; exact IHa|apply ix_up; exact IHb].
      + do 2 apply ix_up. eapply ix_op; [constructor| |]; [apply ix_up; exact IHa|exact IHb].
  Qed.

  (** ** Where no multiplication sign is inserted *)
  Definition quiet (last t : string) : Prop :=
    (if is_some (is_function t) || is_some (is_operator t) then is_function t = None \/ last <> ")"
     else (last <> ")" \/ t = ",")
          /\ (t = "(" -> last = "" \/ is_function last <> None \/ is_operator last <> None)
          /\ expand (list_ascii_of_string t) = list_ascii_of_string t).
  Fixpoint quiets (last : string) (ts : list string) : Prop :=
    match ts with [] => True | t :: ts => quiet last t /\ quiets t ts end.

  Lemma implicit_quiet ts : forall last, quiets last ts -> implicit last ts = chars ts.
  Proof.
    induction ts as [|t ts IH]; intros last; [reflexivity|]. intros [Hq Hqs].
    cbn [implicit]. rewrite chars_cons, (IH t Hqs). f_equal. unfold quiet in Hq.
    destruct (is_some (is_function t) || is_some (is_operator t)) eqn:E.
    - destruct (is_function t); [|reflexivity]. destruct Hq as [Hq|Hq]; [discriminate|].
      cbn. now rewrite (proj2 (String.eqb_neq _ _) Hq).
    - destruct Hq as (H1 & H2 & H3).
      replace ((last =? ")") && negb (t =? ",")) with false.
      2:{ destruct H1 as [H1| ->]; [now rewrite (proj2 (String.eqb_neq _ _) H1)|].
          rewrite String.eqb_refl. cbn. now rewrite andb_false_r. }
      replace (negb (last =? "") && negb (is_some (is_function last)) && negb (is_some (is_operator last)) && (t =? "("))
        with false; [exact H3|].
      destruct (t =? "(") eqn:Et; [|now rewrite andb_false_r]. apply String.eqb_eq in Et.
      destruct (H2 Et) as [-> |[Hf|Ho]]; [reflexivity| |].
      + destruct (is_function last); [|congruence]. cbn. now rewrite andb_false_r.
      + destruct (is_operator last); [|congruence]. cbn. now rewrite !andb_false_r.
  Qed.

  (** The text of a leaf. *)
  Definition tame (t : string) : Prop :=
    t <> "(" /\ t <> ")" /\ t <> "" /\ is_function t = None /\ is_operator t = None
    /\ expand (list_ascii_of_string t) = list_ascii_of_string t.

  Lemma quiet_tame last t : tame t -> last <> ")" -> quiet last t.
  Proof.
    intros (H1 & H2 & H3 & H4 & H5 & H6) Hl. unfold quiet. rewrite H4, H5. cbn.
    split; [now left|]. split; [contradiction|exact H6].
  Qed.

  Fixpoint tame_leaves (e : expr) : Prop :=
    match e with
    | EBin _ a b => tame_leaves a /\ tame_leaves b
    | _ => match toks e with [t] => tame t | _ => False end
    end.

  Lemma quiets_leaf (e : expr) last ts : leaf e -> tame_leaves e -> last <> ")" ->
    (forall t, tame t -> quiets t ts) -> quiets last (toks e ++ ts).
  Proof.
    intros Hl Ht Hn Hts. assert (Ht' : match toks e with [t] => tame t | _ => False end)
      by (destruct e; try exact Ht; destruct Hl).
    destruct (toks e) as [|t [|]]; try contradiction. cbn. split; [now apply quiet_tame|auto].
  Qed.

  Lemma quiets_call (e : expr) : forall last ts, leaf e \/ call e /\ shallow e -> tame_leaves e -> last <> ")" ->
    (forall t, tame t \/ t = ")" -> quiets t ts) -> quiets last (toks e ++ ts).
  Proof.
    induction e as [c| |x| | | |r c d|o a IHa b IHb|o a IHa]; intros last ts [Hl|[Hc Hs]] Ht Hn Hts;
      try (apply quiets_leaf; auto; fail); try destruct Hc; try destruct Hl.
    cbn [shallow] in Hs. destruct Hs as [Hlb Ha], Ht as [Hta Htb].
    assert (Ho : is_call o = true) by (destruct o; auto; contradiction).
    cbn [toks]. rewrite Ho. cbn [app quiets].
    assert (Hf : is_function (op_word o) <> None) by (destruct o; discriminate).
    split; [|split].
    - unfold quiet. destruct (is_function (op_word o)) eqn:E; [|congruence]. cbn. now right.
    - unfold quiet. cbn. split; [|split; [|reflexivity]].
      + left. destruct o; discriminate.
      + intros _. right. now left.
    - rewrite <- app_assoc. apply IHa; [exact Ha|exact Hta|discriminate|].
      intros t Htt. cbn [app quiets]. split.
      + unfold quiet. cbn. split; [now right|]. split; [discriminate|reflexivity].
      + rewrite <- app_assoc. apply quiets_leaf; [exact Hlb|exact Htb|discriminate|].
        intros t' Ht'. cbn [app quiets]. split; [|apply Hts; now right].
        unfold quiet. cbn. split; [left; apply Ht'|]. split; [discriminate|reflexivity].
  Qed.

  Lemma quiets_shallow (e : expr) : shallow e -> tame_leaves e -> quiets "" (toks e).
  Proof.
    intros Hs Ht. rewrite <- (app_nil_r (toks e)).
    assert (Hc : (leaf e \/ call e) \/ exists o a b, e = EBin o a b /\ is_call o = false).
    { destruct e as [c| |x| | | |r c d|o a b|o a]; cbn; auto. destruct o; eauto 8. }
    destruct Hc as [[Hc|Hc]|(o & a & b & -> & Ho)].
    - apply quiets_call; auto. discriminate. now cbn.
    - apply quiets_call; auto. discriminate. now cbn.
    - cbn [shallow tame_leaves] in *. destruct Hs as [Hlb Ha], Ht as [Hta Htb].
      cbn [toks]. rewrite Ho. cbn [app quiets]. split.
      + unfold quiet. cbn. split; [left; discriminate|]. split; [now left|reflexivity].
      + rewrite <- app_assoc. apply quiets_call; [exact Ha|exact Hta|discriminate|].
        intros t Htt. cbn [app quiets]. split.
        * unfold quiet. destruct o; try discriminate; cbn; now left.
        * rewrite <- app_assoc. apply quiets_leaf; [exact Hlb|exact Htb|destruct o; discriminate|].
          intros t' Ht'. cbn [app quiets]. split; [|exact I].
          unfold quiet. cbn. split; [left; apply Ht'|]. split; [discriminate|reflexivity].
  Qed.

  Notation school := (school fmt5 number).

  Lemma expand_digits l : (forall c, In c l -> digit_or_point c) -> expand l = l.
  Proof.
    assert (Hnl : forall c, digit_or_point c -> is_letter c = false).
    { intros c [H| ->]; [|reflexivity]. unfold is_letter.
      apply not_true_iff_false. rewrite orb_true_iff, !andb_true_iff, !Nat.leb_le. lia. }
    induction l as [|c l IH]; intros H; [reflexivity|].
    destruct l as [|d l]; [reflexivity|].
    change (expand (c :: d :: l)) with
      (c :: (if (is_digit c && is_letter d) || (is_letter c && is_digit d) then ["*"%char] else [])
         ++ (if is_letter c && is_letter d then ["*"%char] else []) ++ expand (d :: l))%list.
    rewrite (Hnl c), (Hnl d) by (apply H; cbn; auto). cbn [andb orb].
    rewrite andb_false_r. cbn [app orb]. f_equal. apply IH. intros x Hx. apply H. now right.
  Qed.

  Lemma letter_digit_word l : l <> [] -> (forall c, In c l -> letter c \/ digit_or_point c) ->
    one_word (string_of_list_ascii l).
  Proof.
    intros Hn H. split; [destruct l; [congruence|discriminate]|].
    intros c. rewrite list_ascii_of_string_of_list_ascii. intros Hc. specialize (H c Hc).
    unfold punct, blank. split; intros Hx; cbn in Hx.
    - repeat (destruct Hx as [<-|Hx]; [destruct H as [H|[H|H]]; try discriminate; cbv in H; lia|]). destruct Hx.
    - destruct H as [H|[H| ->]]; [unfold letter in H; lia|lia|]. cbn in Hx. lia.
  Qed.

  Hypothesis Hsane : sane_numbers number.

  Lemma school_writable (e : expr) : school e -> writable e.
  Proof.
    destruct Hsane as [Hr Hl].
    induction e as [c| |x| | | |r c d|o a IHa b IHb|o a IHa]; cbn; try tauto.
    - intros (H1 & H2 & H3). split; [|congruence].
      rewrite <- (string_of_list_ascii_of_string (fmt5 c)). apply letter_digit_word; [|auto].
      destruct (fmt5 c); [congruence|discriminate].
    - intros _. apply Hl. right. cbv. lia.
    - intros (c & -> & Hc & H1 & H2). repeat split; try exact H1; try exact H2; try discriminate.
      1,2: change (String c "") with (string_of_list_ascii [c]) in H |- *;
           refine (proj1 (proj2 (letter_digit_word [c] _ _) _ H)) || refine (proj2 (proj2 (letter_digit_word [c] _ _) _ H));
           [discriminate|intros ? [<-|[]]; now left].
      + now apply Hl.
      + intros Hin. cbn in Hin. destruct Hc as [Hc|Hc];
          repeat (destruct Hin as [Hin|Hin]; [injection Hin as <-; cbv in Hc; lia || discriminate|]); destruct Hin.
    - intros _. apply Hl. right. cbv. lia.
  Qed.

  Lemma school_reread (e : expr) : school e -> reread e = e.
  Proof.
    induction e as [c| |x| | | |r c d|o a IHa b IHb|o a IHa]; cbn; try tauto.
    - intros (_ & _ & ->). reflexivity.
    - intros [Ha Hb]. now rewrite IHa, IHb.
  Qed.

  Lemma school_tame (e : expr) : school e -> tame_leaves e.
  Proof.
    assert (Hnr : forall t, ~ In t reserved -> is_function t = None /\ is_operator t = None /\ t <> "(" /\ t <> ")").
    { intros t Ht. assert (Hr : forall r, In r reserved -> String.eqb t r = false).
      { intros r Hr. apply String.eqb_neq. intros ->. contradiction. }
      unfold is_function, is_operator. rewrite !Hr by (cbn; auto 20).
      repeat split; auto; intros ->; apply Ht; cbn; auto 20. }
    induction e as [c| |x| | | |r c d|o a IHa b IHb|o a IHa]; try (intros H; apply (school_writable _) in H as Hw);
      cbn [SpecText.school]; try tauto.
    - destruct H as (H1 & H2 & H3). cbn.
      destruct (Hnr (fmt5 c)) as (Hf & Ho & Hp & Hq).
      { intros Hin. destruct Hsane as [Hr _]. rewrite (Hr _ Hin) in H3. discriminate. }
      repeat split; auto. now apply expand_digits.
    - cbn. repeat split; auto; discriminate.
    - destruct H as (ch & -> & Hc & H1 & H2). destruct Hw as (_ & _ & Hnin & _).
      destruct (Hnr _ Hnin) as (Hf & Ho & Hp & Hq). cbn. repeat split; auto; discriminate.
    - cbn. repeat split; auto; discriminate.
    - destruct H. cbn. auto.
  Qed.
End Text.
