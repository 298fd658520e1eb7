(** Properties C60-C66: the command line, the JavaScript bindings, MatchCast
    and the preprocessor on adjacent words. *)
From Coq Require Import String Ascii Bool Arith ZArith QArith Reals Lia.
From Coquelicot Require Import Coquelicot.
From Coq Require Import List.
From Flocq Require Import Core BinarySingleNaN.
From Verif Require Import Base Num Expr Ghost Simplify Calculus InFixSer FromInFix SpecMarkup MathMLSer Frontends
  Spec SpecText SpecPoly SpecLine QNum TreeProofs MonadProofs FuelProofs InFixProofs PolyProofs DoubleNum LineProofs
  PropertiesSimplify PropertiesPoly PropertiesInFix PropertiesSafety.
Import ListNotations.
Open Scope string_scope.
Open Scope list_scope.

(** ** C60: The command line answers every line by itself *)

Notation str := string_of_list_ascii.

Lemma drop_blanks b l : blanks b -> drop_spaces (b ++ l) = drop_spaces l.
Proof.
  induction b as [|c b IH]; intros H; [reflexivity|]. cbn [app drop_spaces].
  rewrite (proj2 (is_space_blank c)) by (apply H; now left). apply IH. intros d Hd. apply H. now right.
Qed.
Lemma drop_all l : blanks l -> drop_spaces l = [].
Proof. intros H. rewrite <- (app_nil_r l). now rewrite drop_blanks. Qed.
Lemma drop_first c l : ~ blank c -> drop_spaces (c :: l) = c :: l.
Proof. intros H. cbn. destruct (is_space c) eqn:E; [|reflexivity]. now apply is_space_blank in E. Qed.
Lemma blank_split l : blanks l \/ exists b c l', l = b ++ c :: l' /\ blanks b /\ ~ blank c.
Proof.
  induction l as [|c l IH]; [left; intros c []|]. destruct (is_space c) eqn:E.
  - apply is_space_blank in E. destruct IH as [IH|(b & d & l' & -> & Hb & Hd)].
    + left. intros d [<-|Hd]; auto.
    + right. exists (c :: b), d, l'. repeat split; auto. intros x [<-|Hx]; auto.
  - right. exists [], c, l. repeat split; [intros x []|]. intros K. apply is_space_blank in K. congruence.
Qed.
Lemma blanks_rev l : blanks l -> blanks (rev l).
Proof. intros H c Hc. apply H. now apply in_rev. Qed.
Lemma trim_chars l : trim (str l) = str (rev (drop_spaces (rev (drop_spaces l)))).
Proof. unfold trim. now rewrite list_ascii_of_string_of_list_ascii. Qed.
Lemma trim_blank l : blanks l -> trim (str l) = "".
Proof. intros H. rewrite trim_chars, (drop_all l H). reflexivity. Qed.
Lemma trim_padded b l b' : blanks b -> blanks b' -> trim (str (b ++ l ++ b')) = trim (str l).
Proof.
  intros Hb Hb'. rewrite !trim_chars, drop_blanks by exact Hb.
  destruct (blank_split l) as [Hl|(p & c & l' & -> & Hp & Hc)].
  - rewrite (drop_blanks l b' Hl), (drop_all b' Hb'), (drop_all l Hl). reflexivity.
  - rewrite <- app_assoc, (drop_blanks p (c :: l') Hp), (drop_blanks p _ Hp). cbn [app]. rewrite !drop_first by exact Hc.
    change (c :: l' ++ b') with ((c :: l') ++ b'). rewrite rev_app_distr, drop_blanks; [reflexivity|now apply blanks_rev].
Qed.
Lemma trim_solid c l d : ~ blank c -> ~ blank d -> trim (str (c :: l ++ [d])) = str (c :: l ++ [d]).
Proof.
  intros Hc Hd. rewrite trim_chars, drop_first by exact Hc. change (c :: l ++ [d]) with ((c :: l) ++ [d]).
  rewrite rev_app_distr. cbn [rev app]. rewrite drop_first by exact Hd. 
  change (d :: rev l ++ [c]) with ([d] ++ rev (c :: l)). rewrite rev_app_distr, rev_involutive. reflexivity.
Qed.
Lemma trim_single c : ~ blank c -> trim (str [c]) = str [c].
Proof. intros Hc. rewrite trim_chars, drop_first by exact Hc. cbn [rev app]. now rewrite drop_first. Qed.
(* every text is blank, or a solid text between blanks *)
Lemma trim_cases l : blanks l \/ exists b m b', l = b ++ m ++ b' /\ blanks b /\ blanks b' /\ m <> [] /\ trim (str m) = str m.
Proof.
  destruct (blank_split l) as [Hl|(b & c & l' & -> & Hb & Hc)]; [now left|right].
  destruct (blank_split (rev l')) as [Hl|(p & d & q & E & Hp & Hd)].
  - exists b, [c], l'. repeat split; auto; [|congruence|now apply trim_single].
    rewrite <- (rev_involutive l'). now apply blanks_rev.
  - exists b, (c :: rev q ++ [d]), (rev p). repeat split; auto.
    + rewrite <- (rev_involutive l'), E, rev_app_distr. cbn. now rewrite <- app_assoc.
    + now apply blanks_rev.
    + congruence.
    + now apply trim_solid.
Qed.

Section C60.
  Context {num : Type} {N : NumOps num} (fmt5 : num -> string) (stof : string -> option num).
  Notation session := (session fmt5 stof).

  Lemma str_nonempty (m : list ascii) : m <> [] -> String.eqb (str m) "" = false.
  Proof. destruct m; [congruence|reflexivity]. Qed.

  Theorem c60_lines n : 
    (* lines are answered one after the other, and no line influences another *)
    (forall l1 l2, session n (l1 ++ l2) =
       match session n l1 with
       | (out, AtEof) => (out ++ fst (session n l2), snd (session n l2))
       | stopped => stopped
       end) /\
    (* white space at the ends of a line does not matter *)
    (forall b b' l, blanks b -> blanks b' -> session n [str (b ++ l ++ b')] = session n [str l]) /\
    (* blank lines are skipped, exit ends the session *)
    (forall l, blanks l -> session n [str l] = ([], AtEof)) /\
    session n ["exit"] = ([], AtExit) /\
    (* any other line gets one reply, unless the program crashes *)
    (forall l, ~ blanks l -> ~ (exists b b', blanks b /\ blanks b' /\ l = b ++ list_ascii_of_string "exit" ++ b') ->
       (exists r, session n [str l] = ([r], AtEof)) \/ (exists o, session n [str l] = ([], Crashed o))).
  Proof.
    split; [|split; [|split; [|split]]].
    - intros l1 l2. induction l1 as [|line l1 IH].
      + cbn. now destruct (session n l2).
      + cbn [app Frontends.session]. destruct (String.eqb (trim line) ""); [exact IH|].
        destruct (String.eqb (trim line) "exit"); [reflexivity|].
        destruct (answer fmt5 stof n (trim line)) as [r| | | | |]; try reflexivity.
        rewrite IH. destruct (session n l1) as [out [| |o]]; [|reflexivity|reflexivity].
        now destruct (session n l2).
    - intros b b' l Hb Hb'. cbn [Frontends.session]. now rewrite trim_padded.
    - intros l Hl. cbn [Frontends.session]. now rewrite trim_blank.
    - reflexivity.
    - intros l Hl He. destruct (trim_cases l) as [K|(b & m & b' & -> & Hb & Hb' & Hm & Ht)]; [contradiction|].
      cbn [Frontends.session]. rewrite trim_padded, Ht, str_nonempty by assumption.
      destruct (String.eqb_spec (str m) "exit") as [E|_].
      + exfalso. apply He. exists b, b'. repeat split; auto. do 2 f_equal.
        now rewrite <- E, list_ascii_of_string_of_list_ascii.
      + destruct (answer fmt5 stof n (str m)); [left; eauto|right; eauto..].
  Qed.

  (** What the reply to a line says: the line is preprocessed, parsed, simplified
      and printed, and the first step that reports an error ends it. *)
  Inductive replies n (line : string) : reply -> Prop :=
  | not_parsed d s : from_infix stof true (preprocess line) = (d, Err s) -> replies n line (Failure s)
  | not_simplified d e d' s : from_infix stof true (preprocess line) = (d, Ok e) -> simp n false e = (d', Err s) ->
      replies n line (Failure s)
  | not_printed d e d' r s : from_infix stof true (preprocess line) = (d, Ok e) -> simp n false e = (d', Ok r) ->
      infix fmt5 r = inr s -> replies n line (Failure s)
  | printed d e d' r s : from_infix stof true (preprocess line) = (d, Ok e) -> simp n false e = (d', Ok r) ->
      infix fmt5 r = inl s -> replies n line (Success s).
  (** The steps that end the program: anything but a result or an error message. *)
  Definition reported {A} (m : M A) : Prop := exists d, (exists a, m = (d, Ok a)) \/ (exists s, m = (d, Err s)).
  Inductive survives n (line : string) : Prop :=
  | stopped_early d s : from_infix stof true (preprocess line) = (d, Err s) -> survives n line
  | went_on d e : from_infix stof true (preprocess line) = (d, Ok e) -> reported (simp n false e) -> survives n line.

  Theorem c60_reply n b m b' r : blanks b -> blanks b' -> m <> [] -> trim (str m) = str m -> str m <> "exit" ->
    (session n [str (b ++ m ++ b')] = ([r], AtEof) <-> replies n (str m) r).
  Proof.
    intros Hb Hb' Hm Ht He. cbn [Frontends.session]. rewrite trim_padded, Ht, str_nonempty by assumption.
    rewrite (proj2 (String.eqb_neq _ _) He). unfold answer.
    split.
    - destruct (from_infix stof true (preprocess (str m))) as [d [e|s| | | |]] eqn:E; cbn [snd]; try (cbn [crash]; discriminate).
      + destruct (simp n false e) as [d' [q|s| | | |]] eqn:E'; cbn [snd]; try (cbn [crash]; discriminate).
        * destruct (infix fmt5 q) as [s|s] eqn:E''; intros [= <-]; [eapply printed|eapply not_printed]; eassumption.
        * intros [= <-]. eapply not_simplified; eassumption.
      + intros [= <-]. eapply not_parsed; eassumption.
    - intros [d s E|d e d' s E E'|d e d' q s E E' E''|d e d' q s E E' E'']; rewrite E; cbn [snd]; try rewrite E'; cbn [snd];
        try rewrite E''; reflexivity.
  Qed.
  Theorem c60_no_reply n b m b' : blanks b -> blanks b' -> m <> [] -> trim (str m) = str m -> str m <> "exit" ->
    ((exists o, session n [str (b ++ m ++ b')] = ([], Crashed o)) <-> ~ survives n (str m)).
  Proof.
    intros Hb Hb' Hm Ht He. cbn [Frontends.session]. rewrite trim_padded, Ht, str_nonempty by assumption.
    rewrite (proj2 (String.eqb_neq _ _) He). unfold answer.
    destruct (from_infix stof true (preprocess (str m))) as [d [e|s| | | |]] eqn:E; cbn [snd].
    - destruct (simp n false e) as [d' o] eqn:E'; cbn [snd]. destruct o as [q|s| | | |].
      + split; [intros [o H]; destruct (infix fmt5 q); discriminate H|intros H; contradict H].
        eapply went_on; [eassumption|]. rewrite E'. exists d'. left. now exists q.
      + split; [intros [o H]; discriminate H|intros H; contradict H].
        eapply went_on; [eassumption|]. rewrite E'. exists d'. right. now exists s.
      + split; [|cbn [crash]; eauto]. intros _ [d1 s E1|d1 e1 E1 [d2 [[a K]|[s K]]]]; rewrite E in E1; try discriminate E1;
          injection E1 as _ <-; rewrite E' in K; discriminate K.
      + split; [|cbn [crash]; eauto]. intros _ [d1 s E1|d1 e1 E1 [d2 [[a K]|[s K]]]]; rewrite E in E1; try discriminate E1;
          injection E1 as _ <-; rewrite E' in K; discriminate K.
      + split; [|cbn [crash]; eauto]. intros _ [d1 s E1|d1 e1 E1 [d2 [[a K]|[s K]]]]; rewrite E in E1; try discriminate E1;
          injection E1 as _ <-; rewrite E' in K; discriminate K.
      + split; [|cbn [crash]; eauto]. intros _ [d1 s E1|d1 e1 E1 [d2 [[a K]|[s K]]]]; rewrite E in E1; try discriminate E1;
          injection E1 as _ <-; rewrite E' in K; discriminate K.
    - split; [intros [o H]; discriminate H|intros H; contradict H]. eapply stopped_early; eassumption.
    - split; [|cbn [crash]; eauto]. intros _ [d1 s E1|d1 e1 E1 _]; rewrite E in E1; discriminate E1.
    - split; [|cbn [crash]; eauto]. intros _ [d1 s E1|d1 e1 E1 _]; rewrite E in E1; discriminate E1.
    - split; [|cbn [crash]; eauto]. intros _ [d1 s E1|d1 e1 E1 _]; rewrite E in E1; discriminate E1.
    - split; [|cbn [crash]; eauto]. intros _ [d1 s E1|d1 e1 E1 _]; rewrite E in E1; discriminate E1.
  Qed.
End C60.
Print Assumptions c60_lines.
Print Assumptions c60_reply.
Print Assumptions c60_no_reply.

(** Numerals as numbers: the decimal value of a text of digits. *)
Definition is_num (s : string) : bool := negb (String.eqb s "") && forallb is_digit (list_ascii_of_string s).
Definition value (s : string) : Z :=
  fold_left (fun v c => (10 * v + Z.of_nat (nat_of_ascii c - 48))%Z) (list_ascii_of_string s) 0%Z.
Definition q_read (s : string) : option Q := if is_num s then Some (inject_Z (value s)) else None.
(** Enough of a number format for the examples. *)
Definition q_show (q : Q) : string :=
  if Qeq_bool q (inject_Z 2) then "2" else if Qeq_bool q (inject_Z (-1)) then "-1" else if Qeq_bool q 0 then "0" else "?".
Lemma num_sane {num} (f : Z -> num) : sane_numbers (fun s => if is_num s then Some (f (value s)) else None).
Proof.
  split.
  - intros t H. cbn in H. repeat (destruct H as [<-|H]; [reflexivity|]). destruct H.
  - intros c Hc. unfold is_num. cbn [String.eqb negb list_ascii_of_string forallb andb].
    destruct (letter_plain c Hc) as (_ & _ & -> & _). reflexivity.
Qed.

Example c60_case :
  session q_show q_read 30 [" x+x "; ""; "1+"; "exit"; "y"] = ([Success "(2*x)"; Failure "Invalid number of operands"], AtExit)
  /\ session q_show q_read 30 ["x+"; "i^(0-1)"; "x"] = ([Failure "Invalid number of operands"], Crashed (Throw BadExpectedAccess)).
Proof. split; vm_compute; reflexivity. Qed.

(** ** C61: No line crashes the command line *)
Definition C61_statement : Prop :=
  forall (num : Type) (N : NumOps num) fmt5 stof lines,
  exists n, forall o, snd (session fmt5 stof n lines) <> Crashed o.

(** i^(0-1) is an uncaught exception; in(i,x) never returns. *)
Theorem c61_refuted : ~ C61_statement.
Proof.
  intros S. destruct (S Q Q_ops q_show q_read ["i^(0-1)"]) as [n H].
  assert (P : snd (from_infix q_read true (preprocess "i^(0-1)")) = Ok (EExp EImag (ESub (qr 0) (qr 1)))) by (vm_compute; reflexivity).
  assert (R : simp 20 false (EExp EImag (ESub (qr 0) (qr 1))) = ([], Throw BadExpectedAccess)) by (vm_compute; reflexivity).
  assert (K : snd (simp n false (EExp EImag (ESub (qr 0) (qr 1)))) = OutOfFuel \/
              snd (simp n false (EExp EImag (ESub (qr 0) (qr 1)))) = Throw BadExpectedAccess).
  { destruct (Nat.le_ge_cases n 20) as [L|L].
    - destruct (simp_mono n 20 false (EExp EImag (ESub (qr 0) (qr 1))) L) as [E|E]; [now left|right; now rewrite E, R].
    - destruct (simp_mono 20 n false (EExp EImag (ESub (qr 0) (qr 1))) L) as [E|E]; [rewrite R in E; discriminate|right; now rewrite <- E, R]. }
  cbn [session] in H. change (trim "i^(0-1)") with "i^(0-1)" in H. cbn [String.eqb Ascii.eqb Bool.eqb] in H.
  unfold answer in H. rewrite P in H. destruct K as [K|K]; rewrite K in H; eapply H; reflexivity.
Qed.
Print Assumptions c61_refuted.

(** Proved: reading and printing never crash, so a crash comes from Simplify
    on the expression that was read; and a session of typed polynomials,
    blank lines and lines the reader rejects never crashes.
    Missing: other expressions, see C14 and C15. *)
Theorem c61_only_simplify : forall (num : Type) (N : NumOps num) fmt5 stof n lines out o,
  session fmt5 stof n lines = (out, Crashed o) ->
  exists before line after e, lines = before ++ line :: after /\
    snd (from_infix stof true (preprocess (trim line))) = Ok e /\
    (forall r, snd (simp n false e) <> Ok r) /\ (forall m, snd (simp n false e) <> Err m).
Proof.
  intros num N fmt5 stof n lines. induction lines as [|line lines IH]; intros out o H; [discriminate|].
  assert (Next : forall out o, session fmt5 stof n lines = (out, Crashed o) ->
    exists before l after e, line :: lines = before ++ l :: after /\
      snd (from_infix stof true (preprocess (trim l))) = Ok e /\
      (forall r, snd (simp n false e) <> Ok r) /\ (forall m, snd (simp n false e) <> Err m)).
  { intros out' o' K. destruct (IH out' o' K) as (p & l & q & e & -> & R). now exists (line :: p), l, q, e. }
  cbn [session] in H. destruct (String.eqb (trim line) ""); [eauto|].
  destruct (String.eqb (trim line) "exit"); [discriminate|]. unfold answer in H.
  destruct (from_infix_answers stof true (preprocess (trim line))) as [[e E]|[m E]]; rewrite E in H.
  - destruct (snd (simp n false e)) as [r|m| | | |] eqn:S.
    + destruct (infix fmt5 r); destruct (session fmt5 stof n lines) as [out' en] eqn:K; injection H as <- ->; eauto.
    + destruct (session fmt5 stof n lines) as [out' en] eqn:K; injection H as <- ->; eauto.
    + exists [], line, lines, e. repeat split; auto; congruence.
    + exists [], line, lines, e. repeat split; auto; congruence.
    + exists [], line, lines, e. repeat split; auto; congruence.
    + exists [], line, lines, e. repeat split; auto; congruence.
  - destruct (session fmt5 stof n lines) as [out' en] eqn:K; injection H as <- ->; eauto.
Qed.
Print Assumptions c61_only_simplify.

(** The recursion depth [n] is only a bound: a deeper run repeats a run that
    did not hit the bound. *)
Section Depth.
  Context {num : Type} {N : NumOps num} (fmt5 : num -> string) (stof : string -> option num).
  Lemma answer_more n m s : (n <= m)%nat ->
    answer fmt5 stof n s = OutOfFuel \/ answer fmt5 stof n s = answer fmt5 stof m s.
  Proof.
    intros L. unfold answer. destruct (snd (from_infix stof true (preprocess s))) as [e| | | | |]; try (now right).
    destruct (simp_mono n m false e L) as [E|E]; [left; now rewrite E|right; now rewrite E].
  Qed.
  Lemma session_more n m lines : (n <= m)%nat ->
    snd (session fmt5 stof n lines) = Crashed OutOfFuel \/ session fmt5 stof n lines = session fmt5 stof m lines.
  Proof.
    intros L. induction lines as [|line lines IH]; [now right|]. cbn [session].
    destruct (String.eqb (trim line) ""); [exact IH|]. destruct (String.eqb (trim line) "exit"); [now right|].
    destruct (answer_more n m (trim line) L) as [E|E]; rewrite E; [now left|].
    destruct (answer fmt5 stof m (trim line)) as [r| | | | |]; try (now right).
    destruct (session fmt5 stof n lines) as [out en], (session fmt5 stof m lines) as [out' en'].
    destruct IH as [IH|IH]; [left; exact IH|right; now injection IH as -> ->].
  Qed.
  (* hence two runs that do not hit the bound are the same *)
  Lemma session_unique n m lines : snd (session fmt5 stof n lines) <> Crashed OutOfFuel ->
    snd (session fmt5 stof m lines) <> Crashed OutOfFuel -> session fmt5 stof n lines = session fmt5 stof m lines.
  Proof.
    intros Hn Hm. destruct (Nat.le_ge_cases n m) as [L|L].
    - destruct (session_more n m lines L) as [E|E]; [contradiction|exact E].
    - destruct (session_more m n lines L) as [E|E]; [contradiction|now symmetry].
  Qed.
End Depth.

Section Typed.
  Context {num : Type} {N : NumOps num} (lit : num -> Z -> Prop) (ok : Z -> Prop).
  Context (fmt5 : num -> string) (stof : string -> option num).
  Hypothesis IL : IntLits N lit ok.
  Hypothesis sane : sane_numbers stof.

  Lemma term_matrix post (e : expr num) t : term lit post e t -> ~ contains_matrix e.
  Proof. intros H. destruct H as [c z _|e x k Hp|c z e x k m _ Hp Hm]; [easy|destruct Hp; cbn; tauto|destruct Hm, Hp; cbn; tauto]. Qed.
  Lemma plain_matrix post (e : expr num) ts : SpecPoly.plain lit post e ts -> ~ contains_matrix e.
  Proof. induction 1; [eapply term_matrix; eauto|]. cbn. tauto. Qed.
  Lemma plain_printed post (e : expr num) ts : SpecPoly.plain lit post e ts -> exists t, infix fmt5 e = inl t.
  Proof. intros H. apply c36_total. eapply plain_matrix; eauto. Qed.

  Lemma end_solid c : end_char c -> ~ blank c.
  Proof.
    intros [H|[H _]] K; apply is_space_blank in K; [destruct (digit_plain c H) as (_ & E & _)|destruct (letter_plain c H) as (_ & E & _)]; congruence.
  Qed.
  Lemma line_trim l ts : line_text stof lit l ts -> trim (str l) = str l.
  Proof.
    intros H. destruct (line_ends stof lit l ts H) as [(c & l1 & -> & Hc) (d & l2 & E & Hd)].
    destruct (exists_last (l := c :: l1)) as (m & x & E'); [congruence|].
    rewrite E' in E. apply app_inj_tail in E. destruct E as [-> ->].
    destruct l2 as [|y l2].
    - rewrite E'. apply trim_single. now apply end_solid.
    - injection E' as -> ->. apply trim_solid; now apply end_solid.
  Qed.
  Lemma line_first l ts : line_text stof lit l ts -> String.eqb (str l) "" = false /\ String.eqb (str l) "exit" = false.
  Proof.
    intros H. destruct (line_ends stof lit l ts H) as [(c & l1 & -> & Hc) _]. split; [reflexivity|].
    destruct (String.eqb_spec (str (c :: l1)) "exit") as [E|_]; [|reflexivity]. exfalso. cbn in E. injection E as -> _.
    destruct Hc as [Hc|(_ & Hc & _)]; [cbv in Hc; lia|congruence].
  Qed.

  Lemma session_one n l : session fmt5 stof n [str l] =
    if String.eqb (trim (str l)) "" then ([], AtEof) else if String.eqb (trim (str l)) "exit" then ([], AtExit)
    else match answer fmt5 stof n (trim (str l)) with Ok r => ([r], AtEof) | o => ([], Crashed (crash o)) end.
  Proof. reflexivity. Qed.

  (* a typed polynomial is answered by the text of what Simplify makes of it *)
  Lemma typed_answer l ts : line_text stof lit l ts -> ok (weight ts) ->
    exists e, poly lit ok false false e ts /\ forall r t n, simp n false e = ([], Ok r) -> infix fmt5 r = inl t ->
      session fmt5 stof n [str l] = ([Success t], AtEof).
  Proof.
    intros H Hw. destruct (line_parsed stof lit sane ok false (str l) ts) as (e & He & P).
    { now rewrite list_ascii_of_string_of_list_ascii. }
    exists e. split; [exact He|]. intros r t n Hr Ht. rewrite session_one, (line_trim l ts H).
    destruct (line_first l ts H) as [-> ->]. unfold answer. rewrite P. cbn [snd ret]. rewrite Hr. cbn [snd]. now rewrite Ht.
  Qed.

  Lemma typed_safe l ts : line_text stof lit l ts -> ok (weight ts) ->
    exists t n0, forall n, (n0 <= n)%nat -> session fmt5 stof n [str l] = ([Success t], AtEof).
  Proof.
    intros H Hw. destruct (typed_answer l ts H Hw) as (e & He & A).
    destruct (poly_plain lit ok IL false false e ts He Hw) as (r & tr & Y & P & _).
    destruct (plain_printed false r tr P) as (t & Ht). destruct (yields_always _ _ _ Y) as (n0 & Hn).
    exists t, n0. intros n L. apply (A r t n); auto.
  Qed.
End Typed.

(** Lines on which no crash is possible: blank lines, exit, texts the reader
    rejects and typed polynomials. *)
Inductive harmless {num} (lit : num -> Z -> Prop) (ok : Z -> Prop) (stof : string -> option num) : list ascii -> Prop :=
| hl_blank l : blanks l -> harmless lit ok stof l
| hl_exit : harmless lit ok stof (list_ascii_of_string "exit")
| hl_rejected l m : snd (from_infix stof true (preprocess (trim (str l)))) = Err m -> harmless lit ok stof l
| hl_polynomial l ts : line_text stof lit l ts -> ok (weight ts) -> harmless lit ok stof l
| hl_padded b l b' : blanks b -> blanks b' -> harmless lit ok stof l -> harmless lit ok stof (b ++ l ++ b').

Theorem c61_harmless_partial : forall (num : Type) (N : NumOps num) lit ok, IntLits N lit ok ->
  forall fmt5 stof, sane_numbers stof ->
  forall lines, Forall (harmless lit ok stof) lines ->
  exists n0, forall n, (n0 <= n)%nat -> forall o, snd (session fmt5 stof n (map str lines)) <> Crashed o.
Proof.
  intros num N lit ok IL fmt5 stof sane lines H.
  assert (One : forall l, harmless lit ok stof l -> exists n0, forall n, (n0 <= n)%nat -> forall o,
     snd (session fmt5 stof n [str l]) <> Crashed o).
  { intros l Hl. induction Hl as [l Hl| |l m Hm|l ts Ht Hw|b l b' Hb Hb' _ (n0 & IH)].
    - exists 0%nat. intros n _ o. pose proof (proj1 (proj2 (proj2 (c60_lines fmt5 stof n))) l Hl) as E. rewrite E. discriminate.
    - exists 0%nat. intros n _ o. discriminate.
    - exists 0%nat. intros n _ o. rewrite session_one. unfold answer. rewrite Hm.
      destruct (String.eqb _ ""); [discriminate|]. destruct (String.eqb _ "exit"); discriminate.
    - destruct (typed_safe lit ok fmt5 stof IL sane l ts Ht Hw) as (t & n0 & A). exists n0. intros n L o. rewrite (A n L). discriminate.
    - exists n0. intros n L o. pose proof (proj1 (proj2 (c60_lines fmt5 stof n)) b b' l Hb Hb') as E. rewrite E. now apply IH. }
  induction H as [|l lines Hl Hls (n1 & IH)]; [exists 0%nat; intros; discriminate|].
  destruct (One l Hl) as (n0 & A). exists (n0 + n1)%nat. intros n L o. cbn [map].
  pose proof (proj1 (c60_lines fmt5 stof n) [str l] (map str lines)) as E. cbn [app] in E. rewrite E.
  specialize (A n ltac:(lia)). specialize (IH n ltac:(lia) o).
  destruct (session fmt5 stof n [str l]) as [out [| |o']]; [exact IH|discriminate|]. now destruct (A o').
Qed.
Print Assumptions c61_harmless_partial.

Lemma q_numeral s z : is_num s = true -> value s = z -> numeral q_read q_int (list_ascii_of_string s) z.
Proof.
  intros H <-. split; [|split].
  - intros E. unfold is_num in H. destruct s; [discriminate|discriminate].
  - intros c Hc. unfold is_num in H. apply andb_true_iff in H. destruct H as [_ H]. rewrite forallb_forall in H. specialize (H c Hc).
    unfold is_digit in H. apply andb_true_iff in H. destruct H as [H1 H2]. apply Nat.leb_le in H1, H2. now split.
  - exists (inject_Z (value s)). rewrite string_of_list_ascii_of_string. unfold q_read. rewrite H. split; [reflexivity|]. unfold q_int. reflexivity.
Qed.
Lemma var_x : variable "x". Proof. repeat split; try discriminate. right. cbv; lia. Qed.
Lemma var_y : variable "y". Proof. repeat split; try discriminate. right. cbv; lia. Qed.
Lemma one_blank : blanks [" "%char]. Proof. intros c [<-|[]]. cbn. tauto. Qed.

(** 3x + y^2-x *)
Definition typed : list ascii := list_ascii_of_string "3x + y^2-x".
Definition typed_terms : list monomial := [(Some ("x", 1%Z), 3%Z); (Some ("y", 2%Z), 1%Z); (Some ("x", 1%Z), (-1)%Z)].
Lemma typed_line : line_text q_read q_int typed typed_terms.
Proof.
  apply (lt_minus _ _ (list_ascii_of_string "3x + y^2") [(Some ("x", 1%Z), 3%Z); (Some ("y", 2%Z), 1%Z)] [] [] ["x"%char] (Some ("x", 1%Z), 1%Z)).
  - apply (lt_plus _ _ (list_ascii_of_string "3x") [(Some ("x", 1%Z), 3%Z)] [" "%char] [" "%char] (list_ascii_of_string "y^2") (Some ("y", 2%Z), 1%Z)).
    + apply lt_term. apply (tt_juxtaposed _ _ ["3"%char] 3 ["x"%char] "x" 1); [now apply (q_numeral "3")|constructor; apply var_x].
    + apply one_blank.
    + apply one_blank.
    + apply tt_power, pt_pow; [apply var_y|now apply (q_numeral "2")|discriminate|discriminate].
  - intros c [].
  - intros c [].
  - apply tt_power, pt_var, var_x.
Qed.
Example c61_case : Forall (harmless q_int any q_read)
    [typed; []; list_ascii_of_string "1+"; list_ascii_of_string " exit"]
  /\ sane_numbers q_read.
Proof.
  split; [|apply (num_sane inject_Z)]. apply Forall_cons; [|apply Forall_cons; [|apply Forall_cons; [|apply Forall_cons; [|apply Forall_nil]]]].
  - eapply hl_polynomial; [apply typed_line|exact I].
  - apply hl_blank. intros c [].
  - apply (hl_rejected _ _ _ _ "Invalid number of operands"). vm_compute. reflexivity.
  - apply (hl_padded _ _ _ [" "%char] (list_ascii_of_string "exit") []); [apply one_blank|intros c []|apply hl_exit].
Qed.

(** ** C62: A typed polynomial is answered by its combined form *)
Definition C62_statement : Prop :=
  forall (num : Type) (N : NumOps num) lit ok, IntLits N lit ok ->
  forall fmt5 stof, sane_numbers stof ->
  forall l ts, line_text stof lit l ts -> ok (weight ts) ->
  exists ls r t n0, sum_of ls r /\ combined lit ls ts /\ infix fmt5 r = inl t /\
    forall n, (n0 <= n)%nat -> session fmt5 stof n [str l] = ([Success t], AtEof).

(** x+y-y is answered by ((x+y)+(-1*y)). *)
Lemma xyy_line : line_text q_read q_int (list_ascii_of_string "x+y-y") [(Some ("x", 1%Z), 1%Z); (Some ("y", 1%Z), 1%Z); (Some ("y", 1%Z), (-1)%Z)].
Proof.
  apply (lt_minus _ _ (list_ascii_of_string "x+y") [(Some ("x", 1%Z), 1%Z); (Some ("y", 1%Z), 1%Z)] [] [] ["y"%char] (Some ("y", 1%Z), 1%Z)).
  - apply (lt_plus _ _ ["x"%char] [(Some ("x", 1%Z), 1%Z)] [] [] ["y"%char] (Some ("y", 1%Z), 1%Z)).
    + apply lt_term, tt_power, pt_var, var_x.
    + intros c [].
    + intros c [].
    + apply tt_power, pt_var, var_y.
  - intros c [].
  - intros c [].
  - apply tt_power, pt_var, var_y.
Qed.
Lemma tree_nonempty {num} o d (l : list (expr num)) r : tree_over o d l r -> l <> [].
Proof. induction 1; [congruence|]. destruct l1; [congruence|discriminate]. Qed.
Lemma tree_single {num} o d (e r : expr num) : tree_over o d [e] r -> r = e.
Proof.
  intros H. remember [e] as l eqn:E. destruct H as [d x|d l1 l2 a b H1 H2]; [now injection E|]. exfalso.
  apply tree_nonempty in H1, H2. destruct l1 as [|y l1]; [congruence|]. destruct l1; [|discriminate]. destruct l2; [congruence|discriminate].
Qed.
Lemma neat_nonzero {num} (lit : num -> Z -> Prop) l tl : Forall2 (neat lit) l tl -> Forall (fun t => snd t <> 0%Z) tl.
Proof. induction 1 as [|e t l tl Hn _ IH]; constructor; auto. destruct Hn; cbn; auto. discriminate. Qed.
(* the only combined form of x+y-y is x *)
Lemma xyy_combined (l : list (expr Q)) :
  combined q_int l [(Some ("x", 1%Z), 1%Z); (Some ("y", 1%Z), 1%Z); (Some ("y", 1%Z), (-1)%Z)] -> l = [qv "x"].
Proof.
  intros (tl & Hl & Hd & Ht). pose proof (neat_nonzero _ _ _ Hl) as Hz.
  assert (One : forall t, In t tl -> t = (Some ("x", 1%Z), 1%Z)).
  { intros [k z] Hin. pose proof (total_nodup k z tl Hd Hin) as E. rewrite Ht in E.
    rewrite Forall_forall in Hz. specialize (Hz _ Hin). cbn [snd] in Hz. unfold total in E. cbn [fold_right fst snd] in E.
    destruct k as [[x j]|]; [|cbn in E; congruence].
    unfold key_eqb in E. destruct (String.eqb_spec x "x") as [->|Nx].
    - destruct (Z.eqb_spec j 1) as [->|Nj]; cbn in E; [now rewrite <- E|now destruct Hz].
    - destruct (String.eqb_spec x "y") as [->|Ny]; cbn in E; destruct (Z.eqb_spec j 1); cbn in E; congruence. }
  destruct tl as [|t [|u tl]].
  - specialize (Ht (Some ("x", 1%Z))). discriminate Ht.
  - inversion Hl as [|e t' l' tl' Hn Hl']; subst. inversion Hl'; subst. rewrite (One t) in Hn by now left.
    inversion Hn as [|e' x k Hp|]; subst; [|congruence]. inversion Hp; subst; [reflexivity|congruence].
  - exfalso. rewrite (One t), (One u) in Hd by (cbn; auto). inversion Hd as [|? ? K _]; subst. apply K. now left.
Qed.
Theorem c62_refuted : ~ C62_statement.
Proof.
  intros S. destruct (S Q Q_ops q_int any q_ints q_show q_read (num_sane inject_Z) _ _ xyy_line I) as (ls & r & t & n0 & Hs & Hc & Hi & Hn).
  apply xyy_combined in Hc. subst ls. destruct Hs as (d & Hd). apply tree_single in Hd. subst r. cbn in Hi. injection Hi as <-.
  assert (K : session q_show q_read 30 [str (list_ascii_of_string "x+y-y")] = ([Success "((x+y)+(-1*y))"], AtEof)) by (vm_compute; reflexivity).
  specialize (Hn n0 (Nat.le_refl _)). rewrite (session_unique q_show q_read n0 30) in Hn.
  - rewrite K in Hn. discriminate Hn.
  - rewrite Hn. discriminate.
  - rewrite K. discriminate.
Qed.
Print Assumptions c62_refuted.

(** Proved when two or more terms are left.  Missing: the rest, where the
    answer still has the value of the polynomial, see C58. *)
Theorem c62_typed_partial : forall (num : Type) (N : NumOps num) lit ok, IntLits N lit ok ->
  forall fmt5 stof, sane_numbers stof ->
  forall l ts, line_text stof lit l ts -> ok (weight ts) -> two_left ts ->
  exists ls r t n0, tree_over OAdd (Nat.log2_up (length ls)) ls r /\ combined lit ls ts /\ infix fmt5 r = inl t /\
    forall n, (n0 <= n)%nat -> session fmt5 stof n [str l] = ([Success t], AtEof).
Proof.
  intros num N lit ok IL fmt5 stof sane l ts H Hw H2.
  destruct (typed_answer lit ok fmt5 stof sane l ts H Hw) as (e & He & A).
  destruct (c58_like_terms_partial num N lit ok IL false false e ts He Hw H2) as (ls & r & (n0 & Y) & B & C).
  destruct (poly_plain lit ok IL false false e ts He Hw) as (r' & tr & Y' & P & _).
  assert (r = r') by (eapply always_fun; [exists n0; exact Y|apply yields_always; exact Y']). subst r'.
  destruct (plain_printed lit fmt5 false r tr P) as (t & Ht). exists ls, r, t, n0. repeat split; auto.
  intros n L. apply (A r t n); auto.
Qed.
Print Assumptions c62_typed_partial.

(** The same for doubles, if the numerals are read exactly. *)
Theorem c62_doubles : forall pw lg pwx lgx, let N := double_ops pw lg pwx lgx in
  forall fmt5 stof, sane_numbers stof -> forall l ts, line_text stof d_int l ts -> (weight ts <= 2 ^ 53)%Z -> two_left ts ->
  exists ls r t n0, tree_over OAdd (Nat.log2_up (length ls)) ls r /\ combined d_int ls ts /\ infix fmt5 r = inl t /\
    forall n, (n0 <= n)%nat -> session fmt5 stof n [str l] = ([Success t], AtEof).
Proof.
  intros pw lg pwx lgx N fmt5 stof sane l ts H Hw H2. apply (c62_typed_partial double N d_int d_ok (double_ints pw lg pwx lgx)); auto.
  - unfold d_ok. pose proof (weight_nonneg ts). lia.
Qed.
Print Assumptions c62_doubles.

Example c62_case : line_text q_read q_int typed typed_terms /\ two_left typed_terms
  /\ session q_show q_read 30 [str typed] = ([Success "((2*x)+(y^2))"], AtEof).
Proof.
  split; [apply typed_line|]. split; [|vm_compute; reflexivity].
  exists (Some ("x", 1%Z)), (Some ("y", 2%Z)). split; [discriminate|]. split; discriminate.
Qed.

(** ** C63: Answers can be entered again *)
Definition C63_statement : Prop :=
  forall (num : Type) (N : NumOps num) fmt5 stof, sane_numbers stof ->
  forall n s t, session fmt5 stof n [s] = ([Success t], AtEof) ->
  exists m, session fmt5 stof m [t] = ([Success t], AtEof).

(** x+y+z+w is answered by ((x+y)+(z+w)), which is rejected. *)
Theorem c63_refuted : ~ C63_statement.
Proof.
  intros S. destruct (S Q Q_ops q_show q_read (num_sane inject_Z) 30%nat "x+y+z+w" "((x+y)+(z+w))") as [m H].
  - vm_compute. reflexivity.
  - assert (K : session q_show q_read 30 ["((x+y)+(z+w))"] = ([Failure "Invalid number of operands"], AtEof)) by (vm_compute; reflexivity).
    rewrite (session_unique q_show q_read m 30) in H; [rewrite K in H; discriminate H|rewrite H; discriminate|rewrite K; discriminate].
Qed.
Print Assumptions c63_refuted.

Lemma app_chars a b : list_ascii_of_string (a ++ b)%string = list_ascii_of_string a ++ list_ascii_of_string b.
Proof. apply laos_app. Qed.
Lemma str_solid s : s <> "" -> (forall c, In c (list_ascii_of_string s) -> ~ blank c) -> trim s = s.
Proof.
  intros Hs H. rewrite <- (string_of_list_ascii_of_string s) in Hs |- *. set (l := list_ascii_of_string s) in *.
  destruct l as [|c l]; [now destruct Hs|]. destruct (exists_last (l := c :: l)) as (m & x & E); [congruence|].
  assert (Hx : ~ blank x) by (apply H; rewrite E; apply in_or_app; right; now left).
  assert (Hc : ~ blank c) by (apply H; now left).
  destruct m as [|y m]; rewrite E; [now apply trim_single|]. cbn [app] in *. injection E as -> _. now apply trim_solid.
Qed.
Section Again.
  Context {num : Type} (fmt5 : num -> string) (stof : string -> option num).
  Lemma letter_not_blank c : letter c -> ~ blank c.
  Proof. intros H K. apply is_space_blank in K. destruct (letter_plain c H) as (_ & E & _). congruence. Qed.
  Lemma point_not_blank c : digit_or_point c -> ~ blank c.
  Proof.
    intros [H| ->] K; apply is_space_blank in K; [|discriminate]. destruct (digit_plain c H) as (_ & E & _). congruence.
  Qed.
  Lemma bin_chars o x y : exists f m, list_ascii_of_string (bin_text o x y) =
      f ++ list_ascii_of_string x ++ m ++ list_ascii_of_string y ++ [")"%char] /\
      (forall c, In c f -> ~ blank c) /\ (forall c, In c m -> ~ blank c).
  Proof.
    assert (B : forall l, forallb (fun c => negb (is_space c)) l = true -> forall c, In c l -> ~ blank c).
    { intros l H c Hc K. rewrite forallb_forall in H. specialize (H c Hc). apply is_space_blank in K. now rewrite K in H. }
    assert (A : forall c, is_space c = false -> exists f m, list_ascii_of_string (arith (String c "") x y) =
        f ++ list_ascii_of_string x ++ m ++ list_ascii_of_string y ++ [")"%char] /\
        (forall c, In c f -> ~ blank c) /\ (forall c, In c m -> ~ blank c)).
    { intros c Hc. exists ["("%char], [c]. unfold arith. rewrite !app_chars. split; [reflexivity|]. split; apply B; cbn; now rewrite ?Hc. }
    assert (F : forall n, forallb (fun c => negb (is_space c)) (list_ascii_of_string n) = true ->
        exists f m, list_ascii_of_string (func n x y) = f ++ list_ascii_of_string x ++ m ++ list_ascii_of_string y ++ [")"%char] /\
        (forall c, In c f -> ~ blank c) /\ (forall c, In c m -> ~ blank c)).
    { intros n Hn. exists (list_ascii_of_string n ++ ["("%char]), [","%char]. unfold func. rewrite !app_chars, <- !app_assoc.
      split; [reflexivity|]. split; apply B; rewrite ?forallb_app, ?Hn; reflexivity. }
    destruct o; (apply A || apply F); reflexivity.
  Qed.
  Lemma school_chars e : forall s, school fmt5 stof e -> infix fmt5 e = inl s ->
    s <> "" /\ (forall c, In c (list_ascii_of_string s) -> ~ blank c) /\ s <> "exit".
  Proof.
    induction e as [c| |x| | | |r c d|o a IHa b IHb|o a IHa]; intros s He Hi; cbn in He; try contradiction; cbn [infix] in Hi.
    - injection Hi as <-. destruct He as (H1 & H2 & _). repeat split; auto.
      + intros d Hd. apply point_not_blank. auto.
      + intros E. rewrite E in H2. destruct (H2 "x"%char) as [K|K]; [cbn; auto|cbv in K; lia|discriminate].
    - injection Hi as <-. repeat split; try discriminate. intros c [<-|[]]. apply letter_not_blank. right. cbv. lia.
    - injection Hi as <-. destruct He as (c & -> & Hc & _). repeat split; try discriminate.
      intros d [<-|[]]. now apply letter_not_blank.
    - injection Hi as <-. repeat split; try discriminate. intros c [<-|[]]. apply letter_not_blank. right. cbv. lia.
    - destruct He as [Ha Hb]. destruct (infix fmt5 a) as [x|]; [|discriminate]. destruct (infix fmt5 b) as [y|]; [|discriminate].
      destruct (IHa x Ha eq_refl) as (_ & A & _). destruct (IHb y Hb eq_refl) as (_ & B & _).
      cbn [two] in Hi. injection Hi as <-. destruct (bin_chars o x y) as (f & m & E & Hf & Hm). repeat split.
      + intros K. rewrite K in E. destruct f; [|discriminate]. cbn in E. destruct (list_ascii_of_string x); [|discriminate]. destruct m; [|discriminate]. cbn in E. destruct (list_ascii_of_string y); discriminate.
      + intros c Hc. rewrite E in Hc. repeat (apply in_app_or in Hc; destruct Hc as [Hc|Hc]; auto). destruct Hc as [<-|[]]. intros K. apply is_space_blank in K. discriminate K.
      + intros K. rewrite K in E. rewrite !app_assoc in E. change (list_ascii_of_string "exit") with (["e"; "x"; "i"]%char ++ ["t"%char]) in E.
        apply app_inj_tail in E. destruct E as [_ E]. discriminate E.
  Qed.
End Again.

(** Proved when the simplified expression is one the reader can read back
    after preprocessing, see C37, and Simplify leaves it as it is. *)
Theorem c63_again_partial : forall (num : Type) (N : NumOps num) fmt5 stof, sane_numbers stof ->
  forall n s t, session fmt5 stof n [s] = ([Success t], AtEof) ->
  exists e r, snd (from_infix stof true (preprocess (trim s))) = Ok e /\ snd (simp n false e) = Ok r /\ infix fmt5 r = inl t /\
    (school fmt5 stof r -> shallow r -> forall m, snd (simp m false r) = Ok r ->
       session fmt5 stof m [t] = ([Success t], AtEof)).
Proof.
  intros num N fmt5 stof sane n s t H. cbn [session] in H. destruct (String.eqb (trim s) ""); [discriminate|].
  destruct (String.eqb (trim s) "exit"); [discriminate|]. unfold answer in H.
  destruct (snd (from_infix stof true (preprocess (trim s)))) as [e| | | | |] eqn:P; try discriminate H.
  destruct (snd (simp n false e)) as [r| | | | |] eqn:R; try discriminate H.
  destruct (infix fmt5 r) as [u|] eqn:U; [|discriminate H]. cbn in H. injection H as ->.
  exists e, r. repeat split; auto. intros Hs Hsh m Hm. destruct (school_chars fmt5 stof r t Hs U) as (T1 & T2 & T3).
  destruct (c37_preprocessed_partial fmt5 stof sane r Hs Hsh) as (u & Hu & Hp). rewrite U in Hu. injection Hu as <-.
  cbn [session]. rewrite (str_solid t T1 T2). destruct (String.eqb_spec t "") as [|_]; [contradiction|].
  destruct (String.eqb_spec t "exit") as [|_]; [contradiction|]. unfold answer. rewrite Hp. cbn [snd ret]. now rewrite Hm, U.
Qed.
Print Assumptions c63_again_partial.

Example c63_case : session q_show q_read 30 ["x+y+x-x"; "x*y+0"] = ([Success "(x+y)"; Success "(x*y)"], AtEof)
  /\ school q_show q_read (EMul (qv "x") (qv "y")) /\ shallow (EMul (qv "x") (qv "y"))
  /\ snd (simp 20 false (EMul (qv "x") (qv "y"))) = Ok (EMul (qv "x") (qv "y")).
Proof.
  split; [vm_compute; reflexivity|]. split; [|split; [cbn; auto|vm_compute; reflexivity]].
  cbn. split; eexists; (split; [reflexivity|]); (split; [right; cbv; lia|]); split; discriminate.
Qed.

(** ** C64: MatchCast runs the first case that matches *)
Section C64.
  Context {num : Type} {N : NumOps num}.
  Notation expr := (expr num).

  (** A case does not apply: the argument does not have its type, or its check
      answers false. *)
  Definition passed_over (arg : expr) (c : mcase) : Prop :=
    forall e, rcast (mc_pat c) arg = Some e -> mc_check c e = ret false.

  Lemma match_none arg cases : Forall (passed_over arg) cases -> match_cast cases arg = ret None.
  Proof.
    unfold match_cast. induction 1 as [|c cases Hc _ IH]; [reflexivity|]. cbn [fold_left].
    replace (match_step arg (ret None) c) with (@ret (option expr) None); [exact IH|].
    cbn. destruct (rcast (mc_pat c) arg) as [e|] eqn:E; [|reflexivity]. now rewrite (Hc e E).
  Qed.
  Lemma match_done arg cases (m : M (option expr)) : (forall t, m <> (t, Ok None)) -> fold_left (match_step arg) cases m = m.
  Proof.
    intros H. induction cases as [|c cases IH]; [reflexivity|]. cbn [fold_left].
    replace (match_step arg m c) with m; [exact IH|]. destruct m as [t [[x|]| | | | |]]; try reflexivity. now destruct (H t).
  Qed.
  Lemma bind_some (m : M expr) t : (x <- m ;; ret (Some x))%M <> (t, Ok None).
  Proof. destruct m as [t' [| | | | |]]; discriminate. Qed.

  (** Nothing matches: the result is null, and no transformer is run.
      Otherwise the result is what the transformer of the first case that
      applies returns, whatever the later cases are. *)
  Theorem c64_first_case (arg : expr) :
    (forall cases, Forall (passed_over arg) cases -> match_cast cases arg = ret None) /\
    (forall before c after e, Forall (passed_over arg) before ->
       rcast (mc_pat c) arg = Some e -> mc_check c e = ret true ->
       match_cast (before ++ c :: after) arg = (x <- mc_run c e ;; ret (Some x))%M).
  Proof.
    split; [apply match_none|]. intros before c after e Hb Hc Ht. unfold match_cast. rewrite fold_left_app. cbn [fold_left].
    pose proof (match_none arg before Hb) as E. unfold match_cast in E. rewrite E.
    replace (match_step arg (ret None) c) with (x <- mc_run c e ;; ret (Some x))%M.
    - apply match_done. apply bind_some.
    - cbn. rewrite Hc, Ht. cbn. destruct (mc_run c e) as [t [| | | | |]]; reflexivity.
  Qed.
End C64.
Print Assumptions c64_first_case.

(** 0^0: the case for a zero power comes before the case for a zero base. *)
Definition zero_power : mcase (num := Q) :=
  {| mc_pat := PBin OExp PAny PReal;
     mc_check := fun e => match e with EBin _ _ (EReal p) => ret (Qeq_bool p 0) | _ => ret false end;
     mc_run := fun _ => ret (qr 1) |}.
Definition zero_base : mcase (num := Q) :=
  {| mc_pat := PBin OExp PReal PAny;
     mc_check := fun e => match e with EBin _ (EReal b) _ => ret (Qeq_bool b 0) | _ => ret false end;
     mc_run := fun _ => ret (qr 0) |}.
Example c64_case :
  match_cast [zero_power; zero_base] (EExp (qr 0) (qr 0)) = ret (Some (qr 1))
  /\ match_cast [zero_base; zero_power] (EExp (qr 0) (qr 0)) = ret (Some (qr 0))
  /\ passed_over (EExp (qr 0) (qr 2)) zero_power /\ rcast (mc_pat zero_base) (EExp (qr 0) (qr 2)) = Some (EExp (qr 0) (qr 2))
  /\ mc_check zero_base (EExp (qr 0) (qr 2)) = ret true.
Proof. repeat split. intros e H. injection H as <-. reflexivity. Qed.

(** The rules for exponents are such a list: Simplify of a power is
    MatchCast over these cases, and the power itself when none applies. *)
Section ExponentCases.
  Context {num : Type} {N : NumOps num}.
  Notation expr := (expr num).
  Variable S : expr -> M expr.

  Definition exponent_cases : list mcase :=
    [ {| mc_pat := PBin OExp PAny PReal;
         mc_check := fun e => match e with EBin _ _ (EReal p) => ret (n_eqb p n0) | _ => ret false end;
         mc_run := fun _ => ret (EReal (n_of_Z 1)) |};
      {| mc_pat := PBin OExp PReal PAny;
         mc_check := fun e => match e with EBin _ (EReal x) _ => ret (n_eqb x n0) | _ => ret false end;
         mc_run := fun _ => ret (EReal (n_of_Z 0)) |};
      {| mc_pat := PBin OExp PReal PReal;
         mc_check := fun _ => ret true;
         mc_run := fun e => match e with
                            | EBin _ (EReal x) (EReal p) => (emit (negb (n_pow_exact x p)) Inexact ;;; ret (EReal (n_pow x p)))%M
                            | _ => fail "" end |};
      {| mc_pat := PBin OExp PAny PReal;
         mc_check := fun e => match e with EBin _ _ (EReal p) => ret (n_eqb p n1) | _ => ret false end;
         mc_run := fun e => match e with EBin _ x _ => ret x | _ => fail "" end |};
      {| mc_pat := PBin OExp PReal PAny;
         mc_check := fun e => match e with EBin _ (EReal x) _ => ret (n_eqb x n1) | _ => ret false end;
         mc_run := fun _ => ret (EReal (n_of_Z 1)) |};
      {| mc_pat := PBin OExp PImag PReal;
         mc_check := fun _ => ret true;
         mc_run := fun e => match e with
                            | EBin _ _ (EReal p) =>
                              match n_rem4 p with
                              | None => undef BadNumericCast
                              | Some 0%Z => ret (EReal (n_of_Z 1))
                              | Some 1%Z => ret EImag
                              | Some 2%Z => ret (EReal (n_of_Z (-1)))
                              | Some 3%Z => ret (ENeg EImag)
                              | Some _ => fail "std::fmod returned an invalid value"
                              end
                            | _ => fail "" end |};
      {| mc_pat := PBin OExp (PBin OMul PReal PAny) PReal;
         mc_check := fun e => match e with
                              | EBin _ (EBin _ (EReal c) _) (EReal p) => ret (n_ltb c n0 && n_eqb p n_half)
                              | _ => ret false end;
         mc_run := fun e => match e with
                            | EBin _ (EBin _ (EReal c) x) (EReal p) =>
                              (emit true SqrtNegative ;;;
                               ret (EMul (EMul (EReal (n_pow (n_abs c) n_half)) (EExp x (EReal n_half))) EImag))%M
                            | _ => fail "" end |};
      {| mc_pat := PBin OExp (PBin OExp PAny PAny) PAny;
         mc_check := fun _ => ret true;
         mc_run := fun e => match e with
                            | EBin _ (EBin _ x n) p =>
                              (emit (negb (int_literal p || evident_pos x)) PowerOfPower ;;;
                               m <- S (EMul n p) ;; ret (EExp x m))%M
                            | _ => fail "" end |};
      {| mc_pat := PBin OExp PAny (PBin OLog PAny PAny);
         mc_check := fun e => match e with EBin _ x (EBin _ y z) => m_eq x y | _ => ret false end;
         mc_run := fun e => match e with EBin _ _ (EBin _ _ z) => ret z | _ => fail "" end |} ].
End ExponentCases.
Section ExponentProof.
  Context {num : Type} {N : NumOps num}.
  Notation expr := (expr num).
  Variable S : expr -> M expr.

  Definition one_case (arg : expr) (c : mcase) : M (option expr) := match_step arg (ret None) c.
  Fixpoint each_case (arg : expr) (cases : list mcase) : M (option expr) :=
    match cases with
    | [] => ret None
    | c :: cases => (o <- one_case arg c ;; match o with Some x => ret (Some x) | None => each_case arg cases end)%M
    end.
  Lemma bind_tell {A B} t (m : M A) (k : A -> M B) : bind (t ++ fst m, snd m) k = (t ++ fst (bind m k), snd (bind m k)).
  Proof. destruct m as [t' [a| | | | |]]; cbn; try reflexivity. destruct (k a) as [u r]. cbn. now rewrite app_assoc. Qed.
  Lemma step_tell arg t (c : mcase) : match_step arg (t, Ok None) c = (t ++ fst (one_case arg c), snd (one_case arg c)).
  Proof.
    unfold one_case, match_step. cbn. destruct (rcast (mc_pat c) arg); [|cbn; now rewrite app_nil_r].
    destruct (mc_check c e) as [u [b| | | | |]]; cbn; try reflexivity.
  Qed.
  Lemma fold_each arg cases : forall m,
    fold_left (match_step arg) cases m = bind m (fun o => match o with Some x => ret (Some x) | None => each_case arg cases end).
  Proof.
    induction cases as [|c cases IH]; intros m.
    - cbn. destruct m as [t [[x|]| | | | |]]; cbn; rewrite ?app_nil_r; reflexivity.
    - cbn [fold_left]. rewrite IH. destruct m as [t [[x|]| | | | |]]; try reflexivity.
      rewrite step_tell, bind_tell. cbn [each_case bind]. now destruct (bind (one_case arg c) _).
  Qed.
  Lemma value_bind {A B} (m : M A) (k : A -> M B) : m_value (bind m k) = bind (m_value m) (fun a => m_value (k a)).
  Proof. destruct m as [t [a| | | | |]]; cbn; try reflexivity. destruct (k a) as [u [| | | | |]]; reflexivity. Qed.
  Lemma bind_ext {A B} (m : M A) (k k' : A -> M B) : (forall a, k a = k' a) -> bind m k = bind m k'.
  Proof. intros H. destruct m as [t [a| | | | |]]; cbn; rewrite ?H; reflexivity. Qed.
  Lemma bind_bind {A B C} (m : M A) (k : A -> M B) (h : B -> M C) : bind (bind m k) h = bind m (fun a => bind (k a) h).
  Proof.
    destruct m as [t [a| | | | |]]; cbn; try reflexivity. destruct (k a) as [u [b| | | | |]]; cbn; try reflexivity.
    destruct (h b) as [v r]. cbn. now rewrite app_assoc.
  Qed.
  Lemma rules_each arg a b rs cases default :
    Forall2 (fun r c => r a b = m_value (one_case arg c)) rs cases ->
    first_rule rs default a b = (o <- m_value (each_case arg cases) ;; match o with Some x => ret x | None => default a b end)%M.
  Proof.
    induction 1 as [|r c rs cases E _ IH].
    - cbn. now destruct (default a b).
    - cbn [first_rule each_case]. rewrite E, value_bind, bind_bind. apply bind_ext. intros [x|]; [reflexivity|exact IH].
  Qed.

  Lemma mul_shape x z : rcast (PBin OMul PReal PAny) x = Some z -> exists c e, z = EBin OMul (EReal (num := num) c) e.
  Proof.
    destruct x as [| | | | | | |o a b|]; try discriminate. destruct o; try discriminate. cbn.
    destruct a; try (intros H; injection H as <-; eauto); destruct b; try discriminate; intros H; injection H as <-; eauto.
  Qed.

  Theorem c64_exponent_cases a b :
    visit_exp S a b =
      (operands S a b (fun a b =>
         o <- m_value (match_cast (exponent_cases S) (EExp a b)) ;;
         ret (match o with Some x => x | None => EExp a b end)))%M.
  Proof.
    unfold visit_exp, operands. apply bind_ext. intros ra. apply bind_ext. intros rb.
    destruct ra as [x|]; [|reflexivity]. destruct rb as [y|]; [|reflexivity].
    unfold match_cast. rewrite fold_each. cbn [bind ret app fst snd].
    rewrite (rules_each (EExp x y) x y _ (exponent_cases S)).
    - transitivity (o <- m_value (each_case (EExp x y) (exponent_cases S)) ;; ret (match o with Some z => z | None => EExp x y end))%M.
      + apply bind_ext. now intros [z|].
      + f_equal. f_equal. now destruct (each_case (EExp x y) (exponent_cases S)).
    - unfold exp_rules, exponent_cases. repeat apply Forall2_cons; [..|apply Forall2_nil].
      all: unfold one_case, match_step; cbn [mc_pat mc_check mc_run ret].
      + unfold exp_1139. destruct y; cbn; try reflexivity. now destruct (n_eqb c n0).
      + unfold exp_1148. destruct x; cbn; try reflexivity. now destruct (n_eqb c n0).
      + unfold exp_1156. destruct x; cbn; try reflexivity. destruct y; cbn; rewrite ?app_nil_r; reflexivity.
      + unfold exp_1163. destruct y; cbn; try reflexivity. now destruct (n_eqb c n1).
      + unfold exp_1171. destruct x; cbn; try reflexivity. now destruct (n_eqb c n1).
      + unfold exp_1179. destruct x; cbn; try reflexivity. destruct y; cbn; try reflexivity.
        destruct (n_rem4 c) as [[|[[p|p|]|[p|p|]|]|p]|]; reflexivity.
      + unfold exp_1196, pMulRE.
        change (rcast (PBin OExp (PBin OMul PReal PAny) PReal) (EExp x y))
          with (match rcast (PBin OMul PReal PAny) x, rcast PReal y with Some a', Some b' => Some (EBin OExp a' b') | _, _ => None end).
        destruct (rcast (PBin OMul PReal PAny) x) as [z|] eqn:E; [|reflexivity].
        destruct (mul_shape x z E) as (c & e & ->). destruct y; cbn; try reflexivity.
        destruct (n_ltb c n0 && n_eqb c0 n_half); cbn; reflexivity.
      + unfold exp_1209, pExp. destruct x; try reflexivity. destruct o; try reflexivity. cbn.
        destruct (S (EMul x2 y)) as [t [| | | | |]]; cbn; rewrite ?app_nil_r; reflexivity.
      + unfold exp_1219, pLog. destruct y; try reflexivity. destruct o; try reflexivity. cbn.
        unfold m_eq. destruct (equals x y1) as [q|]; [|reflexivity]. destruct q; cbn; rewrite ?app_nil_r; reflexivity.
  Qed.
End ExponentProof.
Print Assumptions c64_exponent_cases.

(** ** C65: The JavaScript functions can be chained *)

(** ToMathMLString(Simplify(FromInFix(s))). *)
Definition page {num} {N : NumOps num} (fmt5 fmt17 : num -> string) (stof : string -> option num) (n : nat) (s : string) : outcome xml :=
  match js_from_infix stof s with
  | Ok p => match js_simplify n p with
            | Ok q => js_mathml fmt5 fmt17 q
            | o => crash o
            end
  | o => crash o
  end.
Definition C65_statement : Prop :=
  forall (num : Type) (N : NumOps num) fmt5 fmt17 stof n s u, page fmt5 fmt17 stof n s <> Undef u.

(** A text that is not an expression becomes a null pointer, which Simplify
    dereferences. *)
Theorem c65_refuted : ~ C65_statement.
Proof. intros S. apply (S Q Q_ops q_show q_show q_read 30%nat ")" NullDeref). vm_compute. reflexivity. Qed.
Print Assumptions c65_refuted.

(** Proved: what each function returns; the chain gives the MathML of the
    simplified expression whenever the text is read and Simplify answers. *)
Theorem c65_chain_partial : forall (num : Type) (N : NumOps num) fmt5 fmt17 stof n s,
  (forall e, snd (from_infix stof true s) = Ok e ->
     js_from_infix stof s = Ok (Some e) /\
     (forall r, snd (simp n false e) = Ok r -> page fmt5 fmt17 stof n s = Ok (mathml fmt5 fmt17 r)) /\
     (forall m, snd (simp n false e) = Err m -> js_simplify n (Some e) = Ok None)) /\
  (forall m, snd (from_infix stof true s) = Err m -> js_from_infix stof s = Ok None /\ page fmt5 fmt17 stof n s = Undef NullDeref) /\
  (exists p, js_from_infix stof s = Ok p) /\
  (forall x, page fmt5 fmt17 stof n s = Ok x ->
     exists e r, snd (from_infix stof true s) = Ok e /\ snd (simp n false e) = Ok r /\ x = mathml fmt5 fmt17 r).
Proof.
  intros num N fmt5 fmt17 stof n s. unfold page, js_from_infix. split; [|split; [|split]].
  - intros e E. rewrite E. split; [reflexivity|]. cbn. split; intros r R; now rewrite R.
  - intros m E. now rewrite E.
  - destruct (c40_answers stof true s) as [[e E]|[m E]]; rewrite E; eauto.
  - intros x H. destruct (snd (from_infix stof true s)) as [e| | | | |]; try discriminate H. cbn in H.
    destruct (snd (simp n false e)) as [r| | | | |] eqn:R; try discriminate H. cbn in H. injection H as <-. now exists e, r.
Qed.
Print Assumptions c65_chain_partial.
Example c65_case : js_from_infix q_read "x + x" = Ok (Some (EAdd (qv "x") (qv "x")))
  /\ snd (simp 20 false (EAdd (qv "x") (qv "x"))) = Ok (EMul (qr 2) (qv "x"))
  /\ js_from_infix q_read "x +" = Ok None.
Proof. repeat split; vm_compute; reflexivity. Qed.

(** ** C66: PreProcessInFix keeps the words of the text *)
Definition C66_statement : Prop :=
  forall s ts us, lexed (list_ascii_of_string s) ts -> words_of (preprocess s) us -> starred ts us.

(** "1 2" becomes "12". *)
Theorem c66_refuted : ~ C66_statement.
Proof.
  intros S. assert (K : starred ["1"; "2"] ["12"]).
  { apply (S "1 2").
    - apply (lx_word ["1"%char] [" "; "2"]%char ["2"]); [discriminate| |right; cbn; tauto|].
      + intros c [<-|[]]. split; [|cbn; lia]. intros H. cbn in H. repeat (destruct H as [H|H]; [discriminate|]). destruct H.
      + apply lx_blank; [cbn; tauto|]. apply (lx_word ["2"%char] [] []); [discriminate| |exact I|constructor].
        intros c [<-|[]]. split; [|cbn; lia]. intros H. cbn in H. repeat (destruct H as [H|H]; [discriminate|]). destruct H.
    - change ["12"] with (tokens (preprocess "1 2")). apply words_of_tokens. }
  inversion K as [| |t ts us vs Ht Hs]; subst.
  inversion Ht; subst; discriminate.
Qed.
Print Assumptions c66_refuted.

Lemma punct_special c : punct c -> is_special c = true.
Proof. apply special_punct. Qed.
Lemma plain_special c : ~ punct c -> is_special c = false.
Proof. intros H. destruct (is_special c) eqn:E; [|reflexivity]. now apply special_punct in E. Qed.
Lemma wd_punct c l : is_special c = true -> wd (c :: l) = String c "" :: wd l.
Proof. apply (wd_special [] c l). Qed.
Lemma wd_start w c l : is_special c = true -> wd (w ++ c :: l) = wd w ++ wd (c :: l).
Proof. intros H. rewrite wd_special by exact H. now rewrite (wd_punct c l H). Qed.
Definition word (w : list ascii) : Prop := w <> [] /\ forall c, In c w -> ~ punct c /\ ~ blank c.
Lemma wd_word w : word w -> wd w = [str w].
Proof.
  intros [Hn H]. unfold wd. rewrite <- (list_ascii_of_string_of_list_ascii w) at 1.
  rewrite words_sa_plain; [cbn; now rewrite list_ascii_of_string_of_list_ascii|]. apply one_word_plain. split.
  - destruct w; [congruence|discriminate].
  - now rewrite list_ascii_of_string_of_list_ascii.
Qed.
Lemma wd_blank_mid w c l : blank c -> wd (w ++ c :: l) = wd w ++ wd l.
Proof.
  intros H. unfold wd. rewrite sa_app. cbn [space_around flat_map].
  rewrite (blank_not_special c H). cbn [app]. fold (space_around l).
  rewrite words_app by now apply is_space_blank. apply map_app.
Qed.
Lemma lexed_wd l ts : lexed l ts -> wd l = ts.
Proof.
  induction 1 as [|c l ts Hc H IH|c l ts Hc H IH|w l ts Hn Hw Hl H IH].
  - reflexivity.
  - rewrite <- IH. apply (wd_blank_l [c] l). now intros d [<-|[]].
  - rewrite <- IH. now apply wd_punct, punct_special.
  - assert (W : wd w = [str w]) by (apply wd_word; now split). destruct l as [|c l].
    + rewrite app_nil_r, W. now rewrite <- IH.
    + destruct Hl as [Hc|Hc].
      * rewrite wd_start by now apply punct_special. now rewrite W, IH.
      * rewrite (wd_blank_mid w c l Hc), W. cbn [app]. f_equal. rewrite <- IH. symmetry. apply (wd_blank_l [c] l). now intros d [<-|[]].
Qed.
Lemma lexed_words l ts : lexed l ts -> Forall (fun t => punctuation t \/ exists w, t = str w /\ word w) ts.
Proof.
  induction 1; auto; constructor; auto.
  - left. now exists c.
  - right. now exists w.
Qed.

(* cutting a word *)
Lemma str_app a b : str (a ++ b) = (str a ++ str b)%string.
Proof. induction a as [|c a IH]; [reflexivity|]. cbn. now rewrite IH. Qed.
Lemma digit_letter c : is_digit c = true -> is_letter c = true -> False.
Proof.
  unfold is_digit, is_letter. intros H K. apply andb_true_iff in H. destruct H as [H1 H2]. apply Nat.leb_le in H1, H2.
  apply orb_true_iff in K. destruct K as [K|K]; apply andb_true_iff in K; destruct K as [K1 K2]; apply Nat.leb_le in K1, K2; lia.
Qed.
Lemma expand_runs l : forall c, exists w ws, expand (c :: l) = (c :: w) ++ flat_map (fun v => "*"%char :: v) ws
  /\ c :: l = (c :: w) ++ concat ws /\ Forall (fun v => v <> []) ws.
Proof.
  induction l as [|d l IH]; intros c.
  - exists [], []. now cbn.
  - destruct (IH d) as (w & ws & E1 & E2 & F). rewrite expand_cons, E1, E2.
    assert (Star : exists w' ws', c :: "*"%char :: (d :: w) ++ flat_map (fun v => "*"%char :: v) ws
        = (c :: w') ++ flat_map (fun v => "*"%char :: v) ws' /\ c :: (d :: w) ++ concat ws = (c :: w') ++ concat ws' /\ Forall (fun v => v <> []) ws').
    { exists [], ((d :: w) :: ws). cbn [flat_map concat app]. repeat split; auto. constructor; [discriminate|exact F]. }
    destruct (is_digit c && is_letter d || is_letter c && is_digit d) eqn:E3; destruct (is_letter c && is_letter d) eqn:E4; cbn [app].
    + exfalso. apply andb_true_iff in E4. destruct E4 as [L1 L2]. rewrite L1, L2 in E3. cbn in E3. rewrite andb_true_r in E3.
      apply orb_true_iff in E3. destruct E3 as [D|D]; eapply digit_letter; eauto.
    + exact Star.
    + exact Star.
    + exists (d :: w), ws. auto.
Qed.
Lemma wd_runs ws : forall w, w <> [] -> Forall (fun v => v <> []) ws -> (forall c, In c (w ++ concat ws) -> ~ punct c /\ ~ blank c) ->
  split_by_stars (str (w ++ concat ws)) (wd (w ++ flat_map (fun v => "*"%char :: v) ws)).
Proof.
  induction ws as [|v ws IH]; intros w Hn F H.
  - cbn [flat_map concat]. rewrite !app_nil_r, wd_word; [|split; [exact Hn|]].
    + constructor.
    + intros c Hc. apply H. apply in_or_app. now left.
  - cbn [flat_map concat]. inversion F as [|? ? Fv Fs]; subst. cbn [app]. rewrite wd_special by reflexivity.
    rewrite wd_word; [|split; [exact Hn|intros c Hc; apply H; apply in_or_app; now left]].
    rewrite str_app. cbn [app]. apply sb_more.
    + destruct w; [congruence|discriminate].
    + apply IH; auto. intros c Hc. apply H. apply in_or_app. now right.
Qed.
Lemma wd_expand w : word w -> split_by_stars (str w) (wd (expand w)).
Proof.
  intros [Hn H]. destruct w as [|c l]; [congruence|]. destruct (expand_runs l c) as (w & ws & E1 & E2 & F).
  rewrite E1. rewrite E2 in H |- *. apply wd_runs; auto. discriminate.
Qed.

(* one step of the second pass *)
Lemma implicit_step last t ts : exists pre, (pre = [] \/ pre = ["*"%char]) /\
  (implicit last (t :: ts) = pre ++ list_ascii_of_string t ++ implicit t ts \/
   implicit last (t :: ts) = pre ++ expand (list_ascii_of_string t) ++ implicit t ts).
Proof.
  cbn [implicit]. destruct (is_some (is_function t) || is_some (is_operator t)).
  - rewrite <- app_assoc. destruct (is_some (is_function t) && String.eqb last ")"); eexists; (split; [|left; reflexivity]); auto.
  - destruct (String.eqb last ")" && negb (String.eqb t ",")); [exists ["*"%char]; split; [now right|left; reflexivity]|].
    destruct (negb (String.eqb last "") && negb (is_some (is_function last)) && negb (is_some (is_operator last)) && String.eqb t "(");
      [exists ["*"%char]; split; [now right|left; reflexivity]|exists []; split; [now left|right; reflexivity]].
Qed.
Lemma implicit_starts last t ts : punctuation t -> exists c l, implicit last (t :: ts) = c :: l /\ is_special c = true.
Proof.
  intros (c & -> & Hc). destruct (implicit_step last (String c "") ts) as (pre & [->| ->] & [E|E]); rewrite E; cbn.
  1, 2: exists c; eexists; split; [reflexivity|now apply punct_special].
  1, 2: exists "*"%char; eexists; split; [reflexivity|reflexivity].
Qed.
Lemma star_first ts pre l : pre = [] \/ pre = ["*"%char] -> starred ts (wd l) -> starred ts (wd (pre ++ l)).
Proof.
  intros [->| ->] H; [exact H|]. cbn [app]. rewrite (wd_punct "*"%char l) by reflexivity. now apply sd_star.
Qed.
Lemma implicit_starred ts : Forall (fun t => punctuation t \/ exists w, t = str w /\ word w) ts -> separated ts ->
  forall last, starred ts (wd (implicit last ts)).
Proof.
  induction 1 as [|t ts Ht F IH]; intros S last; [constructor|].
  assert (S' : separated ts) by (destruct ts; [exact I|apply S]).
  destruct (implicit_step last t ts) as (pre & Hp & E).
  destruct Ht as [(c & -> & Hc)|(w & -> & Hw)].
  - assert (E' : implicit last (String c "" :: ts) = pre ++ c :: implicit (String c "") ts) by (destruct E as [E|E]; exact E).
    rewrite E'. apply star_first; [exact Hp|]. rewrite (wd_punct c _ (punct_special c Hc)).
    apply (sd_word _ _ [String c ""]); [constructor|auto].
  - rewrite list_ascii_of_string_of_list_ascii in E.
    assert (Hb : exists body, implicit last (str w :: ts) = pre ++ body ++ implicit (str w) ts /\ split_by_stars (str w) (wd body)).
    { destruct E as [E|E]; eexists; (split; [exact E|]); [|now apply wd_expand]. rewrite (wd_word w Hw). constructor. }
    destruct Hb as (body & -> & Hb). apply star_first; [exact Hp|].
    destruct ts as [|u ts].
    + cbn [implicit]. rewrite app_nil_r, <- (app_nil_r (wd body)). apply sd_word; [exact Hb|constructor].
    + assert (Hu : punctuation u).
      { destruct S as [[(c & Ec & Hc)|Hu] _]; [|exact Hu]. exfalso. destruct Hw as [Hn Hw]. destruct w as [|d w]; [congruence|].
        cbn in Ec. injection Ec as -> _. destruct (Hw c); [now left|contradiction]. }
      destruct (implicit_starts (str w) u ts Hu) as (c & l & Ei & Hc). rewrite Ei, wd_start by exact Hc.
      apply sd_word; [exact Hb|]. rewrite <- Ei. now apply IH.
Qed.

(** Proved when punctuation stands between any two words.  Missing: words
    separated by white space only, which are glued together. *)
Theorem c66_separated_partial : forall s ts us,
  lexed (list_ascii_of_string s) ts -> separated ts -> words_of (preprocess s) us -> starred ts us.
Proof.
  intros s ts us Hl Hs Hu. apply tokens_words in Hu. rewrite <- Hu.
  assert (E : tokens (spaced s) = ts).
  { rewrite <- (lexed_wd _ _ Hl). unfold tokens, spaced, wd. now rewrite list_ascii_of_string_of_list_ascii. }
  assert (P : tokens (preprocess s) = wd (implicit "" ts)).
  { unfold preprocess, tokens at 1, spaced at 1, wd. rewrite !list_ascii_of_string_of_list_ascii. now rewrite E. }
  rewrite P. apply implicit_starred; [|exact Hs]. eapply lexed_words; eauto.
Qed.
Print Assumptions c66_separated_partial.

Example c66_case : exists ts, lexed (list_ascii_of_string "3xy (z+1)") ts /\ separated ts /\
  words_of (preprocess "3xy (z+1)") ["3"; "*"; "x"; "*"; "y"; "*"; "("; "z"; "+"; "1"; ")"].
Proof.
  exists ["3xy"; "("; "z"; "+"; "1"; ")"]. split; [|split].
  - assert (P : forall c, existsb (Ascii.eqb c) ["3"; "x"; "y"; "z"; "1"]%char = true -> ~ punct c /\ ~ blank c).
    { intros c H. apply existsb_exists in H. destruct H as (x & Hx & E). apply Ascii.eqb_eq in E. subst x. split; intros K.
      - cbn in Hx. repeat (destruct Hx as [<-|Hx]; [cbn in K; repeat (destruct K as [K|K]; [discriminate|]); destruct K|]). destruct Hx.
      - apply is_space_blank in K. cbn in Hx. repeat (destruct Hx as [<-|Hx]; [discriminate K|]). destruct Hx. }
    apply (lx_word ["3"; "x"; "y"]%char); [discriminate| |right; cbn; tauto|].
    { intros c Hc. apply P. apply existsb_exists. exists c. split; [cbn in *; tauto|apply Ascii.eqb_refl]. }
    apply lx_blank; [cbn; tauto|]. apply lx_punct; [cbn; tauto|].
    apply (lx_word ["z"%char]); [discriminate|intros c [<-|[]]; now apply P|left; cbn; tauto|].
    apply lx_punct; [cbn; tauto|]. apply (lx_word ["1"%char]); [discriminate|intros c [<-|[]]; now apply P|left; cbn; tauto|].
    apply lx_punct; [cbn; tauto|]. constructor.
  - assert (P : forall c, punct c -> punctuation (String c "")) by (intros c H; now exists c).
    cbn. repeat split; try (left; apply P; cbn; tauto); right; apply P; cbn; tauto.
  - change ["3"; "*"; "x"; "*"; "y"; "*"; "("; "z"; "+"; "1"; ")"] with (tokens (preprocess "3xy (z+1)")). apply words_of_tokens.
Qed.
