(** The infix reader on typed polynomials (SpecLine.v). *)
From Coq Require Import String Ascii Bool Arith ZArith Lia List.
From Verif Require Import Base Num Expr SpecText SpecPoly SpecLine FromInFix InFixProofs PolyProofs.
Import ListNotations.
Open Scope string_scope.
Open Scope list_scope.

(* what the preprocessor makes of a word that is not next to a parenthesis *)
Definition piece (t : string) : list ascii :=
  if is_some (is_function t) || is_some (is_operator t) then list_ascii_of_string t
  else expand (list_ascii_of_string t).
Definition tame_word (t : string) : Prop := t <> "(" /\ t <> ")".

Lemma implicit_tame ts : Forall tame_word ts -> forall last, last <> ")" -> implicit last ts = concat (map piece ts).
Proof.
  induction 1 as [|t ts [H1 H2] H IH]; intros last Hl; [reflexivity|]. cbn [implicit map concat].
  rewrite (IH t H2). f_equal. unfold piece.
  destruct (String.eqb_spec last ")") as [E|_]; [contradiction|].
  destruct (String.eqb_spec t "(") as [E|_]; [contradiction|].
  rewrite !andb_false_r. destruct (is_some (is_function t) || is_some (is_operator t)); reflexivity.
Qed.

(* the words of [l], and the words after preprocessing *)
Definition wd (l : list ascii) : list string := map string_of_list_ascii (words (space_around l)).
Definition reads (l : list ascii) (T : list string) : Prop :=
  Forall tame_word (wd l) /\ wd (concat (map piece (wd l))) = T.

Lemma reads_preprocess s T : reads (list_ascii_of_string s) T -> tokens (preprocess s) = T.
Proof.
  intros [H1 H2]. unfold preprocess. 
  assert (K : tokens (spaced s) = wd (list_ascii_of_string s)).
  { unfold tokens, spaced, wd. now rewrite list_ascii_of_string_of_list_ascii. }
  rewrite K, implicit_tame; [|exact H1|discriminate].
  unfold tokens, spaced. rewrite !list_ascii_of_string_of_list_ascii. exact H2.
Qed.

Lemma wd_special l1 c l2 : is_special c = true -> wd (l1 ++ c :: l2) = wd l1 ++ String c "" :: wd l2.
Proof. intros H. unfold wd. rewrite words_sa_special by exact H. now rewrite map_app. Qed.

Lemma blank_not_special c : blank c -> is_special c = false.
Proof.
  intros H. destruct (is_special c) eqn:E; [|reflexivity]. apply special_not_space in E.
  apply is_space_blank in H. congruence.
Qed.
Lemma words_blank_l b l : blanks b -> words (b ++ l) = words l.
Proof.
  induction b as [|c b IH]; intros H; [reflexivity|]. cbn [app]. rewrite words_space.
  - apply IH. intros d Hd. apply H. now right.
  - apply is_space_blank, H. now left.
Qed.
Lemma words_blank_r b : forall l, blanks b -> words (l ++ b) = words l.
Proof.
  induction b as [|c b IH]; intros l H; [now rewrite app_nil_r|].
  rewrite words_app by (apply is_space_blank, H; now left). rewrite <- (app_nil_r b), words_blank_l; [cbn; now rewrite app_nil_r|].
  intros d Hd. apply H. now right.
Qed.
Lemma sa_blanks b : blanks b -> space_around b = b.
Proof. intros H. apply sa_plain. intros c Hc. now apply blank_not_special, H. Qed.
Lemma wd_blank_l b l : blanks b -> wd (b ++ l) = wd l.
Proof. intros H. unfold wd. now rewrite sa_app, (sa_blanks b H), words_blank_l. Qed.
Lemma wd_blank_r b l : blanks b -> wd (l ++ b) = wd l.
Proof. intros H. unfold wd. now rewrite sa_app, (sa_blanks b H), words_blank_r. Qed.

Lemma reads_join l T b c b' l' T' : reads l T -> reads l' T' -> blanks b -> blanks b' ->
  (exists o, is_operator (String c "") = Some o) -> is_special c = true ->
  reads (l ++ b ++ c :: b' ++ l') (T ++ String c "" :: T').
Proof.
  intros [F1 R1] [F2 R2] Hb Hb' (o & Ho) Hc.
  assert (W : wd (l ++ b ++ c :: b' ++ l') = wd l ++ String c "" :: wd l').
  { rewrite app_assoc, wd_special by exact Hc. now rewrite wd_blank_r, wd_blank_l. }
  split; rewrite W.
  - apply Forall_app. split; [exact F1|]. constructor; [|exact F2]. split; intros E; injection E as ->; discriminate.
  - rewrite map_app, concat_app. cbn [map concat]. replace (piece (String c "")) with [c].
    + cbn [app]. rewrite wd_special by exact Hc. now rewrite R1, R2.
    + unfold piece. rewrite Ho. cbn. now rewrite orb_true_r.
Qed.

Section Terms.
  Context {num : Type}.
  Variable stof : string -> option num.
  Variable lit : num -> Z -> Prop.
  Hypothesis sane : sane_numbers stof.
  Notation numeral := (numeral stof lit).
  Notation power_text := (power_text stof lit).
  Notation term_text := (term_text stof lit).
  Notation line_text := (line_text stof lit).
  Notation expr := (expr num).

  (* digits and letters are ordinary characters *)
  Lemma digit_plain c : digit c -> is_special c = false /\ is_space c = false /\ is_digit c = true /\ is_letter c = false.
  Proof.
    unfold digit. intros H. repeat split.
    - destruct (is_special c) eqn:E; [|reflexivity]. unfold is_special in E. apply existsb_exists in E.
      destruct E as (x & Hx & E). apply Ascii.eqb_eq in E. subst x. cbn in Hx.
      repeat (destruct Hx as [<-|Hx]; [cbv in H; lia|]). destruct Hx.
    - unfold is_space. apply orb_false_iff. split; [apply Nat.eqb_neq; lia|]. apply andb_false_iff. right. apply Nat.leb_gt. lia.
    - unfold is_digit. apply andb_true_iff. split; apply Nat.leb_le; lia.
    - unfold is_letter. apply orb_false_iff. split; apply andb_false_iff; left; apply Nat.leb_gt; lia.
  Qed.
  Lemma letter_plain c : letter c -> is_special c = false /\ is_space c = false /\ is_digit c = false /\ is_letter c = true.
  Proof.
    unfold letter. intros H. repeat split.
    - destruct (is_special c) eqn:E; [|reflexivity]. unfold is_special in E. apply existsb_exists in E.
      destruct E as (x & Hx & E). apply Ascii.eqb_eq in E. subst x. cbn in Hx.
      repeat (destruct Hx as [<-|Hx]; [cbv in H; lia|]). destruct Hx.
    - unfold is_space. apply orb_false_iff. split; [apply Nat.eqb_neq; lia|]. apply andb_false_iff. right. apply Nat.leb_gt. lia.
    - unfold is_digit. apply andb_false_iff. right. apply Nat.leb_gt. lia.
    - unfold is_letter. apply orb_true_iff. destruct H; [left|right]; apply andb_true_iff; split; apply Nat.leb_le; lia.
  Qed.

  Definition alnum (l : list ascii) : Prop := forall c, In c l -> digit c \/ letter c.
  Lemma wd_alnum l : l <> [] -> alnum l -> wd l = [string_of_list_ascii l].
  Proof.
    intros Hn H. unfold wd. rewrite <- (list_ascii_of_string_of_list_ascii l) at 1.
    rewrite words_sa_plain; [cbn; now rewrite list_ascii_of_string_of_list_ascii|]. split.
    - destruct l; [congruence|discriminate].
    - rewrite list_ascii_of_string_of_list_ascii. intros c Hc. destruct (H c Hc) as [K|K];
        [apply digit_plain in K|apply letter_plain in K]; tauto.
  Qed.

  (* a word that begins with a digit, or has one letter, has no meaning of its own *)
  Lemma ordinary c l : digit c \/ l = [] /\ letter c -> let t := string_of_list_ascii (c :: l) in
    is_function t = None /\ is_operator t = None /\ tame_word t /\ (l = [] -> letter c -> stof t = None).
  Proof.
    intros H t.
    unfold t. cbn [string_of_list_ascii]. repeat split.
    - unfold is_function. repeat match goal with |- context [String.eqb ?a ?b] => destruct (String.eqb_spec a b) as [E|_];
        [exfalso; injection E as -> E; destruct H as [H|[-> _]]; [cbv in H; lia|discriminate]|] end. reflexivity.
    - unfold is_operator. repeat match goal with |- context [String.eqb ?a ?b] => destruct (String.eqb_spec a b) as [E|_];
        [exfalso; injection E as -> E; destruct H as [H|[_ H]]; cbv in H; lia|] end. reflexivity.
    - intros E. injection E as -> E. destruct H as [H|[_ H]]; cbv in H; lia.
    - intros E. injection E as -> E. destruct H as [H|[_ H]]; cbv in H; lia.
    - intros -> Hc. cbn. now apply sane.
  Qed.

  Lemma expand_cons c d l : expand (c :: d :: l) =
    c :: (if (is_digit c && is_letter d) || (is_letter c && is_digit d) then ["*"%char] else [])
      ++ (if is_letter c && is_letter d then ["*"%char] else []) ++ expand (d :: l).
  Proof. reflexivity. Qed.
  Lemma expand_digits l : (forall c, In c l -> digit c) -> expand l = l.
  Proof.
    induction l as [|c l IH]; intros H; [reflexivity|]. destruct l as [|d l]; [reflexivity|].
    rewrite expand_cons.
    destruct (digit_plain c) as (_ & _ & D1 & L1); [apply H; now left|].
    destruct (digit_plain d) as (_ & _ & D2 & L2); [apply H; right; now left|].
    rewrite D1, L1, L2. cbn [andb orb app]. f_equal. apply IH. intros x Hx. apply H. now right.
  Qed.
  Lemma expand_coef l x : (forall c, In c l -> digit c) -> letter x -> l <> [] -> expand (l ++ [x]) = l ++ "*"%char :: [x].
  Proof.
    intros H Hx. induction l as [|c l IH]; intros Hn; [congruence|].
    destruct (digit_plain c) as (_ & _ & D1 & L1); [apply H; now left|].
    destruct (letter_plain x Hx) as (_ & _ & D2 & L2).
    destruct l as [|d l].
    - cbn. now rewrite D1, L1, L2.
    - cbn [app]. rewrite expand_cons.
      destruct (digit_plain d) as (_ & _ & D3 & L3); [apply H; right; now left|].
      rewrite D1, L1, L3. cbn [andb orb app]. f_equal. apply IH; [|congruence]. intros y Hy. apply H. now right.
  Qed.

  Lemma numeral_reads l z : numeral l z -> reads l [string_of_list_ascii l].
  Proof.
    intros (Hn & Hd & _). assert (A : alnum l) by (intros c Hc; left; auto).
    split; rewrite (wd_alnum l Hn A).
    - constructor; [|constructor]. destruct l as [|c l]; [congruence|]. apply ordinary. left. apply Hd. now left.
    - cbn [map concat]. rewrite app_nil_r. unfold piece. destruct l as [|c l]; [congruence|].
      destruct (ordinary c l) as (-> & -> & _); [left; apply Hd; now left|]. cbn [is_some orb].
      rewrite list_ascii_of_string_of_list_ascii, expand_digits by exact Hd. now apply wd_alnum.
  Qed.
  Lemma letter_reads c : letter c -> reads [c] [String c ""].
  Proof.
    intros Hc. assert (A : alnum [c]) by (intros d [<-|[]]; now right).
    split; rewrite (wd_alnum [c] ltac:(congruence) A).
    - constructor; [|constructor]. apply ordinary. now right.
    - cbn [map concat]. rewrite app_nil_r. unfold piece.
      destruct (ordinary c []) as (-> & -> & _); [now right|]. cbn [is_some orb].
      rewrite list_ascii_of_string_of_list_ascii. now apply (wd_alnum [c] ltac:(congruence) A).
  Qed.
  Lemma juxtaposed_reads l z c : numeral l z -> letter c -> reads (l ++ [c]) [string_of_list_ascii l; "*"; String c ""].
  Proof.
    intros (Hn & Hd & _) Hc.
    assert (A : alnum (l ++ [c])) by (intros x Hx; apply in_app_or in Hx; destruct Hx as [Hx|[<-|[]]]; auto).
    assert (Hn' : l ++ [c] <> []) by (destruct l; discriminate).
    split; rewrite (wd_alnum _ Hn' A).
    - constructor; [|constructor]. destruct l as [|d l]; [congruence|]. apply (ordinary d (l ++ [c])). left. apply Hd. now left.
    - cbn [map concat]. rewrite app_nil_r. unfold piece.
      destruct l as [|d l]; [congruence|].
      destruct (ordinary d (l ++ [c])) as (O1 & O2 & _); [left; apply Hd; now left|].
      cbn [app] in *. rewrite O1, O2. cbn [is_some orb].
      rewrite list_ascii_of_string_of_list_ascii. change (d :: l ++ [c]) with ((d :: l) ++ [c]).
      rewrite expand_coef by (auto; congruence). rewrite wd_special by reflexivity.
      rewrite (wd_alnum (d :: l)); [|congruence|intros x Hx; left; auto].
      rewrite (wd_alnum [c]); [reflexivity|congruence|]. intros x [<-|[]]. now right.
  Qed.

  (* what a text is read as *)
  Definition read_as (k : nat) (l : list ascii) (e : expr) : Prop :=
    exists T, reads l T /\ infix_of stof "i" k T e.
  Lemma blanks_nil : blanks [].
  Proof. intros c []. Qed.

  Lemma numeral_operand l z : numeral l z -> exists d, lit d z /\ infix_of stof "i" 4 [string_of_list_ascii l] (EReal d).
  Proof. intros (_ & _ & d & Hd & Hl). exists d. split; [exact Hl|]. apply ix_operand. now apply opd_number. Qed.
  Lemma variable_operand c : variable c -> infix_of stof "i" 4 [String c ""] (EVar (String c "")).
  Proof.
    intros (Hc & He & Hi). apply ix_operand. apply opd_var.
    - now apply sane.
    - intros H. cbn in H. unfold letter in Hc.
      repeat (destruct H as [H|H]; [try discriminate H; injection H as <-; cbv in Hc; lia|]). destruct H.
    - intros E. injection E as ->. congruence.
    - intros E. injection E as ->. congruence.
  Qed.

  Lemma power_read l x k : power_text l x k -> exists e, power lit e x k /\ read_as 3 l e.
  Proof.
    intros H. destruct H as [c Hc|c l k Hc Hl K0 K1].
    - exists (EVar (String c "")). split; [constructor|]. exists [String c ""]. split; [apply letter_reads, Hc|].
      apply ix_up. now apply variable_operand.
    - destruct (numeral_operand l k Hl) as (d & Hd & Ho). exists (EExp (EVar (String c "")) (EReal d)).
      split; [now constructor|]. exists ([String c ""] ++ "^" :: [string_of_list_ascii l]). split.
      + apply (reads_join [c] _ [] "^"%char [] l); auto using blanks_nil; [apply letter_reads, Hc|now apply (numeral_reads l k)|now exists OExp].
      + eapply ix_op; [constructor| |exact Ho]. apply ix_up. now apply variable_operand.
  Qed.

  Lemma product_read l z p x k e : numeral l z -> power lit e x k -> read_as 3 p e ->
    exists d, lit d z /\ read_as 2 (l ++ "*"%char :: p) (EMul (EReal d) e).
  Proof.
    intros Hl He (T & R & I). destruct (numeral_operand l z Hl) as (d & Hd & Ho). exists d. split; [exact Hd|].
    exists ([string_of_list_ascii l] ++ "*" :: T). split.
    - apply (reads_join l _ [] "*"%char [] p); auto using blanks_nil; [now apply (numeral_reads l z)|now exists OMul].
    - eapply ix_op; [constructor| |exact I]. do 2 apply ix_up. exact Ho.
  Qed.

  Lemma term_read l t : term_text l t -> exists e, term lit false e t /\ read_as 2 l e.
  Proof.
    intros H. destruct H as [l z Hl|l x k Hp|l z p x k Hl Hp|l z p x k Hl Hp].
    - destruct (numeral_operand l z Hl) as (d & Hd & Ho). exists (EReal d). split; [now constructor|].
      exists [string_of_list_ascii l]. split; [now apply (numeral_reads l z)|]. do 2 apply ix_up. exact Ho.
    - destruct (power_read l x k Hp) as (e & He & T & R & I). exists e. split; [now constructor|]. exists T. split; [exact R|]. now apply ix_up.
    - destruct (numeral_operand l z Hl) as (d & Hd & Ho). destruct Hp as [c Hc|c l' k Hc Hl' K0 K1].
      + exists (EMul (EReal d) (EVar (String c ""))). split; [eapply tm_scaled; [exact Hd| |apply ml_pre]; constructor|].
        exists ([string_of_list_ascii l] ++ "*" :: [String c ""]). split; [apply (juxtaposed_reads l z); [exact Hl|apply Hc]|].
        eapply ix_op; [constructor| |]; [do 2 apply ix_up; exact Ho|apply ix_up; now apply variable_operand].
      + destruct (numeral_operand l' k Hl') as (d' & Hd' & Ho').
        exists (EMul (EReal d) (EExp (EVar (String c "")) (EReal d'))). split; [eapply tm_scaled; [exact Hd| |apply ml_pre]; now constructor|].
        exists ([string_of_list_ascii l; "*"; String c ""] ++ "^" :: [string_of_list_ascii l']). split.
        * replace (l ++ c :: "^"%char :: l') with ((l ++ [c]) ++ [] ++ "^"%char :: [] ++ l') by (cbn; now rewrite <- app_assoc).
          apply reads_join; auto using blanks_nil; [apply (juxtaposed_reads l z); [exact Hl|apply Hc]|now apply (numeral_reads l' k)|now exists OExp].
        * change ([string_of_list_ascii l; "*"; String c ""] ++ "^" :: [string_of_list_ascii l'])
            with ([string_of_list_ascii l] ++ "*" :: ([String c ""] ++ "^" :: [string_of_list_ascii l'])).
          eapply ix_op; [constructor| |]; [do 2 apply ix_up; exact Ho|].
          eapply ix_op; [constructor| |exact Ho']. apply ix_up. now apply variable_operand.
    - destruct (power_read p x k Hp) as (e & He & R). destruct (product_read l z p x k e Hl He R) as (d & Hd & R').
      exists (EMul (EReal d) e). split; [eapply tm_scaled; [exact Hd|exact He|apply ml_pre]|exact R'].
  Qed.

  Variable ok : Z -> Prop.
  Lemma line_read prefer l ts : line_text l ts -> exists e, poly lit ok prefer false e ts /\ read_as 1 l e.
  Proof.
    intros H. induction H as [l t Ht|l ts b b' l' t H IH Hb Hb' Ht|l ts b b' l' t H IH Hb Hb' Ht].
    - destruct (term_read l t Ht) as (e & He & T & R & I). exists e. split; [now constructor|]. exists T. split; [exact R|now apply ix_up].
    - destruct IH as (a & Ha & T & R & I). destruct (term_read l' t Ht) as (e & He & T' & R' & I').
      exists (EAdd a e). split; [apply po_add; [exact Ha|now constructor|right; now left]|].
      exists (T ++ "+" :: T'). split; [apply reads_join; auto; now exists OAdd|]. eapply ix_op; [constructor|exact I|exact I'].
    - destruct IH as (a & Ha & T & R & I). destruct (term_read l' t Ht) as (e & He & T' & R' & I').
      exists (ESub a e). split; [apply po_sub; [exact Ha|now constructor|right; now left|now left]|].
      exists (T ++ "-" :: T'). split; [apply reads_join; auto; now exists OSub|]. eapply ix_op; [constructor|exact I|exact I'].
  Qed.

  (* a typed polynomial is read as a sum of its terms *)
  Theorem line_parsed prefer s ts : line_text (list_ascii_of_string s) ts ->
    exists e, poly lit ok prefer false e ts /\ from_infix stof true (preprocess s) = ret e.
  Proof.
    intros H. destruct (line_read prefer _ _ H) as (e & He & T & R & I). exists e. split; [exact He|].
    apply (from_infix_tokens stof true); [apply sane|]. now rewrite (reads_preprocess s T R).
  Qed.

  (* the first and the last character *)
  Lemma numeral_ends l z : numeral l z -> (exists c l', l = c :: l' /\ digit c) /\ (exists c l', l = l' ++ [c] /\ digit c).
  Proof.
    intros (Hn & Hd & _). split.
    - destruct l as [|c l]; [congruence|]. exists c, l. split; [reflexivity|]. apply Hd. now left.
    - destruct (exists_last Hn) as (l' & c & ->). exists c, l'. split; [reflexivity|]. apply Hd, in_or_app. right. now left.
  Qed.
  Definition end_char (c : ascii) : Prop := digit c \/ variable c.
  Lemma power_ends l x k : power_text l x k ->
    (exists c l', l = c :: l' /\ end_char c) /\ (exists c l', l = l' ++ [c] /\ end_char c).
  Proof.
    intros H. destruct H as [c Hc|c l k Hc Hl K0 K1].
    - split; [exists c, []|exists c, []]; (split; [reflexivity|now right]).
    - split; [exists c, ("^"%char :: l); split; [reflexivity|now right]|].
      destruct (proj2 (numeral_ends l k Hl)) as (d & l' & -> & Hd). exists d, (c :: "^"%char :: l'). split; [reflexivity|now left].
  Qed.
  Lemma term_ends l t : term_text l t ->
    (exists c l', l = c :: l' /\ end_char c) /\ (exists c l', l = l' ++ [c] /\ end_char c).
  Proof.
    intros H. destruct H as [l z Hl|l x k Hp|l z p x k Hl Hp|l z p x k Hl Hp].
    - destruct (numeral_ends l z Hl) as [(c & l1 & E1 & D1) (d & l2 & E2 & D2)].
      split; [exists c, l1|exists d, l2]; (split; [assumption|now left]).
    - now apply (power_ends l x k).
    - destruct (numeral_ends l z Hl) as [(c & l1 & -> & D1) _]. destruct (power_ends p x k Hp) as [_ (d & l2 & -> & D2)].
      split; [exists c, (l1 ++ l2 ++ [d])|exists d, ((c :: l1) ++ l2)].
      + split; [reflexivity|now left].
      + split; [now rewrite app_assoc|exact D2].
    - destruct (numeral_ends l z Hl) as [(c & l1 & -> & D1) _]. destruct (power_ends p x k Hp) as [_ (d & l2 & -> & D2)].
      split; [exists c, (l1 ++ "*"%char :: l2 ++ [d])|exists d, ((c :: l1) ++ "*"%char :: l2)].
      + split; [reflexivity|now left].
      + split; [now rewrite <- app_assoc|exact D2].
  Qed.
  Lemma line_ends l ts : line_text l ts ->
    (exists c l', l = c :: l' /\ end_char c) /\ (exists c l', l = l' ++ [c] /\ end_char c).
  Proof.
    intros H. induction H as [l t Ht|l ts b b' l' t H [IH _] Hb Hb' Ht|l ts b b' l' t H [IH _] Hb Hb' Ht].
    - now apply (term_ends l t).
    - destruct IH as (c & l1 & -> & D1). destruct (term_ends l' t Ht) as [_ (d & l2 & -> & D2)]. split.
      + exists c, (l1 ++ b ++ "+"%char :: b' ++ l2 ++ [d]). split; [reflexivity|exact D1].
      + exists d, ((c :: l1) ++ b ++ "+"%char :: b' ++ l2). split; [|exact D2]. rewrite <- !app_assoc. cbn. now rewrite <- !app_assoc.
    - destruct IH as (c & l1 & -> & D1). destruct (term_ends l' t Ht) as [_ (d & l2 & -> & D2)]. split.
      + exists c, (l1 ++ b ++ "-"%char :: b' ++ l2 ++ [d]). split; [reflexivity|exact D1].
      + exists d, ((c :: l1) ++ b ++ "-"%char :: b' ++ l2). split; [|exact D2]. rewrite <- !app_assoc. cbn. now rewrite <- !app_assoc.
  Qed.
End Terms.
