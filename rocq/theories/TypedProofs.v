(** The infix reader on typed products (SpecTyped.v). *)
From Coq Require Import String Ascii Bool Arith ZArith Lia List.
From Verif Require Import Base Num Expr SpecText SpecPoly SpecProd SpecLine SpecTyped FromInFix InFixProofs ProdProofs PolyProofs PolyComb LineProofs.
Import ListNotations.
Open Scope string_scope.
Open Scope list_scope.

(* a text that ends where a word may begin *)
Definition opens (l1 : list ascii) (T1 : list string) : Prop :=
  forall m Tm, reads m Tm -> reads (l1 ++ m) (T1 ++ Tm).
Lemma opens_nil : opens [] [].
Proof. intros m Tm H. exact H. Qed.
Lemma opens_join l T b c b' l1 T1 : reads l T -> blanks b -> blanks b' ->
  (exists o, is_operator (String c "") = Some o) -> is_special c = true -> opens l1 T1 ->
  opens (l ++ b ++ c :: b' ++ l1) (T ++ String c "" :: T1).
Proof.
  intros R Hb Hb' Ho Hc H m Tm Hm. replace ((l ++ b ++ c :: b' ++ l1) ++ m) with (l ++ b ++ c :: b' ++ (l1 ++ m)) by (rewrite <- !app_assoc; cbn; now rewrite <- app_assoc).
  replace ((T ++ String c "" :: T1) ++ Tm) with (T ++ String c "" :: (T1 ++ Tm)) by (rewrite <- app_assoc; reflexivity).
  apply reads_join; auto.
Qed.

Section Typed.
  Context {num : Type}.
  Variable stof : string -> option num.
  Variable lit : num -> Z -> Prop.
  Hypothesis sane : sane_numbers stof.
  Notation numeral := (numeral stof lit).
  Notation power_text := (power_text stof lit).
  Notation factor_text := (factor_text stof lit).
  Notation product_text := (product_text stof lit).
  Notation expr := (expr num).

  (* if the text ends in a digit, it ends in a numeral *)
  Definition open_end (l : list ascii) (T : list string) : Prop :=
    ends_in_digit l -> exists l1 T1 n z, opens l1 T1 /\ numeral n z /\ l = l1 ++ n /\ T = T1 ++ [string_of_list_ascii n].
  Lemma letter_end l c T : letter c -> open_end (l ++ [c]) T.
  Proof.
    intros Hc (l' & d & E & Hd). apply app_inj_tail in E. destruct E as [_ ->]. exfalso. unfold letter, digit in *. lia.
  Qed.
  Lemma numeral_end n z : numeral n z -> open_end n [string_of_list_ascii n].
  Proof. intros H _. exists [], [], n, z. split; [apply opens_nil|]. auto. Qed.
  Lemma join_end l T b c b' l' T' : reads l T -> blanks b -> blanks b' ->
    (exists o, is_operator (String c "") = Some o) -> is_special c = true -> l' <> [] -> open_end l' T' ->
    open_end (l ++ b ++ c :: b' ++ l') (T ++ String c "" :: T').
  Proof.
    intros R Hb Hb' Ho Hc Hn H (m & d & E & Hd).
    destruct (exists_last Hn) as (l2 & x & E2). subst l'.
    assert (x = d). { replace (l ++ b ++ c :: b' ++ l2 ++ [x]) with ((l ++ b ++ c :: b' ++ l2) ++ [x]) in E by (rewrite <- !app_assoc; cbn; now rewrite <- !app_assoc).
      apply app_inj_tail in E. tauto. }
    subst x. destruct H as (l1 & T1 & n & z & O & N & E1 & E2); [exists l2, d; auto|].
    exists (l ++ b ++ c :: b' ++ l1), (T ++ String c "" :: T1), n, z. split; [now apply opens_join|]. split; [exact N|].
    rewrite E1, E2. rewrite <- !app_assoc. cbn. now rewrite <- !app_assoc.
  Qed.

  Lemma power_nonempty l x k : power_text l x k -> l <> [].
  Proof. intros H. destruct H; discriminate. Qed.
  Lemma factor_nonempty l f : factor_text l f -> l <> [].
  Proof. intros H. destruct H as [l z Hl|l x k Hp]; [apply Hl|eapply power_nonempty; eauto]. Qed.

  Lemma power_open l x k : power_text l x k -> exists e T, power lit e x k /\ reads l T /\ infix_of stof "i" 3 T e /\ open_end l T.
  Proof.
    intros H. destruct H as [c Hc|c l k Hc Hl K0 K1].
    - exists (EVar (String c "")), [String c ""]. split; [constructor|]. split; [apply (letter_reads stof sane), Hc|]. split; [apply ix_up; now apply variable_operand|].
      apply (letter_end [] c), Hc.
    - destruct (numeral_operand stof lit l k Hl) as (d & Hd & Ho). exists (EExp (EVar (String c "")) (EReal d)), ([String c ""] ++ "^" :: [string_of_list_ascii l]).
      assert (R : reads [c] [String c ""]) by (apply (letter_reads stof sane), Hc).
      split; [now constructor|]. split; [|split].
      + apply (reads_join [c] _ [] "^"%char [] l); auto using blanks_nil; [now apply (numeral_reads stof lit sane l k)|now exists OExp].
      + eapply ix_op; [constructor| |exact Ho]. apply ix_up. now apply variable_operand.
      + apply (join_end [c] [String c ""] [] "^"%char []); auto using blanks_nil; [now exists OExp|apply Hl|now apply (numeral_end l k)].
  Qed.
  Lemma factor_open l f : factor_text l f -> exists e T, fac lit e f /\ reads l T /\ infix_of stof "i" 3 T e /\ open_end l T.
  Proof.
    intros H. destruct H as [l z Hl Z0 Z1|l x k Hp K].
    - destruct (numeral_operand stof lit l z Hl) as (d & Hd & Ho). exists (EReal d), [string_of_list_ascii l]. split; [now apply fc_lit|].
      split; [now apply (numeral_reads stof lit sane l z)|]. split; [now apply ix_up|now apply (numeral_end l z)].
    - destruct (power_open l x k Hp) as (e & T & He & R). exists e, T. split; [now apply fc_pow|exact R].
  Qed.

  Lemma steady_init fs f : steady (fs ++ [f]) -> steady fs.
  Proof. intros H fs1 n k fs2 E. subst fs. apply (H fs1 n k (fs2 ++ [f])). rewrite <- app_assoc. reflexivity. Qed.
  Lemma easy_last e a fs f : easy_product lit a fs -> fac lit e f -> steady (fs ++ [f]) -> easy_product lit (EMul a e) (fs ++ [f]).
  Proof.
    intros Ha He Hs. apply ep_mul; [exact Ha|now apply ep_fac|]. right. left. destruct f as [n k]. exists n, k. split; [reflexivity|].
    now apply (Hs fs n k []).
  Qed.

  Lemma product_read l fs : product_text l fs -> steady fs ->
    exists e T, easy_product lit e fs /\ reads l T /\ infix_of stof "i" 2 T e /\ open_end l T.
  Proof.
    intros H. induction H as [l f Hf|l fs b b' l' f H IH Hb Hb' Hf|l fs l' x k H IH Hd Hp K]; intros Hs.
    - destruct (factor_open l f Hf) as (e & T & He & R & I & O). exists e, T. split; [now apply ep_fac|]. split; [exact R|]. split; [now apply ix_up|exact O].
    - destruct IH as (a & T & Ha & R & I & O); [eapply steady_init; eauto|]. destruct (factor_open l' f Hf) as (e & T' & He & R' & I' & O').
      exists (EMul a e), (T ++ "*" :: T'). split; [now apply easy_last|]. split; [apply reads_join; auto; now exists OMul|].
      split; [eapply ix_op; [constructor|exact I|exact I']|]. apply join_end; auto; [now exists OMul|eapply factor_nonempty; eauto].
    - destruct IH as (a & T & Ha & R & I & O); [eapply steady_init; eauto|]. destruct (O Hd) as (l1 & T1 & n & z & O1 & Hn & -> & ->).
      destruct (power_open l' x k Hp) as (e & T' & He & R' & I' & O').
      exists (EMul a e), ((T1 ++ [string_of_list_ascii n]) ++ "*" :: T'). split; [apply easy_last; [exact Ha|now apply fc_pow|exact Hs]|].
      assert (J : reads (n ++ l') ([string_of_list_ascii n] ++ "*" :: T') /\ (ends_in_digit (n ++ l') -> exists l2 T2 m y, opens l2 T2 /\ numeral m y /\ n ++ l' = l2 ++ m /\ [string_of_list_ascii n] ++ "*" :: T' = T2 ++ [string_of_list_ascii m])).
      { destruct Hp as [c Hc|c m k Hc Hm K0 K1].
        - assert (E : T' = [String c ""]) by (destruct R' as [_ <-]; destruct (letter_reads stof sane c (proj1 Hc)) as [_ E]; exact E). subst T'.
          split; [apply (juxtaposed_reads stof lit sane n z); [exact Hn|apply Hc]|]. intros D. exfalso. destruct (letter_end n c [] (proj1 Hc) D) as (? & ? & ? & ? & _ & _ & _ & E).
          now destruct x0.
        - assert (Rc : reads [c] [String c ""]) by (apply (letter_reads stof sane), Hc). pose proof (numeral_reads stof lit sane m k Hm) as Rm.
          assert (E : T' = [String c ""] ++ "^" :: [string_of_list_ascii m]).
          { destruct R' as [_ <-]. destruct (reads_join [c] [String c ""] [] "^"%char [] m [string_of_list_ascii m] Rc Rm blanks_nil blanks_nil) as [_ E]; [now exists OExp|reflexivity|exact E]. }
          subst T'. pose proof (juxtaposed_reads stof lit sane n z c Hn (proj1 Hc)) as Rj.
          replace (n ++ c :: "^"%char :: m) with ((n ++ [c]) ++ [] ++ "^"%char :: [] ++ m) by (cbn; now rewrite <- app_assoc).
          change ([string_of_list_ascii n] ++ "*" :: [String c ""] ++ "^" :: [string_of_list_ascii m]) with ([string_of_list_ascii n; "*"; String c ""] ++ "^" :: [string_of_list_ascii m]).
          split.
          + apply reads_join; auto using blanks_nil. now exists OExp.
          + apply join_end; auto using blanks_nil; [now exists OExp|apply Hm|now apply (numeral_end m k)]. }
      destruct J as [J1 J2]. rewrite <- app_assoc in *. split; [|split].
      + rewrite <- app_assoc. now apply O1.
      + eapply ix_op; [constructor|exact I|exact I'].
      + intros (q & d & E & D). destruct J2 as (l2 & T2 & m & y & O2 & Hm & E1 & E2).
        { destruct (exists_last (l := n ++ l')) as (u & w & Eu).
          - intros K'. apply app_eq_nil in K'. destruct K' as [_ K']. now apply (power_nonempty _ _ _ Hp).
          - rewrite Eu, app_assoc in E. apply app_inj_tail in E. destruct E as [_ ->]. exists u, d. auto. }
        exists (l1 ++ l2), (T1 ++ T2), m, y. split; [|split; [exact Hm|split]].
        * intros w Tw Hw. rewrite <- !app_assoc. now apply O1, O2.
        * rewrite E1. now rewrite app_assoc.
        * rewrite <- app_assoc, E2. now rewrite app_assoc.
  Qed.
End Typed.

(** ** Functions of a polynomial and a variable *)
Lemma implicit_close ts : Forall tame_word ts -> forall last, last <> ")" -> implicit last (ts ++ [")"]) = concat (map piece ts) ++ [")"%char].
Proof.
  induction 1 as [|t ts [H1 H2] H IH]; intros last Hl.
  - cbn [app implicit map concat]. change (is_some (is_function ")") || is_some (is_operator ")")) with false. cbn iota.
    destruct (String.eqb_spec last ")") as [E|_]; [contradiction|]. cbn [andb]. change (String.eqb ")" "(") with false.
    rewrite !andb_false_r. reflexivity.
  - cbn [app implicit map concat]. rewrite (IH t H2), <- app_assoc. f_equal. unfold piece.
    destruct (String.eqb_spec last ")") as [E|_]; [contradiction|].
    destruct (String.eqb_spec t "(") as [E|_]; [contradiction|].
    rewrite !andb_false_r. destruct (is_some (is_function t) || is_some (is_operator t)); reflexivity.
Qed.
Lemma call_tokens f o b0 m T b4 : function f o -> blanks b0 -> blanks b4 -> reads m T ->
  tokens (preprocess (string_of_list_ascii (list_ascii_of_string f ++ b0 ++ "("%char :: m ++ b4 ++ [")"%char]))) = f :: "(" :: T ++ [")"].
Proof.
  intros Hf H0 H4 [F R]. set (l := list_ascii_of_string f ++ b0 ++ "("%char :: m ++ b4 ++ [")"%char]).
  assert (Wf : wd (list_ascii_of_string f) = [f]) by (destruct Hf; reflexivity).
  assert (W : wd l = f :: "(" :: wd m ++ [")"]).
  { unfold l. rewrite (app_assoc (list_ascii_of_string f)), wd_special by reflexivity. rewrite wd_blank_r, Wf by exact H0. cbn [app]. do 2 f_equal.
    rewrite app_assoc, wd_special by reflexivity. now rewrite wd_blank_r. }
  unfold preprocess. assert (K : tokens (spaced (string_of_list_ascii l)) = wd l).
  { unfold tokens, spaced, wd. now rewrite !list_ascii_of_string_of_list_ascii. }
  rewrite K, W. clear K W.
  assert (Im : implicit "" (f :: "(" :: wd m ++ [")"]) = list_ascii_of_string f ++ "("%char :: concat (map piece (wd m)) ++ [")"%char]).
  { transitivity (list_ascii_of_string f ++ "("%char :: implicit "(" (wd m ++ [")"])); [destruct Hf; reflexivity|].
    now rewrite implicit_close by (auto; discriminate). }
  rewrite Im. unfold tokens, spaced. rewrite !list_ascii_of_string_of_list_ascii.
  change (map string_of_list_ascii (words (space_around ?x))) with (wd x). rewrite wd_special, Wf by reflexivity. cbn [app]. do 2 f_equal.
  rewrite wd_special, R by reflexivity. reflexivity.
Qed.

Section Calls.
  Context {num : Type}.
  Variable stof : string -> option num.
  Variable lit : num -> Z -> Prop.
  Hypothesis sane : sane_numbers stof.
  Notation expr := (expr num).

  Lemma wd_comma l T b b' l' T' : reads l T -> reads l' T' -> blanks b -> blanks b' ->
    reads (l ++ b ++ ","%char :: b' ++ l') (T ++ "," :: T').
  Proof.
    intros [F1 R1] [F2 R2] Hb Hb'.
    assert (W : wd (l ++ b ++ ","%char :: b' ++ l') = wd l ++ "," :: wd l').
    { rewrite app_assoc, wd_special by reflexivity. now rewrite wd_blank_r, wd_blank_l. }
    split; rewrite W.
    - apply Forall_app. split; [exact F1|]. constructor; [|exact F2]. split; discriminate.
    - rewrite map_app, concat_app. cbn [map concat]. change (piece ",") with [","%char].
      cbn [app]. rewrite wd_special by reflexivity. now rewrite R1, R2.
  Qed.
  Lemma reads_blank_l b l T : blanks b -> reads l T -> reads (b ++ l) T.
  Proof. intros H [F R]. split; now rewrite wd_blank_l. Qed.

  Variable ok : Z -> Prop.
  (* a line with one term is read as a term *)
  Lemma line_read_one prefer l ts : line_text stof lit l ts ->
    exists e, poly lit ok prefer false e ts /\ (length ts = 1%nat -> term lit false e (hd (None, 0) ts)) /\ read_as stof 1 l e.
  Proof.
    intros H. assert (Ne : forall l ts, line_text stof lit l ts -> (1 <= length ts)%nat).
    { clear. induction 1; cbn; rewrite ?app_length; cbn; lia. }
    pose proof (line_read stof lit sane ok prefer l ts H) as (e & He & R).
    destruct H as [l t Ht|l ts b b' l' t H|l ts b b' l' t H].
    - destruct (term_read stof lit sane l t Ht) as (e' & He' & T & Rt & I). exists e'. split; [now constructor|]. split; [now intros _|].
      exists T. split; [exact Rt|now apply ix_up].
    - exists e. split; [exact He|]. split; [|exact R]. specialize (Ne _ _ H). rewrite app_length. cbn. lia.
    - exists e. split; [exact He|]. split; [|exact R]. specialize (Ne _ _ H). rewrite app_length. cbn. lia.
  Qed.
  (* a call is read as a function of what its line is read as *)
  Lemma call_from f o l ts x : function f o -> call_text stof lit f l ts x ->
    exists l0, line_text stof lit l0 ts /\ forall e, read_as stof 1 l0 e ->
      from_infix stof true (preprocess (string_of_list_ascii l)) = ret (EBin o e (EVar x)).
  Proof.
    intros Hf H. destruct H as [b0 b1 l ts b2 b3 c b4 H0 H1 H2 H3 H4 Hl Hc].
    exists l. split; [exact Hl|]. intros e (T & R & I).
    apply (from_infix_tokens stof true); [apply sane|].
    replace (list_ascii_of_string f ++ b0 ++ "("%char :: b1 ++ l ++ b2 ++ ","%char :: b3 ++ c :: b4 ++ [")"%char])
      with (list_ascii_of_string f ++ b0 ++ "("%char :: (b1 ++ (l ++ b2 ++ ","%char :: b3 ++ [c])) ++ b4 ++ [")"%char]).
    2:{ do 3 f_equal. rewrite <- !app_assoc. cbn. rewrite <- !app_assoc. reflexivity. }
    rewrite (call_tokens f o b0 _ (T ++ "," :: [String c ""]) b4 Hf H0 H4).
    - do 3 apply ix_up. replace ((T ++ ["," ; String c ""]) ++ [")"]) with (T ++ "," :: [String c ""] ++ [")"]) by (rewrite <- app_assoc; reflexivity).
      apply ix_call; [exact Hf|exact I|]. do 2 apply ix_up. apply ix_up. now apply (variable_operand stof sane).
    - apply reads_blank_l; [exact H1|]. apply wd_comma; auto. apply (letter_reads stof sane), Hc.
  Qed.
  Lemma call_read prefer f o l ts x : function f o -> call_text stof lit f l ts x ->
    exists e, poly lit ok prefer false e ts /\ (length ts = 1%nat -> term lit false e (hd (None, 0) ts)) /\
      from_infix stof true (preprocess (string_of_list_ascii l)) = ret (EBin o e (EVar x)).
  Proof.
    intros Hf H. destruct (call_from f o l ts x Hf H) as (l0 & Hl & K). destruct (line_read_one prefer l0 ts Hl) as (e & He & H5 & R).
    exists e. auto.
  Qed.
  (* a line is read from left to right *)
  Lemma line_comb l ts : line_text stof lit l ts -> exists e, comb lit e ts /\ read_as stof 1 l e.
  Proof.
    intros H. induction H as [l t Ht|l ts b b' l' t H IH Hb Hb' Ht|l ts b b' l' t H IH Hb Hb' Ht].
    - destruct (term_read stof lit sane l t Ht) as (e & He & T & R & I). exists e. split; [now constructor|]. exists T. split; [exact R|now apply ix_up].
    - destruct IH as (a & Ha & T & R & I). destruct (term_read stof lit sane l' t Ht) as (e & He & T' & R' & I').
      exists (EAdd a e). split; [now constructor|].
      exists (T ++ "+" :: T'). split; [apply reads_join; auto; now exists OAdd|]. eapply ix_op; [constructor|exact I|exact I'].
    - destruct IH as (a & Ha & T & R & I). destruct (term_read stof lit sane l' t Ht) as (e & He & T' & R' & I').
      exists (ESub a e). split; [now constructor|].
      exists (T ++ "-" :: T'). split; [apply reads_join; auto; now exists OSub|]. eapply ix_op; [constructor|exact I|exact I'].
  Qed.
End Calls.
