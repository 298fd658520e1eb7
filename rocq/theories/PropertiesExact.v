(** More about C06, C07, C10, C41, C66, C68 and C95: what happens in the cases the partial theorems
    leave out. *)
From Coq Require Import QArith Reals Lra String Ascii Bool Arith ZArith Lia List.
From Flocq Require Import Core BinarySingleNaN.
From Verif Require Import Base Num Expr Spec SpecText SpecEquals Simplify Calculus TreeProofs EqualsProofs
  FromInFix InFixProofs LineProofs DoubleNum QNum PropertiesTree PropertiesFrontends PropertiesSimplify PropertiesMatrix PropertiesScale.
Import ListNotations.
Open Scope nat_scope.
Open Scope string_scope.
Open Scope list_scope.

(** ** C06: exactly which expressions Equal themselves *)

(** If [a] Equals anything, it has neither Undefined nor NaN in it.  [==] on
    numbers only needs to answer true for no NaN. *)
Theorem c06_receiver : forall (num : Type) (N : NumOps num), (forall x y, n_eqb x y = true -> n_eqb x x = true) ->
  forall a b : expr num, equals a b = Some true -> no_undef a /\ no_nan a.
Proof.
  intros num N HN. assert (G : forall n (a b : expr num), esize a <= n -> equals a b = Some true -> no_undef a /\ no_nan a).
  2: { intros a b. now apply (G (esize a)). }
  induction n as [|n IH]; intros a b Hs H; [pose proof (esize_pos a); lia|].
  destruct a as [c| |x| | | |r c d|o l q|o l].
  - unfold equals in H. destruct b; cbn in H; try discriminate. injection H as H. split; (split; [|exact I]); [discriminate|]. now apply HN in H.
  - split; (split; [|exact I]); [discriminate|exact I].
  - split; (split; [|exact I]); [discriminate|exact I].
  - unfold equals in H. destruct b; discriminate.
  - split; (split; [|exact I]); [discriminate|exact I].
  - split; (split; [|exact I]); [discriminate|exact I].
  - unfold equals in H. destruct b as [| | | | | |r' c' d'| |]; cbn in H; try discriminate. injection H as H.
    split; (split; [|exact I]); [discriminate|]. apply andb_true_iff in H. destruct H as [_ H].
    revert d' H. induction d as [|x d IHd]; intros [|y d'] H; cbn in H; try discriminate; constructor; apply andb_true_iff in H; destruct H; eauto.
  - destruct (le_bin_inv o l q b H) as (l' & q' & -> & [[H1 H2]|[Ho HF]]); cbn [esize] in Hs.
    + apply IH in H1; [|lia]. apply IH in H2; [|lia]. split; (split; [|split]); try tauto; discriminate.
    + assert (K : forall f, In f (flatten o l q) -> no_undef f /\ no_nan f).
      { intros f Hf. destruct (HF f Hf) as (y & _ & Hy). apply (IH f y); [|exact Hy]. apply flatten_esize in Hf. cbn [esize] in Hf. lia. }
      assert (F : forall P e, (forall f, In f (flat o e) -> forall_sub P f) -> (forall u v : expr num, P (EBin o u v)) -> forall_sub P e).
      { intros P e. induction e as [| | | | | | |o' u IHu v IHv|]; intros K' HP; try (apply K'; now left).
        cbn [flat] in K'. destruct (binop_eqb o o') eqn:E; [|apply K'; now left]. apply binop_eqb_eq in E. subst o'.
        split; [apply HP|]. split; [apply IHu|apply IHv]; auto; intros f Hf; apply K', in_app_iff; auto. }
      unfold flatten in K. split; (split; [first [discriminate|exact I]|split]); apply F; try (intros; first [discriminate|exact I]);
        intros f Hf; apply (K f), in_app_iff; auto.
  - rewrite equals_un in H. destruct b as [| | | | | | | |o' y]; try discriminate. destruct (unop_eqb o o'); [|discriminate].
    cbn [esize] in Hs. apply IH in H; [|lia]. split; split; try tauto; discriminate.
Qed.
Print Assumptions c06_receiver.

(** An expression Equals itself if and only if there is no Undefined and no
    NaN in it. *)
Theorem c06_exactly : forall (num : Type) (N : NumOps num), (forall x y, n_eqb x y = true -> n_eqb x x = true) ->
  forall e : expr num, equals e e = Some true <-> no_undef e /\ no_nan e.
Proof. intros num N HN e. split; [now apply c06_receiver|]. intros [H1 H2]. now apply c06_equals_reflexive_partial. Qed.
Print Assumptions c06_exactly.

(** The hypothesis holds of IEEE doubles. *)
Theorem c06_doubles : forall pw lg pwx lgx, let N := double_ops pw lg pwx lgx in
  forall e : expr double, equals e e = Some true <-> no_undef e /\ no_nan e.
Proof.
  intros pw lg pwx lgx N. apply c06_exactly. intros x y H. change (Beqb x y = true) in H. change (Beqb x x = true).
  rewrite Beqb_refl. destruct x; try reflexivity. destruct y; discriminate H.
Qed.
Print Assumptions c06_doubles.

(** x + y has neither, x + Undefined has. *)
Example c06_exact_case : equals (EAdd (EVar "x") (EVar "y")) (EAdd (EVar "x") (EVar "y") : expr Q) = Some true /\
  equals (EAdd (EVar "x") EUndef) (EAdd (EVar "x") EUndef : expr Q) = Some false /\
  (forall x y : Q, n_eqb x y = true -> n_eqb x x = true).
Proof. split; [reflexivity|split; [reflexivity|]]. intros x y _. cbn. now apply Qeq_bool_iff. Qed.

(** ** C10: exactly when Equals throws *)

(** Walking down both trees as long as the nodes have the same type, Pi is met
    in the first one where the second one has something else. *)
Inductive meets_pi {num : Type} : expr num -> expr num -> Prop :=
| mp_here b : b <> EPi -> meets_pi EPi b
| mp_left o a b a' b' : meets_pi a a' -> meets_pi (EBin o a b) (EBin o a' b')
| mp_right o a b a' b' : meets_pi b b' -> meets_pi (EBin o a b) (EBin o a' b')
| mp_under o a a' : meets_pi a a' -> meets_pi (EUn o a) (EUn o a').

(** Whatever the expressions, Equals throws if that happens. *)
Theorem c10_throws : forall (num : Type) (N : NumOps num) (a b : expr num), meets_pi a b -> equals a b = None.
Proof.
  intros num N a b H. induction H as [b H|o a b a' b' _ IH|o a b a' b' _ IH|o a a' _ IH].
  - unfold equals. destruct b; cbn; congruence.
  - rewrite equals_bin, binop_eqb_refl, IH. reflexivity.
  - rewrite equals_bin, binop_eqb_refl, IH. now destruct (equals a a').
  - now rewrite equals_un, unop_eqb_refl.
Qed.
Print Assumptions c10_throws.

(** Without sums, products and integrals in the first expression, that is the only way. *)
Theorem c10_exactly : forall (num : Type) (N : NumOps num) (a b : expr num), no_assoc a ->
  (equals a b = None <-> meets_pi a b).
Proof.
  intros num N a b Ha. split; [|apply c10_throws]. revert b Ha. induction a as [| | | | | | |o l IHl q IHq|o l IHl]; intros b Ha H.
  1-5, 7: unfold equals in H; destruct b; discriminate H.
  - constructor. intros ->. discriminate H.
  - destruct Ha as [Ho [Hl Hq]]. rewrite equals_bin in H. destruct b as [| | | | | | |o' l' q'|]; try discriminate.
    destruct (binop_eqb o o') eqn:E; [|discriminate]. apply binop_eqb_eq in E. subst o'.
    destruct (equals l l') as [x|] eqn:E1; [|apply mp_left; auto]. destruct (equals q q') as [y|] eqn:E2; [|apply mp_right; auto].
    exfalso. destruct (x && y); [discriminate|]. destruct (assoc o) eqn:A; [|discriminate]. rewrite assoc_commut in A. apply commut_commutative in A.
    now apply (Ho o l q).
  - destruct Ha as [_ Hl]. rewrite equals_un in H. destruct b as [| | | | | | | |o' y]; try discriminate.
    destruct (unop_eqb o o') eqn:E; [|discriminate]. apply unop_eqb_eq in E. subst o'. constructor. auto.
Qed.
Print Assumptions c10_exactly.

Example c10_exact_case : meets_pi (ESub (EVar "x") EPi) (ESub (EVar "x") (EVar "y") : expr Q) /\ no_assoc (ESub (EVar "x") EPi : expr Q).
Proof.
  split; [apply mp_right, mp_here; discriminate|]. repeat split; intros o a b H; try discriminate. injection H as <- _ _. cbv; intuition discriminate.
Qed.

(** ** C95: numbers that count as 0 *)
Theorem c95_zero : forall (num : Type) (N : NumOps num) (a b B : expr num) x r c f,
  simplifies_to a (EReal x) -> simplifies_to b B -> is_matrix B r c f -> n_leb (n_abs x) n_eps = true ->
  simplifies_to (EMul a b) (EReal n0) /\ simplifies_to (EMul b a) (EReal n0).
Proof.
  intros num N a b B x r c f Ha Hb (d & -> & _) T. split.
  - apply (product_runs _ _ _ _ _ Ha Hb). intros n prefer Hn. unfold mul_rules. cbn [first_rule].
    unfold mul_478. cbn [rcast binop_eqb commut]. unfold tiny. rewrite T. reflexivity.
  - apply (product_runs _ _ _ _ _ Hb Ha). intros n prefer Hn. unfold mul_rules. cbn [first_rule].
    unfold mul_478. cbn [rcast binop_eqb commut]. unfold tiny. rewrite T. reflexivity.
Qed.
Print Assumptions c95_zero.

Example c95_zero_case : simplifies_to (EReal 0%Q) (EReal 0%Q) /\ is_matrix (EMat 1 1 [1%Q]) 1 1 (fun _ _ => 1%Q) /\
  n_leb (n_abs 0%Q) n_eps = true.
Proof.
  split; [exists 1; intros [|n] prefer Hn; [lia|reflexivity]|]. split; [|reflexivity].
  exists [1%Q]. repeat split. intros [|i] [|j] Hi Hj; try lia. reflexivity.
Qed.

(** ** C66: words with only white space between them *)

(** [glued ts gs]: neighbours that are both words without punctuation are
    written together. *)
Inductive glued : list string -> list string -> Prop :=
| gl_end : glued [] []
| gl_alone t ts gs : punctuation t \/ (match ts with [] => True | u :: _ => punctuation u end) -> glued ts gs -> glued (t :: ts) (t :: gs)
| gl_join t u ts g gs : ~ punctuation t -> ~ punctuation u -> glued (u :: ts) (g :: gs) -> glued (t :: u :: ts) ((t ++ g)%string :: gs).

Definition stars (ws : list (list ascii)) : list ascii := flat_map (fun v => "*"%char :: v) ws.
Definition plain (w : list ascii) : Prop := forall c, In c w -> ~ punct c /\ ~ blank c.

Lemma word_not_punctuation w : word w -> ~ punctuation (str w).
Proof.
  intros [Hn H] (c & E & Hc). destruct w as [|d w]; [congruence|]. cbn in E. injection E as -> _. destruct (H c); [now left|contradiction].
Qed.
Lemma str_not s w : word w -> punctuation s -> String.eqb (str w) s = false.
Proof. intros Hw Hs. apply String.eqb_neq. intros E. rewrite <- E in Hs. now apply (word_not_punctuation w). Qed.

(* a word, whatever stands before it *)
Lemma implicit_word last w ts : word w -> exists pre w1 ws, (pre = [] \/ pre = ["*"%char]) /\ (last <> ")" -> pre = []) /\
  implicit last (str w :: ts) = pre ++ (w1 ++ stars ws) ++ implicit (str w) ts /\
  w = w1 ++ concat ws /\ w1 <> [] /\ List.Forall (fun v => v <> []) ws.
Proof.
  intros Hw. assert (P : str w <> "(").
  { apply String.eqb_neq, str_not; [exact Hw|]. exists "("%char. split; [reflexivity|cbn; tauto]. }
  apply String.eqb_neq in P. cbn [implicit]. rewrite list_ascii_of_string_of_list_ascii, P, andb_false_r.
  assert (W : w <> []) by apply Hw.
  destruct (is_some (is_function (str w)) || is_some (is_operator (str w))) eqn:E.
  - exists (if is_some (is_function (str w)) && String.eqb last ")" then ["*"%char] else []), w, []. cbn [stars flat_map concat].
    rewrite !app_nil_r, <- app_assoc. repeat split; auto.
    + destruct (_ && _); auto.
    + intros L. apply String.eqb_neq in L. now rewrite L, andb_false_r.
  - destruct (String.eqb last ")" && negb (String.eqb (str w) ",")) eqn:E2.
    + exists ["*"%char], w, []. cbn [stars flat_map concat]. rewrite !app_nil_r. repeat split; auto.
      intros L. apply String.eqb_neq in L. rewrite L in E2. discriminate.
    + destruct w as [|c l]; [congruence|]. destruct (expand_runs l c) as (w1 & ws & E3 & E4 & F). exists [], (c :: w1), ws.
      cbn [app] in *. rewrite E3. repeat split; auto; discriminate.
Qed.

Lemma stars_join w0 ws0 w ws : exists w1 ws1, (w0 ++ stars ws0) ++ w ++ stars ws = w1 ++ stars ws1 /\
  (w0 ++ concat ws0) ++ w ++ concat ws = w1 ++ concat ws1 /\
  (w0 <> [] -> w1 <> []) /\ (List.Forall (fun v => v <> []) ws0 -> List.Forall (fun v => v <> []) ws -> List.Forall (fun v => v <> []) ws1).
Proof.
  destruct ws0 as [|v ws0 _] using rev_ind.
  - exists (w0 ++ w), ws. cbn [stars flat_map concat]. rewrite !app_nil_r, !app_assoc. repeat split; auto.
    intros H. destruct w0; [congruence|discriminate].
  - exists w0, (ws0 ++ [v ++ w] ++ ws). unfold stars. rewrite !flat_map_app, !concat_app. cbn [flat_map concat app]. rewrite !app_nil_r, <- !app_assoc.
    cbn [app]. rewrite <- ?app_assoc. repeat split; auto. intros F1 F2. apply List.Forall_app in F1. destruct F1 as [F1 F3].
    apply List.Forall_app. split; [exact F1|]. constructor; [|exact F2]. inversion F3; subst. destruct v; [congruence|discriminate].
Qed.

(* what the second pass makes of a run of words *)
Definition run_of (g : string) (gs : list string) (l : list ascii) : Prop :=
  exists w ws tail, l = (w ++ stars ws) ++ tail /\ g = str (w ++ concat ws) /\ w <> [] /\ List.Forall (fun v => v <> []) ws /\
    plain (w ++ concat ws) /\ (match tail with [] => True | c :: _ => is_special c = true end) /\ starred gs (wd tail).
Lemma run_starred g gs l : run_of g gs l -> starred (g :: gs) (wd l).
Proof.
  intros (w & ws & tail & -> & -> & Hn & F & P & Ht & S). pose proof (wd_runs ws w Hn F P) as R. destruct tail as [|c tail].
  - rewrite app_nil_r. unfold stars. cbn in S. rewrite <- (app_nil_r (wd _)). now apply sd_word.
  - rewrite wd_start by exact Ht. now apply sd_word.
Qed.

Lemma implicit_glued ts : List.Forall (fun t => punctuation t \/ exists w, t = str w /\ word w) ts ->
  exists gs, glued ts gs /\ (forall last, starred gs (wd (implicit last ts))) /\
    match ts with
    | u :: _ => ~ punctuation u -> exists g gs', gs = g :: gs' /\ forall last, last <> ")" -> run_of g gs' (implicit last ts)
    | [] => True
    end.
Proof.
  induction 1 as [|t ts Ht F IH]; [exists []; repeat split; constructor|].
  destruct IH as (gs & G & S & R). destruct Ht as [Hp|(w & -> & Hw)].
  - exists (t :: gs). split; [apply gl_alone; auto|]. split; [|intros K; contradiction].
    intros last. destruct Hp as (c & -> & Hc). destruct (implicit_step last (String c "") ts) as (pre & Hpre & E).
    assert (E' : implicit last (String c "" :: ts) = pre ++ c :: implicit (String c "") ts) by (destruct E as [E|E]; exact E).
    rewrite E'. apply star_first; [exact Hpre|]. rewrite (wd_punct c _ (punct_special c Hc)).
    apply (sd_word _ _ [String c ""]); [constructor|auto].
  - pose proof (word_not_punctuation w Hw) as Np.
    assert (A : exists g gs', glued (str w :: ts) (g :: gs') /\ forall last, exists pre, (pre = [] \/ pre = ["*"%char]) /\ (last <> ")" -> pre = []) /\
      exists l, implicit last (str w :: ts) = pre ++ l /\ run_of g gs' l).
    { assert (D : match ts with [] => True | u :: _ => punctuation u end \/ exists u us, ts = u :: us /\ ~ punctuation u).
      { destruct ts as [|u us]; [now left|]. inversion F as [|? ? [Hu|(v & -> & Hv)] _]; subst; [now left|right].
        exists (str v), us. split; [reflexivity|now apply word_not_punctuation]. }
      destruct D as [D|(u & us & -> & Hu)].
      - exists (str w), gs. split; [apply gl_alone; auto|]. intros last.
        destruct (implicit_word last w ts Hw) as (pre & w1 & ws & P1 & P2 & E & E2 & N1 & N2). exists pre. repeat split; auto.
        eexists. split; [exact E|]. exists w1, ws, (implicit (str w) ts). rewrite <- E2. repeat split; auto; try apply Hw; auto.
        destruct ts as [|u us]; [exact I|]. destruct (implicit_starts (str w) u us D) as (c & l & Ei & Hc). now rewrite Ei.
      - destruct (R Hu) as (g & gs' & -> & Rg). exists (str w ++ g)%string, gs'. split; [now apply gl_join|]. intros last.
        destruct (implicit_word last w (u :: us) Hw) as (pre & w1 & ws & P1 & P2 & E & E2 & N1 & N2). exists pre. repeat split; auto.
        eexists. split; [exact E|].
        destruct (Rg (str w)) as (v & vs & tail & -> & -> & M1 & M2 & M3 & M4 & M5).
        { intros K. apply Np. rewrite K. exists ")"%char. split; [reflexivity|cbn; tauto]. }
        destruct (stars_join w1 ws v vs) as (w2 & ws2 & J1 & J2 & J3 & J4). exists w2, ws2, tail.
        rewrite app_assoc, J1, <- J2, <- E2. split; [reflexivity|]. split; [now rewrite (str_app w)|]. split; [auto|]. split; [auto|]. split; [|split; [exact M4|exact M5]].
        intros c Hc. apply in_app_iff in Hc. destruct Hc as [Hc|Hc]; [now apply Hw|now apply M3]. }
    destruct A as (g & gs' & G' & A). exists (g :: gs'). split; [exact G'|]. split.
    + intros last. destruct (A last) as (pre & P1 & _ & l & -> & Rl). apply star_first; [exact P1|]. now apply run_starred.
    + intros _. exists g, gs'. split; [reflexivity|]. intros last L. destruct (A last) as (pre & _ & P2 & l & E & Rl).
      rewrite E, (P2 L). exact Rl.
Qed.

(** For every text: words with only white space between them are glued
    together, and apart from that and inserted stars PreProcessInFix keeps the
    words. *)
Theorem c66_glued : forall s ts us, lexed (list_ascii_of_string s) ts -> words_of (preprocess s) us ->
  exists gs, glued ts gs /\ starred gs us.
Proof.
  intros s ts us Hl Hu. apply tokens_words in Hu. rewrite <- Hu.
  assert (E : tokens (spaced s) = ts).
  { rewrite <- (lexed_wd _ _ Hl). unfold tokens, spaced, wd. now rewrite list_ascii_of_string_of_list_ascii. }
  assert (P : tokens (preprocess s) = wd (implicit "" ts)).
  { unfold preprocess, tokens at 1, spaced at 1, wd. rewrite !list_ascii_of_string_of_list_ascii. now rewrite E. }
  rewrite P. destruct (implicit_glued ts (lexed_words _ _ Hl)) as (gs & G & S & _). exists gs. split; [exact G|apply S].
Qed.
Print Assumptions c66_glued.

(** "1 2" is read as "12". *)
Example c66_glued_case : lexed (list_ascii_of_string "1 2") ["1"; "2"] /\ glued ["1"; "2"] ["12"] /\ starred ["12"] ["12"] /\
  words_of (preprocess "1 2") ["12"].
Proof.
  assert (P : forall c, c = "1"%char \/ c = "2"%char -> ~ punct c /\ ~ blank c).
  { intros c [-> | ->]; (split; [|cbn; lia]); intros H; cbn in H; repeat (destruct H as [H|H]; [discriminate|]); destruct H. }
  assert (Q : forall c, c = "1"%char \/ c = "2"%char -> ~ punctuation (String c "")).
  { intros c Hc (d & E & Hd). injection E as <-. destruct (P c Hc); contradiction. }
  split; [|split; [|split]].
  - apply (lx_word ["1"%char] [" "; "2"]%char ["2"]); [discriminate|intros c [<-|[]]; apply P; now left|right; cbn; tauto|].
    apply lx_blank; [cbn; tauto|]. apply (lx_word ["2"%char] [] []); [discriminate|intros c [<-|[]]; apply P; now right|exact I|constructor].
  - apply (gl_join "1" "2" [] "2" []); [apply Q; now left|apply Q; now right|]. apply gl_alone; [now right|constructor].
  - apply (sd_word "12" [] ["12"] []); constructor.
  - change ["12"] with (tokens (preprocess "1 2")). apply words_of_tokens.
Qed.

(** ** C41: a word in front of a text is ignored *)
Section Frame.
  Context {num : Type}.
  Notation E := (expr num).
  Variable stof : string -> option num.
  Variable use_i : bool.
  Variable extra : list E.
  Definition under (s : list opitem * list E) : list opitem * list E := (fst s, snd s ++ extra).

  Lemma ok_bind {A B} (m : M A) (k : A -> M B) b : snd (bind m k) = Ok b -> exists a, snd m = Ok a /\ snd (k a) = Ok b.
  Proof.
    destruct m as [t [a|s| | | |]]; cbn; try discriminate. intros H. exists a. split; [reflexivity|]. destruct (k a). exact H.
  Qed.
  Lemma bind_ok {A B} (m : M A) (k : A -> M B) a b : snd m = Ok a -> snd (k a) = Ok b -> snd (bind m k) = Ok b.
  Proof. destruct m as [t o]. cbn. intros -> H. destruct (k a) as [t' o']. exact H. Qed.

  Lemma process_op_under ops (st : list E) r : snd (process_op ops st) = Ok r -> snd (process_op ops (st ++ extra)) = Ok (under r).
  Proof.
    unfold process_op. destruct st as [|y [|x st]]; try discriminate. cbn [app]. destruct ops as [|[o|o|] ops]; try discriminate.
    intros [= <-]. reflexivity.
  Qed.
  Lemma drain_under k cond : forall ops (st : list E) r, snd (drain k cond ops st) = Ok r -> snd (drain k cond ops (st ++ extra)) = Ok (under r).
  Proof.
    induction k as [|k IH]; intros ops st r H; destruct ops as [|top ops]; cbn [drain] in *.
    - injection H as <-. reflexivity.
    - destruct (cond top); [discriminate|]. injection H as <-. reflexivity.
    - injection H as <-. reflexivity.
    - destruct (cond top); [|injection H as <-; reflexivity].
      apply ok_bind in H. destruct H as ([ops' st'] & H1 & H2). eapply bind_ok; [apply process_op_under; exact H1|]. now apply IH.
  Qed.
  Lemma parse_token_under s t r : snd (parse_token stof use_i s t) = Ok r -> snd (parse_token stof use_i (under s) t) = Ok (under r).
  Proof.
    destruct s as [ops st]. unfold parse_token, under at 1. cbn [fst snd]. destruct (stof t); [intros [= <-]; reflexivity|].
    destruct (is_function t); [intros [= <-]; reflexivity|]. destruct (is_operator t).
    { intros H. apply ok_bind in H. destruct H as ([ops' st'] & H1 & H2). eapply bind_ok; [apply drain_under; exact H1|]. injection H2 as <-. reflexivity. }
    destruct (String.eqb t "("); [intros [= <-]; reflexivity|]. destruct (String.eqb t ","); [apply drain_under|].
    destruct (String.eqb t ")"); [|intros [= <-]; reflexivity].
    intros H. apply ok_bind in H. destruct H as ([ops' st'] & H1 & H2). eapply bind_ok; [apply drain_under; exact H1|]. cbn [under fst snd] in *.
    destruct ops' as [|[o|f|] ops']; try discriminate. destruct ops' as [|[o|f|] ops']; try (injection H2 as <-; reflexivity).
    apply ok_bind in H2. destruct H2 as (st2 & H2 & H3). injection H3 as <-. eapply bind_ok; [|reflexivity].
    unfold process_function in *. destruct st' as [|y [|x st']]; try discriminate. injection H2 as <-. reflexivity.
  Qed.
  Lemma parse_loop_under ts : forall s r, snd (parse_loop stof use_i s ts) = Ok r -> snd (parse_loop stof use_i (under s) ts) = Ok (under r).
  Proof.
    induction ts as [|t ts IH]; intros s r H; cbn [parse_loop] in *; [injection H as <-; reflexivity|].
    apply ok_bind in H. destruct H as (s' & H1 & H2). eapply bind_ok; [apply parse_token_under; exact H1|]. now apply IH.
  Qed.
End Frame.

(** Words that are operands: numbers, and names that are neither functions nor
    operators nor punctuation. *)
Definition operand_word {num} (stof : string -> option num) (w : string) : Prop :=
  stof w <> None \/ is_function w = None /\ is_operator w = None /\ w <> "(" /\ w <> "," /\ w <> ")".

(** If a text is accepted, the text with any number of operands written in
    front of it is accepted as the same expression: the operands are ignored. *)
Theorem c41_ignored : forall (num : Type) (stof : string -> option num) use_i s s' ws ts e,
  words_of s ts -> words_of s' (ws ++ ts) -> List.Forall (operand_word stof) ws ->
  snd (from_infix stof use_i s) = Ok e -> snd (from_infix stof use_i s') = Ok e.
Proof.
  intros num stof use_i s s' ws ts e Hs Hs' Hw H. apply tokens_words in Hs, Hs'. unfold from_infix in *. rewrite Hs in H. rewrite Hs'. clear Hs Hs'.
  apply ok_bind in H. destruct H as ([ops st] & H1 & H). apply ok_bind in H. destruct H as ([ops' st'] & H2 & H3). cbn [fst snd] in *.
  assert (L : forall ws, List.Forall (operand_word stof) ws -> forall st0 : list (expr num), exists st1, snd (parse_loop stof use_i ([], st0) (ws ++ ts)) = snd (parse_loop stof use_i ([], st1) ts)).
  { clear. induction 1 as [|w ws Hw _ IH]; intros st0; [now exists st0|]. cbn [app parse_loop].
    assert (T : exists x, snd (parse_token stof use_i ([], st0) w) = Ok ([], x :: st0)).
    { unfold parse_token. destruct Hw as [Hw|(F & O & A & B & C)].
      - destruct (stof w) as [c|]; [|congruence]. now exists (EReal c).
      - destruct (stof w) as [c|]; [now exists (EReal c)|]. apply String.eqb_neq in A, B, C. rewrite F, O, A, B, C. now eexists. }
    destruct T as (x & T). destruct (IH (x :: st0)) as (st1 & E1). exists st1. rewrite <- E1.
    destruct (parse_token stof use_i ([], st0) w) as [tr o]. cbn in T. subst o. cbn. now destruct (parse_loop stof use_i _ _). }
  destruct (L ws Hw []) as (st1 & E1).
  pose proof (parse_loop_under stof use_i st1 ts _ _ H1) as H1'. change (snd (parse_loop stof use_i ([], st1) ts) = Ok (ops, st ++ st1)) in H1'. rewrite <- E1 in H1'.
  eapply bind_ok; [exact H1'|]. cbn [under fst snd]. eapply bind_ok; [apply (drain_under st1); exact H2|]. cbn [under fst snd].
  destruct st' as [|e' st']; [discriminate|exact H3].
Qed.
Print Assumptions c41_ignored.

(** "x y" is read as y. *)
Example c41_ignored_case : words_of "y" ["y"] /\ words_of "x y" (["x"] ++ ["y"]) /\ List.Forall (operand_word q_read) ["x"] /\
  snd (from_infix q_read true "y") = Ok (EVar "y").
Proof.
  split; [apply (words_of_tokens "y")|]. split; [apply (words_of_tokens "x y")|]. split; [|reflexivity].
  constructor; [|constructor]. right. repeat split; discriminate.
Qed.

(** ** C68: a chain of Equals is never contradicted *)
Section Chain.
  Context {num : Type} {N : NumOps num} (Tr : transitive_literals N).
  Notation E := (expr num).
  Lemma find_eq_not_false (f : E -> option bool) l y : In y l -> f y <> Some false -> find_eq f l <> Some false.
  Proof.
    induction l as [|z l IH]; cbn; intros Hy Hf; [destruct Hy|]. destruct Hy as [->|Hy].
    - destruct (f y) as [[]|]; congruence.
    - destruct (f z) as [[]|]; try discriminate. now apply IH.
  Qed.
  Lemma all_found_not_false (l m : list E) : (forall x, In x l -> exists y, In y m /\ equals x y <> Some false) -> all_found l m <> Some false.
  Proof.
    induction l as [|z l IH]; intros H; cbn [all_found]; [discriminate|]. destruct (H z (or_introl eq_refl)) as (y & Hy & E).
    pose proof (find_eq_not_false (equals z) m y Hy E) as F. destruct (find_eq (equals z) m) as [[]|]; try congruence.
    apply IH. intros x Hx. apply H. now right.
  Qed.
  Lemma chain : forall n (a b c : E), esize a <= n -> le a b -> le b c -> equals a c <> Some false.
  Proof.
    induction n as [|n IH]; intros a b c Hs H1 H2; [pose proof (esize_pos a); lia|].
    assert (Leaf : no_pi a -> equals a c <> Some false).
    { intros Hp. rewrite (le_trans Tr (esize a) a b c (le_n _) Hp H1 H2). discriminate. }
    destruct a as [x| |x| | | |r k d|o l r|o l]; try (apply Leaf; split; [discriminate|exact I]).
    - unfold equals. destruct c; cbn; discriminate.
    - clear Leaf. cbn [esize] in Hs. destruct (commut o) eqn:C.
      + apply commut_commutative in C. destruct (le_assoc _ _ _ _ C H1) as (l' & r' & -> & F1).
        destruct (le_assoc _ _ _ _ C H2) as (l'' & r'' & -> & F2). rewrite equals_bin, binop_eqb_refl.
        destruct (equals l l'') as [x|]; [|discriminate]. destruct (equals r r'') as [y|]; [|discriminate]. destruct (x && y); [discriminate|].
        rewrite assoc_commut, (proj2 (commut_commutative o) C). apply all_found_not_false.
        intros z Hz. destruct (F1 z Hz) as (y1 & Hy1 & E1). destruct (F2 y1 Hy1) as (z1 & Hz1 & E2). exists z1. split; [exact Hz1|].
        apply (IH z y1 z1); auto. apply flatten_esize in Hz. cbn [esize] in Hz. lia.
      + assert (NC : ~ commutative o) by (intros K; apply commut_commutative in K; congruence).
        apply le_bin_inv in H1. destruct H1 as (l' & r' & -> & [[H1 H1']|[K _]]); [|contradiction].
        apply le_bin_inv in H2. destruct H2 as (l'' & r'' & -> & [[H2 H2']|[K _]]); [|contradiction].
        rewrite equals_bin, binop_eqb_refl. assert (E1 := IH l l' l'' ltac:(lia) H1 H2). assert (E2 := IH r r' r'' ltac:(lia) H1' H2').
        destruct (equals l l'') as [[]|]; try congruence. destruct (equals r r'') as [[]|]; try congruence. discriminate.
    - clear Leaf. cbn [esize] in Hs. apply le_un_inv in H1. destruct H1 as (y & -> & H1). apply le_un_inv in H2. destruct H2 as (z & -> & H2).
      rewrite equals_un, unop_eqb_refl. apply (IH l y z); auto. lia.
  Qed.
End Chain.

(** For all expressions: if [a] Equals [b] and [b] Equals [c], then comparing
    [a] with [c] answers true or throws. *)
Theorem c68_never_false : forall (num : Type) (N : NumOps num) (a b c : expr num), transitive_literals N ->
  equals a b = Some true -> equals b c = Some true -> equals a c = Some true \/ equals a c = None.
Proof.
  intros num N a b c Tr H1 H2. pose proof (chain Tr (esize a) a b c (le_n _) H1 H2) as K.
  destruct (equals a c) as [[]|]; auto. congruence.
Qed.
Print Assumptions c68_never_false.

Example c68_never_false_case : transitive_literals Q_ops /\
  let a := EAdd EPi (EVar "x") in let b := EAdd EPi (EVar "x") in equals a b = Some true /\ equals b (EAdd EPi (EVar "x") : expr Q) = Some true.
Proof. split; [exact (proj2 (exact_literals Q_ops Q2R Q_exact))|]. split; reflexivity. Qed.

(** ** C07: with Pi, the answer true is symmetric *)
Theorem c07_true : forall (num : Type) (N : NumOps num) (a b : expr num), (forall x y : num, n_eqb x y = n_eqb y x) -> no_assoc a ->
  equals a b = Some true -> equals b a = Some true.
Proof.
  intros num N a b Sy. revert b. induction a as [x| |x| | | |r k d|o l IHl q IHq|o l IHl]; intros b Ha H.
  - unfold equals in *. destruct b; cbn in *; try discriminate. now rewrite Sy.
  - unfold equals in *. destruct b; cbn in *; try discriminate. reflexivity.
  - unfold equals in *. destruct b; cbn in *; try discriminate. now rewrite String.eqb_sym.
  - discriminate H.
  - unfold equals in *. destruct b; cbn in *; try discriminate. reflexivity.
  - unfold equals in *. destruct b; cbn in *; try discriminate. reflexivity.
  - unfold equals in *. destruct b as [| | | | | |r' k' d'| |]; cbn in *; try discriminate. rewrite (Nat.eqb_sym r' r), (Nat.eqb_sym k' k).
    assert (Sd : forall d d' : list num, all_eqb d' d = all_eqb d d') by (clear - Sy; induction d as [|u d IH]; intros [|v d']; cbn; try reflexivity; now rewrite Sy, IH).
    now rewrite Sd.
  - destruct Ha as [Ho [Hl Hq]]. destruct (le_bin_inv o l q b H) as (l' & q' & -> & [[H1 H2]|[K _]]).
    + apply le_bin_intro; [now apply IHl|now apply IHq].
    + now destruct (Ho o l q eq_refl).
  - destruct Ha as [_ Hl]. apply le_un_inv in H. destruct H as (y & -> & H). apply le_un_intro. now apply IHl.
Qed.
Print Assumptions c07_true.

Example c07_true_case : no_assoc (ESub EPi (EVar "x") : expr Q) /\ equals (ESub EPi (EVar "x")) (ESub EPi (EVar "x") : expr Q) = Some true.
Proof. split; [|reflexivity]. repeat split; intros o a b H; try discriminate. injection H as <- _ _. cbv; intuition discriminate. Qed.
