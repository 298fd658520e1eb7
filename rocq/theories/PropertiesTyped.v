(** Property C77: what the command line answers to a typed product, and to a
    typed product divided by a factor. *)
From Coq Require Import String Ascii Bool Arith ZArith QArith Reals Lia.
From Coquelicot Require Import Coquelicot.
From Coq Require Import List.
From Flocq Require Import Core BinarySingleNaN.
From Verif Require Import Base Num Expr Ghost Simplify Calculus InFixSer FromInFix Frontends
  Spec SpecText SpecPoly SpecProd SpecQuot SpecLine SpecTyped QNum TreeProofs MonadProofs FuelProofs InFixProofs ProdProofs PolyProofs DoubleNum LineProofs
  TypedProofs PropertiesSimplify PropertiesPoly PropertiesProd PropertiesQuot PropertiesInFix PropertiesSafety PropertiesFrontends.
Import ListNotations.
Open Scope string_scope.
Open Scope Z_scope.
Open Scope list_scope.

(** ** C77: A typed product is answered with like factors combined *)
Definition C77_statement : Prop :=
  forall (num : Type) (N : NumOps num) lit ok, IntLits N lit ok ->
  forall fmt5 stof, sane_numbers stof ->
  forall l fs, product_text stof lit l fs -> (forall n, ok (amount n fs)) ->
  exists ls r t n0, product_of lit ls r /\ gathered lit ls fs /\ infix fmt5 r = inl t /\
    forall n, (n0 <= n)%nat -> session fmt5 stof n [str l] = ([Success t], AtEof).

Section Answer.
  Context {num : Type} {N : NumOps num} (lit : num -> Z -> Prop).
  Context (fmt5 : num -> string) (stof : string -> option num).
  Hypothesis sane : sane_numbers stof.

  Definition solid_ends (l : list ascii) : Prop :=
    (exists c l', l = c :: l' /\ end_char c) /\ (exists c l', l = l' ++ [c] /\ end_char c).
  Lemma solid_join l m l' : solid_ends l -> solid_ends l' -> solid_ends (l ++ m ++ l').
  Proof.
    intros [(c & l1 & -> & H1) _] [_ (d & l2 & -> & H2)]. split.
    - exists c, (l1 ++ m ++ l2 ++ [d]). auto.
    - exists d, ((c :: l1) ++ m ++ l2). split; [|exact H2]. now rewrite <- !app_assoc.
  Qed.
  Lemma factor_ends l f : factor_text stof lit l f -> solid_ends l.
  Proof.
    intros H. destruct H as [l z Hl|l x k Hp].
    - destruct (numeral_ends stof lit l z Hl) as [(c & l1 & E1 & D1) (d & l2 & E2 & D2)].
      split; [exists c, l1|exists d, l2]; (split; [assumption|now left]).
    - now apply (power_ends stof lit l x k).
  Qed.
  Lemma product_ends l fs : product_text stof lit l fs -> solid_ends l.
  Proof.
    induction 1 as [l f Hf|l fs b b' l' f H IH Hb Hb' Hf|l fs l' x k H IH Hd Hp K].
    - eapply factor_ends; eauto.
    - replace (l ++ b ++ "*"%char :: b' ++ l') with (l ++ (b ++ "*"%char :: b') ++ l') by (rewrite <- app_assoc; reflexivity).
      apply solid_join; [exact IH|eapply factor_ends; eauto].
    - apply (solid_join l []); [exact IH|]. now apply (power_ends stof lit l' x k).
  Qed.

  (* a text that is read as [e] is answered by the text of what Simplify makes of [e] *)
  Lemma read_answer l T e : solid_ends l -> reads l T -> infix_of stof "i" 1 T e ->
    forall r t n, snd (simp n false e) = Ok r -> infix fmt5 r = inl t ->
    session fmt5 stof n [str l] = ([Success t], AtEof).
  Proof.
    intros [(c & l1 & E1 & Hc) (d & l2 & E2 & Hd)] R I r t n Hr Ht. rewrite session_one.
    assert (Tr : trim (str l) = str l).
    { rewrite E1 in E2 |- *. destruct (exists_last (l := c :: l1)) as (m & x & E'); [congruence|].
      rewrite E' in E2. apply app_inj_tail in E2. destruct E2 as [-> ->]. destruct l2 as [|y l2].
      - rewrite E'. apply trim_single. now apply end_solid.
      - injection E' as -> ->. apply trim_solid; now apply end_solid. }
    rewrite Tr. assert (E0 : String.eqb (str l) "" = false) by (rewrite E1; reflexivity). rewrite E0.
    assert (Ex : String.eqb (str l) "exit" = false).
    { destruct (String.eqb_spec (str l) "exit") as [E|_]; [|reflexivity]. exfalso. rewrite E1 in E. cbn in E. injection E as -> _.
      destruct Hc as [Hc|(_ & Hc & _)]; [cbv in Hc; lia|congruence]. }
    rewrite Ex. unfold answer.
    assert (P : from_infix stof true (preprocess (str l)) = ret e).
    { apply (from_infix_tokens stof true); [apply sane|]. rewrite (reads_preprocess (str l) T); [exact I|].
      now rewrite list_ascii_of_string_of_list_ascii. }
    rewrite P. cbn [snd ret]. rewrite Hr. now rewrite Ht.
  Qed.

  Lemma fac_matrix (e : expr num) f : fac lit e f -> ~ contains_matrix e.
  Proof. intros H. destruct H as [c z _|p x k Hp]; [easy|destruct Hp; cbn; tauto]. Qed.
  Lemma tree_matrix o d (l : list (expr num)) r : tree_over o d l r -> List.Forall (fun e => ~ contains_matrix e) l -> ~ contains_matrix r.
  Proof.
    induction 1 as [d e|d l1 l2 a b H1 IH1 H2 IH2]; intros H.
    - now inversion H.
    - apply List.Forall_app in H. destruct H as [Ha Hb]. cbn. intros [K|K]; [now apply IH1|now apply IH2].
  Qed.
  Lemma facs_matrix l fl : Forall2 (fac lit) l fl -> List.Forall (fun e => ~ contains_matrix e) l.
  Proof. intros H. induction H; constructor; eauto using fac_matrix. Qed.
  Lemma gathered_matrix l fs : gathered lit l fs -> List.Forall (fun e => ~ contains_matrix e) l.
  Proof. intros (fl & H & _). eapply facs_matrix; eauto. Qed.
End Answer.

(** x^2*x^2 is answered by ((x^2)^2). *)
Lemma square_text : factor_text q_read q_int (list_ascii_of_string "x^2") (Some "x", 2).
Proof. apply ft_power; [|lia]. apply pt_pow; [apply var_x|now apply (q_numeral "2")|discriminate|discriminate]. Qed.
Lemma squares_text : product_text q_read q_int (list_ascii_of_string "x^2*x^2") [(Some "x", 2); (Some "x", 2)].
Proof.
  apply (xt_times _ _ (list_ascii_of_string "x^2") [(Some "x", 2)] [] [] (list_ascii_of_string "x^2")).
  - apply xt_factor, square_text.
  - apply blanks_nil.
  - apply blanks_nil.
  - apply square_text.
Qed.
(* the only way to combine the factors of x^2*x^2 is a power of x *)
Lemma fourth_fac (e : expr Q) : fac q_int e (Some "x", 4) -> exists c, e = EExp (qv "x") (EReal c).
Proof.
  intros H. remember (Some "x", 4) as f eqn:E. destruct H as [c z|p x k Hp K]; [discriminate E|]. injection E as -> ->.
  remember 4 as k eqn:Ek. remember "x" as x eqn:Ex. destruct Hp as [x|x c k Hc]; [discriminate Ek|]. exists c. now rewrite Ex.
Qed.
Lemma squares_gathered (ls : list (expr Q)) : gathered q_int ls [(Some "x", 2); (Some "x", 2)] -> exists c, ls = [EExp (qv "x") (EReal c)].
Proof.
  intros (fl & Hf & Hd & Ha).
  assert (One : forall e f, fac q_int e f -> In f fl -> f = (Some "x", 4)).
  { intros e [n k] He Hi. pose proof (amount_nodup n k fl Hd Hi) as E. rewrite Ha in E. cbn -[Z.mul Z.add] in E.
    destruct n as [x|]; [|inversion He as [c z Hc Z0 Z1|]; cbn -[Z.mul Z.add] in E; congruence].
    assert (0 < k) by (inversion He; assumption). cbn -[Z.mul Z.add] in E.
    destruct (String.eqb_spec x "x") as [->|Nx]; [now rewrite <- E|lia]. }
  destruct Hf as [|e f l fl He Hf]; [specialize (Ha (Some "x")); discriminate Ha|].
  pose proof (One e f He (or_introl eq_refl)) as E. rewrite E in He, Hd. destruct Hf as [|e2 f2 l fl He2 Hf].
  - destruct (fourth_fac e He) as (c & ->). now exists c.
  - rewrite (One e2 f2 He2 (or_intror (or_introl eq_refl))) in Hd. cbn in Hd. inversion Hd as [|? ? K _]. destruct K. now left.
Qed.
Theorem c77_refuted : ~ C77_statement.
Proof.
  intros S. destruct (S Q Q_ops q_int any q_ints q_show q_read (num_sane inject_Z) _ _ squares_text (fun _ => I)) as (ls & r & t & n0 & Hs & Hc & Hi & Hn).
  apply squares_gathered in Hc. destruct Hc as (c & ->). destruct Hs as (d & Hd). apply tree_single in Hd. subst r. cbn in Hi. injection Hi as <-.
  assert (K : session q_show q_read 30 [str (list_ascii_of_string "x^2*x^2")] = ([Success "((x^2)^2)"], AtEof)) by (vm_compute; reflexivity).
  specialize (Hn n0 (Nat.le_refl _)). rewrite (session_unique q_show q_read n0 30) in Hn.
  - rewrite K in Hn. discriminate Hn.
  - rewrite Hn. discriminate.
  - rewrite K. discriminate.
Qed.
Print Assumptions c77_refuted.

(** Proved when each factor is a plain variable or differs from what the
    factors before it have of the same kind: the answer is the text of a
    balanced product of the combined factors.  Missing: a power or a number
    typed where the same power or number has been reached before, as in
    x^2*x^2; the numbers 0 and 1; parentheses. *)
Theorem c77_typed_partial : forall (num : Type) (N : NumOps num) lit ok, IntLits N lit ok ->
  forall fmt5 stof, sane_numbers stof ->
  forall l fs, product_text stof lit l fs -> (forall n, ok (amount n fs)) -> steady fs ->
  exists ls r t n0, tree_over OMul (Nat.log2_up (length ls)) ls r /\ gathered lit ls fs /\ infix fmt5 r = inl t /\
    forall n, (n0 <= n)%nat -> session fmt5 stof n [str l] = ([Success t], AtEof).
Proof.
  intros num N lit ok IL fmt5 stof sane l fs H Hw Hs.
  destruct (product_read stof lit sane l fs H Hs) as (e & T & He & R & Ix & _).
  destruct (c69_like_factors_partial num N lit ok IL false e fs He Hw) as (ls & r & (n0 & Y) & B & C).
  destruct (proj2 (c36_total fmt5 r)) as (t & Ht).
  { eapply tree_matrix; [exact B|]. eapply gathered_matrix; eauto. }
  exists ls, r, t, n0. split; [exact B|]. split; [exact C|]. split; [exact Ht|]. intros n L.
  eapply (read_answer fmt5 stof sane); [eapply product_ends; eauto|exact R|apply ix_up; exact Ix| |exact Ht]. now rewrite (Y n L).
Qed.
Print Assumptions c77_typed_partial.

(** The same for doubles. *)
Theorem c77_doubles : forall pw lg pwx lgx, let N := double_ops pw lg pwx lgx in
  forall fmt5 stof, sane_numbers stof -> forall l fs, product_text stof d_int l fs -> (forall n, Z.abs (amount n fs) <= 2 ^ 53) -> steady fs ->
  exists ls r t n0, tree_over OMul (Nat.log2_up (length ls)) ls r /\ gathered d_int ls fs /\ infix fmt5 r = inl t /\
    forall n, (n0 <= n)%nat -> session fmt5 stof n [str l] = ([Success t], AtEof).
Proof.
  intros pw lg pwx lgx N fmt5 stof sane l fs H Hw Hs. apply (c77_typed_partial double N d_int d_ok (double_ints pw lg pwx lgx)); auto.
Qed.
Print Assumptions c77_doubles.

(** 2x^3y * x *)
Definition typed_factors : list factor := [(None, 2); (Some "x", 3); (Some "y", 1); (Some "x", 1)].
Definition typed_product : list ascii := list_ascii_of_string "2x^3y * x".
Lemma typed_product_text : product_text q_read q_int typed_product typed_factors.
Proof.
  apply (xt_times _ _ (list_ascii_of_string "2x^3y") [(None, 2); (Some "x", 3); (Some "y", 1)] [" "%char] [" "%char] (list_ascii_of_string "x")).
  - apply (xt_next _ _ (list_ascii_of_string "2x^3") [(None, 2); (Some "x", 3)] (list_ascii_of_string "y") "y" 1).
    + apply (xt_next _ _ (list_ascii_of_string "2") [(None, 2)] (list_ascii_of_string "x^3") "x" 3).
      * apply xt_factor, ft_number; [now apply (q_numeral "2")|discriminate|discriminate].
      * exists [], "2"%char. split; [reflexivity|cbv; lia].
      * apply pt_pow; [apply var_x|now apply (q_numeral "3")|discriminate|discriminate].
      * lia.
    + exists (list_ascii_of_string "2x^"), "3"%char. split; [reflexivity|cbv; lia].
    + apply pt_var, var_y.
    + lia.
  - apply one_blank.
  - apply one_blank.
  - apply ft_power; [apply pt_var, var_x|lia].
Qed.
Lemma split_here {A} (P : list A -> A -> list A -> Prop) (l : list A) :
  (forall l1 x l2, l = l1 ++ x :: l2 -> P l1 x l2) <->
  (forall i x, nth_error l i = Some x -> P (firstn i l) x (skipn (S i) l)).
Proof.
  split.
  - intros H i x E. apply H. symmetry. revert i E. clear H. induction l as [|y l IH]; intros i E; [destruct i; discriminate|].
    destruct i as [|i]; cbn in E |- *; [now injection E as ->|]. f_equal. apply (IH i E).
  - intros H l1 x l2 ->. specialize (H (length l1) x). rewrite nth_error_app2, Nat.sub_diag in H by lia. specialize (H eq_refl).
    rewrite firstn_app, firstn_all, Nat.sub_diag in H. cbn [firstn] in H. rewrite app_nil_r in H.
    replace (l1 ++ x :: l2) with ((l1 ++ [x]) ++ l2) in H by (rewrite <- app_assoc; reflexivity).
    replace (S (length l1)) with (length (l1 ++ [x])) in H by (rewrite app_length; cbn; lia).
    rewrite skipn_app, skipn_all, Nat.sub_diag in H. exact H.
Qed.
Lemma steady_check fs :
  (forall i f, nth_error fs i = Some f -> snd f = 1 \/ amount (fst f) (firstn i fs) <> snd f) -> steady fs.
Proof.
  intros H fs1 n k fs2 E. revert fs1 n k fs2 E.
  assert (K : forall fs1 f fs2, fs = fs1 ++ f :: fs2 -> snd f = 1 \/ amount (fst f) fs1 <> snd f).
  { apply (split_here (fun a f _ => snd f = 1 \/ amount (fst f) a <> snd f)). exact H. }
  intros fs1 n k fs2 E. exact (K fs1 (n, k) fs2 E).
Qed.
Lemma typed_steady : steady typed_factors.
Proof.
  apply steady_check. intros i f E. do 4 (destruct i as [|i]; [cbn in E; injection E as <-; cbn; first [now left|right; discriminate]|]).
  destruct i; discriminate E.
Qed.
Example c77_case : product_text q_read q_int typed_product typed_factors /\ steady typed_factors
  /\ sane_numbers q_read /\ session q_show q_read 40 [str typed_product] = ([Success "((2*(x^?))*y)"], AtEof).
Proof.
  split; [apply typed_product_text|]. split; [apply typed_steady|]. split; [apply (num_sane inject_Z)|].
  vm_compute. reflexivity.
Qed.

(** ** A typed product divided by a factor *)
(** Proved when the factors cancel (SpecQuot.v).  Missing: divisors in
    parentheses and the cases missing from C76. *)
Theorem c77_quotient_partial : forall (num : Type) (N : NumOps num) lit ok, IntLits N lit ok -> signs N lit ->
  forall fmt5 stof, sane_numbers stof ->
  forall l fs gs, quotient_text stof lit l fs gs -> (forall n, ok (amount n fs)) -> (forall n, ok (amount n gs)) -> steady fs ->
  cancelling fs gs -> (exists x, In (Some x) (names (fs ++ gs))) ->
  exists nl dl r t n0, fraction_of nl dl r /\ cancelled lit nl dl fs gs /\ infix fmt5 r = inl t /\
    forall n, (n0 <= n)%nat -> session fmt5 stof n [str l] = ([Success t], AtEof).
Proof.
  intros num N lit ok IL SG fmt5 stof sane l fs gs H Wf Wg Hs Hc Hx.
  destruct H as [l fs b b' l' g H Hb Hb' Hg].
  destruct (product_read stof lit sane l fs H Hs) as (e & T & He & R & Ix & _).
  destruct (factor_open stof lit sane l' g Hg) as (e' & T' & He' & R' & Ix' & _).
  destruct (c76_cancels_partial num N lit ok IL SG false e e' fs [g] He (ep_fac _ _ _ He') Wf Wg Hc Hx) as (nl & dl & r & (n0 & Y) & F & C).
  assert (Mt : ~ contains_matrix r).
  { pose proof C as (ca & cb & nv & tn & td & _ & _ & Pn & Fn & _ & _ & Fd & _).
    assert (Kn : List.Forall (fun e => ~ contains_matrix e) nl).
    { eapply Permutation.Permutation_Forall; [apply Permutation.Permutation_sym; exact Pn|]. apply List.Forall_app. split.
      - unfold coefficient. destruct (n_eqb _ _); constructor; [easy|constructor].
      - eapply facs_matrix; eauto. }
    assert (Kd : List.Forall (fun e => ~ contains_matrix e) dl) by (eapply facs_matrix; eauto).
    assert (Kp : forall p : expr num, product_or_one nl p -> ~ contains_matrix p).
    { intros p Hp. unfold product_or_one in Hp. destruct nl; [subst p; easy|]. destruct Hp as (d & Hp). eapply tree_matrix; eauto. }
    unfold fraction_of in F. destruct dl as [|x dl]; [now apply Kp|]. destruct F as (p & q & -> & Hp & d & Hq). cbn. intros [K|K]; [now apply (Kp p)|].
    revert K. eapply tree_matrix; eauto. }
  destruct (proj2 (c36_total fmt5 r) Mt) as (t & Ht).
  exists nl, dl, r, t, n0. split; [exact F|]. split; [exact C|]. split; [exact Ht|]. intros n L.
  eapply (read_answer fmt5 stof sane); [|apply (reads_join l T b "/"%char b' l' T'); auto; now exists ODiv| | |exact Ht].
  - replace (l ++ b ++ "/"%char :: b' ++ l') with (l ++ (b ++ "/"%char :: b') ++ l') by (rewrite <- app_assoc; reflexivity).
    apply solid_join; [eapply product_ends; eauto|eapply factor_ends; eauto].
  - apply ix_up. eapply ix_op; [constructor|exact Ix|exact Ix'].
  - now rewrite (Y n L).
Qed.
Print Assumptions c77_quotient_partial.

(** 6x^5*y / x^3 *)
Definition over_factors : list factor := [(None, 6); (Some "x", 5); (Some "y", 1)].
Definition over_text : list ascii := list_ascii_of_string "6x^5*y / x^3".
Example c77_quotient_case : quotient_text q_read q_int over_text over_factors [(Some "x", 3)] /\ steady over_factors
  /\ cancelling over_factors [(Some "x", 3)]
  /\ session q_show q_read 40 [str over_text] = ([Success "((?*(x^2))*y)"], AtEof).
Proof.
  split; [|split; [|split]].
  - apply (qt_over _ _ (list_ascii_of_string "6x^5*y") over_factors [" "%char] [" "%char] (list_ascii_of_string "x^3")).
    + apply (xt_times _ _ (list_ascii_of_string "6x^5") [(None, 6); (Some "x", 5)] [] [] (list_ascii_of_string "y")).
      * apply (xt_next _ _ (list_ascii_of_string "6") [(None, 6)] (list_ascii_of_string "x^5") "x" 5).
        -- apply xt_factor, ft_number; [now apply (q_numeral "6")|discriminate|discriminate].
        -- exists [], "6"%char. split; [reflexivity|cbv; lia].
        -- apply pt_pow; [apply var_x|now apply (q_numeral "5")|discriminate|discriminate].
        -- lia.
      * apply blanks_nil.
      * apply blanks_nil.
      * apply ft_power; [apply pt_var, var_y|lia].
    + apply one_blank.
    + apply one_blank.
    + apply ft_power; [|lia]. apply pt_pow; [apply var_x|now apply (q_numeral "3")|discriminate|discriminate].
  - apply steady_check. intros i f E. do 3 (destruct i as [|i]; [cbn in E; injection E as <-; cbn; first [now left|right; discriminate]|]).
    destruct i; discriminate E.
  - split; [|right; now left]. intros x. cbn. destruct (String.eqb x "x"), (String.eqb x "y"); cbn; lia.
  - vm_compute. reflexivity.
Qed.

(** ** Sessions of typed products (C61) *)
(** Lines on which no crash is possible: those of C61, typed products and
    typed quotients. *)
Inductive harmless_line {num} (lit : num -> Z -> Prop) (ok : Z -> Prop) (stof : string -> option num) : list ascii -> Prop :=
| hm_line l : harmless lit ok stof l -> harmless_line lit ok stof l
| hm_product l fs : product_text stof lit l fs -> (forall n, ok (amount n fs)) -> steady fs -> harmless_line lit ok stof l
| hm_quotient l fs gs : quotient_text stof lit l fs gs -> (forall n, ok (amount n fs)) -> (forall n, ok (amount n gs)) ->
    steady fs -> cancelling fs gs -> (exists x, In (Some x) (names (fs ++ gs))) -> harmless_line lit ok stof l
| hm_padded b l b' : blanks b -> blanks b' -> harmless_line lit ok stof l -> harmless_line lit ok stof (b ++ l ++ b').

(** Missing: see C61. *)
Theorem c61_products_partial : forall (num : Type) (N : NumOps num) lit ok, IntLits N lit ok -> signs N lit ->
  forall fmt5 stof, sane_numbers stof ->
  forall lines, List.Forall (harmless_line lit ok stof) lines ->
  exists n0, forall n, (n0 <= n)%nat -> forall o, snd (session fmt5 stof n (map str lines)) <> Crashed o.
Proof.
  intros num N lit ok IL SG fmt5 stof sane lines H.
  assert (One : forall l, harmless_line lit ok stof l -> exists n0, forall n, (n0 <= n)%nat -> forall o,
     snd (session fmt5 stof n [str l]) <> Crashed o).
  { intros l Hl. induction Hl as [l Hl|l fs Hp Hw Hs|l fs gs Hq Wf Wg Hs Hc Hx|b l b' Hb Hb' _ (n0 & IH)].
    - apply (c61_harmless_partial num N lit ok IL fmt5 stof sane [l]). constructor; [exact Hl|constructor].
    - destruct (c77_typed_partial num N lit ok IL fmt5 stof sane l fs Hp Hw Hs) as (ls & r & t & n0 & _ & _ & _ & A).
      exists n0. intros n L o. rewrite (A n L). discriminate.
    - destruct (c77_quotient_partial num N lit ok IL SG fmt5 stof sane l fs gs Hq Wf Wg Hs Hc Hx) as (nl & dl & r & t & n0 & _ & _ & _ & A).
      exists n0. intros n L o. rewrite (A n L). discriminate.
    - exists n0. intros n L o. pose proof (proj1 (proj2 (c60_lines fmt5 stof n)) b b' l Hb Hb') as E. rewrite E. now apply IH. }
  induction H as [|l lines Hl Hls (n1 & IH)]; [exists 0%nat; intros; discriminate|].
  destruct (One l Hl) as (n0 & A). exists (n0 + n1)%nat. intros n L o. cbn [map].
  pose proof (proj1 (c60_lines fmt5 stof n) [str l] (map str lines)) as E. cbn [app] in E. rewrite E.
  specialize (A n ltac:(lia)). specialize (IH n ltac:(lia) o).
  destruct (session fmt5 stof n [str l]) as [out [| |o']]; [exact IH|discriminate|]. now destruct (A o').
Qed.
Print Assumptions c61_products_partial.
Example c61_products_case : List.Forall (harmless_line q_int any q_read) [typed; typed_product; over_text; list_ascii_of_string "exit"].
Proof.
  destruct c77_quotient_case as (Hq & Hs & Hc & _). repeat apply List.Forall_cons; [| | | |apply List.Forall_nil].
  - apply hm_line. eapply hl_polynomial; [apply typed_line|exact I].
  - eapply hm_product; [apply typed_product_text|intros; exact I|apply typed_steady].
  - eapply hm_quotient; [exact Hq|intros; exact I|intros; exact I|exact Hs|exact Hc|]. exists "x". cbn. auto.
  - apply hm_line, hl_exit.
Qed.
