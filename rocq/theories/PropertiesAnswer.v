(** Property C94: what the command line answers to typed polynomials, products
    and derivatives, number by number. *)
From Coq Require Import String Ascii Bool Arith ZArith QArith Reals Lia.
From Flocq Require Import Core BinarySingleNaN.
From Coq Require Import List.
From Verif Require Import Base Num Expr Simplify InFixSer FromInFix Frontends
  Spec SpecText SpecPoly SpecProd SpecLine SpecTyped SpecNumeral SpecAnswer DoubleNum Numerals NumeralProofs PolyProofs ProdProofs
  PropertiesFrontends PropertiesNumeral PropertiesTyped PropertiesTypedCalculus.
Import ListNotations.
Open Scope string_scope.
Open Scope Z_scope.
Open Scope list_scope.

(** ** C94: Answers to typed polynomials are sums of numerals and powers *)

Notation text := list_ascii_of_string (only parsing).
(** The integers that a user can type and that are read exactly. *)
Definition readable (c z : Z) : Prop := c = z /\ z <= 2 ^ 24.

(** The typed text has the terms [ts] by the usual meaning of digits, and the
    answer shows each power once, with its total coefficient. *)
Definition C94_statement : Prop :=
  forall pw lg pwx lgx, let N := double_ops pw lg pwx lgx in
  forall l ts, line_text integer_word (fun c z => c = z) l ts ->
  exists t tl d n0, (sum_shown d t tl \/ tl = [] /\ number_shown t 0) /\ NoDup (keys tl) /\ same_polynomial tl ts /\
    forall n, (n0 <= n)%nat -> session fmt5 stof n [str l] = ([Success t], AtEof).

(* reading *)
Lemma numeral_reads l z : SpecLine.numeral integer_word readable l z -> SpecLine.numeral stof d_int l z /\ 0 <= z <= 2 ^ 24.
Proof.
  intros (Hn & Hd & c & Hc & -> & B).
  assert (E : natural l = z).
  { unfold integer_word in Hc. rewrite list_ascii_of_string_of_list_ascii in Hc. destruct l as [|x l]; [congruence|].
    destruct (forallb _ _); [|discriminate Hc]. now injection Hc. }
  subst z. split; [apply c86_integers_partial; auto; lia|]. pose proof (natural_bounds l Hd). lia.
Qed.
Lemma power_reads l x k : power_text integer_word readable l x k -> power_text stof d_int l x k /\ 1 <= k <= 2 ^ 24.
Proof.
  intros [c Hc|c n z Hc Hn Z0 Z1]; [split; [now constructor|lia]|]. destruct (numeral_reads _ _ Hn). split; [now constructor|lia].
Qed.
Definition exponents (ts : list monomial) (p : Z -> Prop) : Prop := forall y k, In (Some (y, k)) (keys ts) -> p k.
Lemma term_reads l t : term_text integer_word readable l t -> term_text stof d_int l t /\ exponents [t] (fun k => 1 <= k <= 2 ^ 24).
Proof.
  intros [n z Hn|p x k Hp|n z p x k Hn Hp|n z p x k Hn Hp].
  - split; [apply tt_const; now apply numeral_reads|]. intros y j [K|[]]. discriminate K.
  - destruct (power_reads _ _ _ Hp). split; [now apply tt_power|]. intros y j [K|[]]. now injection K as <- <-.
  - destruct (power_reads _ _ _ Hp), (numeral_reads _ _ Hn). split; [now apply tt_juxtaposed|]. intros y j [K|[]]. now injection K as <- <-.
  - destruct (power_reads _ _ _ Hp), (numeral_reads _ _ Hn). split; [now apply tt_product|]. intros y j [K|[]]. now injection K as <- <-.
Qed.
Lemma exponents_app ts us p : exponents ts p -> exponents us p -> exponents (ts ++ us) p.
Proof. intros A B y k H. unfold keys in H. rewrite map_app in H. apply in_app_or in H. destruct H; [eapply A|eapply B]; eauto. Qed.
Lemma line_reads l ts : line_text integer_word readable l ts -> line_text stof d_int l ts /\ exponents ts (fun k => 1 <= k <= 2 ^ 24).
Proof.
  induction 1 as [l t H|l ts b b' l' t _ [IH1 IH2] Hb Hb' H|l ts b b' l' t _ [IH1 IH2] Hb Hb' H]; destruct (term_reads _ _ H) as [H1 H2].
  - split; [now constructor|exact H2].
  - split; [now constructor|now apply exponents_app].
  - split; [now apply lt_minus|now apply exponents_app].
Qed.
Lemma call_reads f l ts x : call_text integer_word readable f l ts x -> call_text stof d_int f l ts x /\ exponents ts (fun k => 1 <= k <= 2 ^ 24).
Proof. intros [b0 b1 l' ts' b2 b3 c b4 ? ? ? ? ? H ?]. destruct (line_reads _ _ H). split; [now constructor|auto]. Qed.
Lemma factor_reads l f : factor_text integer_word readable l f -> factor_text stof d_int l f.
Proof. intros [n z Hn|p x k Hp]; constructor; auto; [now apply numeral_reads|now apply power_reads]. Qed.
Lemma product_reads l fs : product_text integer_word readable l fs -> product_text stof d_int l fs.
Proof.
  induction 1 as [l f H|l fs b b' l' f _ IH Hb Hb' H|l fs l' x k _ IH He H Hk].
  - apply xt_factor. now apply factor_reads.
  - apply xt_times; auto. now apply factor_reads.
  - apply xt_next; auto. now apply power_reads.
Qed.

(* printing *)
Lemma number_prints c z : d_int c z -> z <> 0 -> Z.abs z < 100000 -> number_shown (fmt5 c) z.
Proof. intros Hc Hz B. destruct (c87_integers_partial 5 c z Hc) as [H|[H _]]; [lia|lia|exact H|congruence]. Qed.
Lemma power_prints e x k : power d_int e x k -> Z.abs k < 100000 -> exists t, infix fmt5 e = inl t /\ power_shown t x k.
Proof.
  intros [y|y c j Hc J0 J1] B; [exists y; split; [reflexivity|constructor]|].
  exists ("(" ++ y ++ "^" ++ fmt5 c ++ ")")%string. split; [reflexivity|]. apply ws_pow; auto. now apply number_prints.
Qed.
Lemma term_prints e m : neat d_int e m -> Z.abs (snd m) < 100000 -> exponents [m] (fun k => Z.abs k < 100000) ->
  exists t, infix fmt5 e = inl t /\ term_shown t m.
Proof.
  intros [c z Hc Hz|p x k Hp|c z p x k Hc Z0 Z1 Hp] B X; cbn [snd] in B.
  - exists (fmt5 c). split; [reflexivity|]. apply ts_const; auto. now apply number_prints.
  - destruct (power_prints p x k Hp) as (t & E & S); [apply (X x k); now left|]. exists t. split; [exact E|now constructor].
  - destruct (power_prints p x k Hp) as (t & E & S); [apply (X x k); now left|].
    exists ("(" ++ fmt5 c ++ "*" ++ t ++ ")")%string. cbn [infix two]. rewrite E. split; [reflexivity|]. apply ts_scaled; auto. now apply number_prints.
Qed.
Lemma factor_prints e f : fac d_int e f -> Z.abs (snd f) < 100000 -> exists t, infix fmt5 e = inl t /\ factor_shown t f.
Proof.
  intros [c z Hc Z0 Z1|p x k Hp Hk] B; cbn [snd] in B.
  - exists (fmt5 c). split; [reflexivity|]. constructor; auto. now apply number_prints.
  - destruct (power_prints p x k Hp B) as (t & E & S). exists t. split; [exact E|now constructor].
Qed.
Lemma tree_prints {A : Type} o op (one : string -> A -> Prop) (P : expr double -> A -> Prop) :
  bin_text o = arith op -> (forall e a, P e a -> exists t, infix fmt5 e = inl t /\ one t a) ->
  forall d ls r, tree_over o d ls r -> forall tl, Forall2 P ls tl -> exists t, infix fmt5 r = inl t /\ shown_by op one d t tl.
Proof.
  intros Ho HP. induction 1 as [d e|d l1 l2 a b _ IH1 _ IH2]; intros tl F.
  - inversion F as [|e' m l tl' Hm F']; subst. inversion F'; subst. destruct (HP e m Hm) as (t & E & S). exists t. split; [exact E|now constructor].
  - apply Forall2_app_inv_l in F. destruct F as (t1 & t2 & F1 & F2 & ->). destruct (IH1 t1 F1) as (t & E & S), (IH2 t2 F2) as (u & E' & S').
    exists ("(" ++ t ++ op ++ u ++ ")")%string. cbn [infix]. rewrite E, E', Ho. split; [reflexivity|now constructor].
Qed.
Lemma Forall2_with {A B} (P : A -> B -> Prop) (Q : B -> Prop) l m : Forall2 P l m -> (forall b, In b m -> Q b) -> Forall2 (fun a b => P a b /\ Q b) l m.
Proof. induction 1 as [|a b l m Hab _ IH]; intros HQ; constructor; [split; [exact Hab|apply HQ; now left]|apply IH; intros c Hc; apply HQ; now right]. Qed.

Lemma sum_prints ls r ts t : tree_over OAdd (Nat.log2_up (length ls)) ls r -> combined d_int ls ts -> infix fmt5 r = inl t ->
  (forall k, Z.abs (total k ts) < 100000) -> exponents ts (fun k => Z.abs k < 100000) ->
  exists tl, sum_shown (Nat.log2_up (length tl)) t tl /\ NoDup (keys tl) /\ same_polynomial tl ts.
Proof.
  intros Ht (tl & F & D & E) Hi B X. exists tl. split; [|split; auto].
  assert (Q : forall m, In m tl -> Z.abs (snd m) < 100000 /\ exponents [m] (fun k => Z.abs k < 100000)).
  { intros [k z] Hin. pose proof (total_nodup k z tl D Hin) as K. rewrite E in K. cbn [snd]. split; [rewrite <- K; apply B|].
    intros y j [Y|[]]. cbn [fst] in Y. subst k. apply (X y j). apply total_in. rewrite K.
    pose proof (neat_nonzero _ _ _ F) as Z. rewrite List.Forall_forall in Z. apply (Z _ Hin). }
  pose proof (Forall2_with _ _ _ _ F Q) as F'. pose proof F as L. apply Forall2_length in L. rewrite L in Ht.
  destruct (tree_prints OAdd "+" term_shown _ eq_refl (fun e a H => term_prints e a (proj1 H) (proj1 (proj2 H)) (proj2 (proj2 H))) _ _ _ Ht _ F') as (t' & E' & S).
  rewrite Hi in E'. injection E' as <-. exact S.
Qed.
Lemma product_prints ls r fs t : tree_over OMul (Nat.log2_up (length ls)) ls r -> gathered d_int ls fs -> infix fmt5 r = inl t ->
  (forall n, Z.abs (amount n fs) < 100000) ->
  exists fl, product_shown (Nat.log2_up (length fl)) t fl /\ NoDup (names fl) /\ forall n, amount n fl = amount n fs.
Proof.
  intros Ht (fl & F & D & E) Hi B. exists fl. split; [|split; auto].
  assert (Q : forall f, In f fl -> Z.abs (snd f) < 100000).
  { intros [n k] Hin. pose proof (amount_nodup n k fl D Hin) as K. rewrite E in K. cbn [snd]. rewrite <- K. apply B. }
  pose proof (Forall2_with _ _ _ _ F Q) as F'. pose proof F as L. apply Forall2_length in L. rewrite L in Ht.
  destruct (tree_prints OMul "*" factor_shown _ eq_refl (fun e a H => factor_prints e a (proj1 H) (proj2 H)) _ _ _ Ht _ F') as (t' & E' & S).
  rewrite Hi in E'. injection E' as <-. exact S.
Qed.

(** 100000 is answered with 1e+05. *)
Lemma e_in l z : numeral_of z l -> ~ In "e"%char l.
Proof.
  induction 1 as [|c l D _|z l _ _ IH]; [intros [K|[]]; discriminate K| |].
  - intros K. specialize (D _ K). cbv in D. lia.
  - intros [K|K]; [discriminate K|auto].
Qed.
Lemma e_shown z : ~ number_shown "1e+05" z.
Proof. intros H. apply (e_in _ _ H). right. now left. Qed.
Theorem c94_refuted : ~ C94_statement.
Proof.
  intros S. destruct (S (fun a _ => a) (fun a => a) (fun _ _ => true) (fun _ => true) (text "100000") [(None, 100000)]) as (t & tl & d & n0 & H & _ & E & A).
  - apply lt_term, tt_const. split; [discriminate|]. split; [|now exists 100000].
    intros c Hc. cbn in Hc. repeat (destruct Hc as [<-|Hc]; [cbv; lia|]). destruct Hc.
  - specialize (A n0 (Nat.le_refl _)). revert A. set (N := double_ops _ _ _ _). intros A.
    assert (K : session fmt5 stof 20 [str (text "100000")] = ([Success "1e+05"], AtEof)) by (vm_compute; reflexivity).
    rewrite (session_unique fmt5 stof n0 20) in A; [|rewrite A; discriminate|rewrite K; discriminate].
    rewrite K in A. injection A as <-.
    destruct H as [H|[_ H]]; [|now apply e_shown in H].
    inversion H as [d' t' m Hm|]; subst. inversion Hm as [n z Hn _|p x k Hp|]; subst.
    + now apply e_shown in Hn.
    + inversion Hp; subst. specialize (E (Some ("1e+05", 1))). discriminate E.
Qed.
Print Assumptions c94_refuted.

(** Proved for the machine's numbers when two or more terms are left, the
    numbers typed are at most 2^24 and those shown have at most five digits:
    the answer is the sum, in balanced parentheses, of one term for each power
    that is left, with the numeral of its coefficient.  Missing: fewer terms
    (C62 is refuted there); numbers of six or more digits, which are rounded. *)
Theorem c94_polynomial_partial : forall pw lg pwx lgx, let N := double_ops pw lg pwx lgx in
  forall l ts, line_text integer_word readable l ts -> two_left ts -> weight ts <= 2 ^ 53 ->
  (forall k, Z.abs (total k ts) < 100000) -> exponents ts (fun k => k < 100000) ->
  exists t tl n0, sum_shown (Nat.log2_up (length tl)) t tl /\ NoDup (keys tl) /\ same_polynomial tl ts /\
    forall n, (n0 <= n)%nat -> session fmt5 stof n [str l] = ([Success t], AtEof).
Proof.
  intros pw lg pwx lgx N l ts H H2 Hw B X. destruct (line_reads l ts H) as [H' Y].
  destruct (c62_doubles pw lg pwx lgx fmt5 stof stof_sane l ts H' Hw H2) as (ls & r & t & n0 & T & C & I & A).
  destruct (sum_prints ls r ts t T C I B) as (tl & S & D & E).
  - intros y k K. specialize (X y k K). specialize (Y y k K). cbv beta in X, Y. lia.
  - exists t, tl, n0. auto.
Qed.
Print Assumptions c94_polynomial_partial.

(** The same for products, if each factor is a plain variable or differs from
    what the factors before it have of the same kind (see C77). *)
Theorem c94_product_partial : forall pw lg pwx lgx, let N := double_ops pw lg pwx lgx in
  forall l fs, product_text integer_word readable l fs -> steady fs -> (forall n, Z.abs (amount n fs) < 100000) ->
  exists t fl n0, product_shown (Nat.log2_up (length fl)) t fl /\ NoDup (names fl) /\ (forall n, amount n fl = amount n fs) /\
    forall n, (n0 <= n)%nat -> session fmt5 stof n [str l] = ([Success t], AtEof).
Proof.
  intros pw lg pwx lgx N l fs H Hs B. apply product_reads in H.
  destruct (c77_doubles pw lg pwx lgx fmt5 stof stof_sane l fs H) as (ls & r & t & n0 & T & C & I & A); auto.
  { intros n. specialize (B n). lia. }
  destruct (product_prints ls r fs t T C I B) as (fl & S & D & E). exists t, fl, n0. auto.
Qed.
Print Assumptions c94_product_partial.

(** The same for derivatives, if pow squares integers exactly. *)
Theorem c94_derivative_partial : forall pw lg lgx, let N := double_ops pw lg (fun _ _ => true) lgx in
  (forall a z, d_int a z -> Z.abs (z * z) <= 2 ^ 53 -> d_int (pw a (d_of 2 0)) (z * z)) ->
  forall l ts x, call_text integer_word readable "dd" l ts x -> two_left (deriv x ts) -> two_left ts ->
  weight ts <= 2 ^ 53 -> weight (deriv x ts) <= 2 ^ 53 ->
  (forall k, Z.abs (total k (deriv x ts)) < 100000) -> exponents ts (fun k => k <= 100000) ->
  exists t tl n0, sum_shown (Nat.log2_up (length tl)) t tl /\ NoDup (keys tl) /\ same_polynomial tl (deriv x ts) /\
    forall n, (n0 <= n)%nat -> session fmt5 stof n [str l] = ([Success t], AtEof).
Proof.
  intros pw lg lgx N Hpw l ts x H H2' H2 Hw Hwd B X. destruct (call_reads "dd" l ts x H) as [H' Y].
  destruct (c78_doubles pw lg lgx Hpw fmt5 stof stof_sane l ts x H') as (r & tr & t & n0 & _ & _ & C & I & A); auto.
  { intros y k K. specialize (Y y k K). cbv beta in Y. lia. }
  destruct (C H2') as (ls & T & C'). destruct (sum_prints ls r (deriv x ts) t T C' I B) as (tl & S & D & E).
  - intros y k K. unfold keys, deriv in K. rewrite map_map in K. apply in_map_iff in K. destruct K as ([[[z j]|] c] & K & Hin); cbn in K; [|discriminate K].
    destruct (String.eqb z x); [|discriminate K]. destruct (j =? 1); [discriminate K|]. injection K as <- <-.
    assert (In (Some (z, j)) (keys ts)) as K by (apply in_map_iff; now exists (Some (z, j), c)).
    specialize (X z j K). specialize (Y z j K). cbv beta in X, Y. lia.
  - exists t, tl, n0. auto.
Qed.
Print Assumptions c94_derivative_partial.

(** 12x + 3x^2 - x, 2x^3y * x *)
Definition answer_terms : list monomial := [(Some ("x", 1), 12); (Some ("x", 2), 3); (Some ("x", 1), -1)].
Lemma word_numeral s z : integer_word s = Some z -> z <= 2 ^ 24 -> SpecLine.numeral integer_word readable (text s) z.
Proof.
  intros H L. pose proof H as K. unfold integer_word in K. destruct (text s) as [|c l] eqn:E; [discriminate K|].
  destruct (forallb _ _) eqn:F; [|discriminate K]. split; [discriminate|]. split.
  - intros x Hx. rewrite forallb_forall in F. specialize (F x Hx). apply andb_true_iff in F. destruct F as [F1 F2].
    apply Nat.leb_le in F1, F2. now split.
  - exists z. rewrite <- E, string_of_list_ascii_of_string. now split.
Qed.
Lemma answer_line : line_text integer_word readable (text "12x + 3x^2 - x") answer_terms.
Proof.
  apply (lt_minus _ _ (text "12x + 3x^2") [(Some ("x", 1), 12); (Some ("x", 2), 3)] [" "%char] [" "%char] (text "x") (Some ("x", 1), 1));
    try apply one_blank.
  - apply (lt_plus _ _ (text "12x") [(Some ("x", 1), 12)] [" "%char] [" "%char] (text "3x^2") (Some ("x", 2), 3)); try apply one_blank.
    + apply lt_term, (tt_juxtaposed _ _ (text "12") 12 (text "x")); [now apply word_numeral|apply pt_var, var_x].
    + apply (tt_juxtaposed _ _ (text "3") 3 (text "x^2")); [now apply word_numeral|].
      apply (pt_pow _ _ "x"%char (text "2")); [apply var_x|now apply word_numeral|lia|lia].
  - apply tt_power, pt_var, var_x.
Qed.
Lemma answer_product : product_text integer_word readable typed_product typed_factors.
Proof.
  apply (xt_times _ _ (text "2x^3y") [(None, 2); (Some "x", 3); (Some "y", 1)] [" "%char] [" "%char] (text "x")); try apply one_blank.
  - apply (xt_next _ _ (text "2x^3") [(None, 2); (Some "x", 3)] (text "y") "y" 1).
    + apply (xt_next _ _ (text "2") [(None, 2)] (text "x^3") "x" 3).
      * apply xt_factor, ft_number; [now apply word_numeral|discriminate|discriminate].
      * exists [], "2"%char. split; [reflexivity|cbv; lia].
      * apply (pt_pow _ _ "x"%char (text "3")); [apply var_x|now apply word_numeral|lia|lia].
      * lia.
    + exists (text "2x^"), "3"%char. split; [reflexivity|cbv; lia].
    + apply pt_var, var_y.
    + lia.
  - apply ft_power; [apply pt_var, var_x|lia].
Qed.
Example c94_case : line_text integer_word readable (text "12x + 3x^2 - x") answer_terms /\ two_left answer_terms /\
  (forall k, Z.abs (total k answer_terms) < 100000) /\ exponents answer_terms (fun k => k < 100000) /\
  product_text integer_word readable typed_product typed_factors /\
  forall pw lg pwx lgx, let N := double_ops pw lg pwx lgx in
  session fmt5 stof 40 [str (text "12x + 3x^2 - x")] = ([Success "((11*x)+(3*(x^2)))"], AtEof) /\
  session fmt5 stof 40 [str typed_product] = ([Success "((2*(x^4))*y)"], AtEof).
Proof.
  split; [apply answer_line|]. split; [exists (Some ("x", 1)), (Some ("x", 2)); repeat split; discriminate|]. split; [|split; [|split; [apply answer_product|]]].
  - intros k. cbn -[key_eqb Z.abs Z.add]. destruct (key_eqb _ _), (key_eqb _ _); cbn; lia.
  - intros y k H. cbn in H. repeat (destruct H as [H|H]; [injection H as <- <-; lia|]). destruct H.
  - intros pw lg pwx lgx N. split; vm_compute; reflexivity.
Qed.
(** dd( 3x^4 - x^3 , x ), where pow squares by multiplication. *)
Definition square_pow (a _ : double) : double := @n_mul double (double_ops (fun a _ => a) (fun a => a) (fun _ _ => true) (fun _ => true)) a a.
Example c94_derivative_case : call_text integer_word readable "dd" dd_text dd_terms "x" /\ two_left (deriv "x" dd_terms) /\ two_left dd_terms /\
  (forall a z, d_int a z -> Z.abs (z * z) <= 2 ^ 53 -> d_int (square_pow a (d_of 2 0)) (z * z)) /\
  let N := double_ops square_pow (fun a => a) (fun _ _ => true) (fun _ => true) in
  session fmt5 stof 60 [str dd_text] = ([Success "((12*(x^3))+(-3*(x^2)))"], AtEof).
Proof.
  split; [|split; [|split; [|split]]].
  - apply (ct_call integer_word readable "dd" [] [" "%char] (text "3x^4 - x^3") dd_terms [" "%char] [" "%char] "x"%char [" "%char]);
      try apply one_blank; [intros ? []| |apply var_x].
    apply (lt_minus _ _ (text "3x^4") [(Some ("x", 4), 3)] [" "%char] [" "%char] (text "x^3") (Some ("x", 3), 1)); try apply one_blank.
    + apply lt_term, (tt_juxtaposed _ _ (text "3") 3 (text "x^4")); [now apply word_numeral|].
      apply (pt_pow _ _ "x"%char (text "4")); [apply var_x|now apply word_numeral|lia|lia].
    + apply tt_power, (pt_pow _ _ "x"%char (text "3")); [apply var_x|now apply word_numeral|lia|lia].
  - exists (Some ("x", 3)), (Some ("x", 2)); repeat split; discriminate.
  - exists (Some ("x", 4)), (Some ("x", 3)); repeat split; discriminate.
  - intros a z Ha B. apply (il_mul _ _ _ (double_ints _ _ _ _)); auto.
  - vm_compute. reflexivity.
Qed.
