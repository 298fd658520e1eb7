(** Properties C58, C62 and C94 for like terms: sums of multiples of one power. *)
From Coq Require Import String Ascii Bool Arith ZArith QArith Reals Lia.
From Flocq Require Import Core BinarySingleNaN.
From Coq Require Import List.
From Verif Require Import Base Num QNum Expr Simplify Calculus InFixSer FromInFix Frontends
  Spec SpecText SpecPoly SpecLine SpecNumeral SpecAnswer DoubleNum Numerals NumeralProofs PolyProofs LikeProofs
  PropertiesPoly PropertiesFrontends PropertiesNumeral PropertiesAnswer.
Import ListNotations.
Open Scope string_scope.
Open Scope Z_scope.
Open Scope list_scope.

(** All terms are multiples of [k]. *)
Definition alike (k : key) (ts : list monomial) : Prop := List.Forall (fun t => fst t = k) ts.
(** The total is shown as a coefficient: it is not 0, and not 1 in front of a power. *)
Definition clear (k : key) (z : Z) : Prop := z <> 0 /\ (k = None \/ z <> 1).

Lemma alike_total k ts j : alike k ts -> total j ts = if key_eqb j k then total k ts else 0.
Proof.
  induction 1 as [|t ts Ht _ IH]; [now destruct (key_eqb j k)|]. unfold total in *. cbn [fold_right]. rewrite Ht, IH, key_eqb_refl. destruct (key_eqb j k); lia.
Qed.
Lemma alike_combined {num} (lit : num -> Z -> Prop) k ts (r : expr num) : alike k ts -> neat lit r (k, total k ts) -> combined lit [r] ts.
Proof.
  intros Hk Hr. exists [(k, total k ts)]. split; [now repeat constructor|]. split; [constructor; [intros []|constructor]|].
  intros j. rewrite (alike_total k ts j Hk). unfold total at 1. cbn [fold_right fst snd]. destruct (key_eqb j k); lia.
Qed.
Lemma term_neat {num} (lit : num -> Z -> Prop) r k z : term lit false r (k, z) -> clear k z -> neat lit r (k, z).
Proof.
  intros H [C0 C1]. inversion H as [c z' Hc|p x j Hp|c z' p x j m Hc Hp Hm]; subst.
  - now constructor.
  - now constructor.
  - destruct Hm as [|Hm]; [|discriminate]. constructor; auto. destruct C1; congruence.
Qed.

(** ** C58 *)

(** Proved for sums, differences, negations and integer multiples of like
    terms: the result is one term with the total coefficient, or the number 0.
    It may be 0*x or 1*x (see c58_refuted); with other totals it is written
    as it should be. *)
Theorem c58_alike_partial : forall (num : Type) (N : NumOps num) lit ok, IntLits N lit ok ->
  forall prefer (e : expr num) ts k, poly lit ok prefer false e ts -> ok (weight ts) -> alike k ts ->
  exists r, always prefer e r /\ (term lit false r (k, total k ts) \/ total k ts = 0 /\ exists c, r = EReal c /\ lit c 0) /\
    (clear k (total k ts) -> neat lit r (k, total k ts) /\ combined lit [r] ts).
Proof.
  intros num N lit ok IL prefer e ts k He Hw Hk.
  destruct (alike_yields lit ok IL prefer false e ts k He eq_refl Hw Hk) as (r & Y & O). exists r. split; [now apply yields_always|]. split; [exact O|].
  intros C. destruct O as [O|[O _]]; [|destruct C; congruence]. assert (Hn : neat lit r (k, total k ts)) by now apply term_neat.
  split; [exact Hn|now apply (alike_combined lit k)].
Qed.
Print Assumptions c58_alike_partial.

(** ** C62 *)
Lemma one_printed {num} (lit : num -> Z -> Prop) fmt5 (r : expr num) k z :
  term lit false r (k, z) \/ z = 0 /\ (exists c, r = EReal c /\ lit c 0) -> exists t, infix fmt5 r = inl t.
Proof.
  intros [H|[_ (c & -> & _)]]; [|now eexists]. apply (plain_printed lit fmt5 false r [(k, z)]). now constructor.
Qed.
(** Like terms that are typed are answered by one term. *)
Theorem c62_alike_partial : forall (num : Type) (N : NumOps num) lit ok, IntLits N lit ok ->
  forall fmt5 stof, sane_numbers stof ->
  forall l ts k, line_text stof lit l ts -> ok (weight ts) -> alike k ts ->
  exists r t n0, (term lit false r (k, total k ts) \/ total k ts = 0 /\ exists c, r = EReal c /\ lit c 0) /\
    (clear k (total k ts) -> neat lit r (k, total k ts) /\ combined lit [r] ts) /\ infix fmt5 r = inl t /\
    forall n, (n0 <= n)%nat -> session fmt5 stof n [str l] = ([Success t], AtEof).
Proof.
  intros num N lit ok IL fmt5 stof sane l ts k H Hw Hk.
  destruct (typed_answer lit ok fmt5 stof sane l ts H Hw) as (e & He & A).
  destruct (c58_alike_partial num N lit ok IL false e ts k He Hw Hk) as (r & (n0 & Y) & O & C).
  destruct (one_printed lit fmt5 r k _ O) as (t & Ht). exists r, t, n0. repeat (split; auto); try apply C; auto.
  intros n L. apply (A r t n); auto.
Qed.
Print Assumptions c62_alike_partial.

(** ** C94 *)
(** With the machine's numbers: like terms are answered by the numeral of the
    total in front of their power. *)
Theorem c94_alike_partial : forall pw lg pwx lgx, let N := double_ops pw lg pwx lgx in
  forall l ts k, line_text integer_word readable l ts -> alike k ts -> clear k (total k ts) -> weight ts <= 2 ^ 53 ->
  Z.abs (total k ts) < 100000 -> exponents ts (fun k => k < 100000) ->
  exists t n0, term_shown t (k, total k ts) /\ forall n, (n0 <= n)%nat -> session fmt5 stof n [str l] = ([Success t], AtEof).
Proof.
  intros pw lg pwx lgx N l ts k H Hk C Hw B X. destruct (line_reads l ts H) as [H' Y].
  destruct (c62_alike_partial double N d_int d_ok (double_ints pw lg pwx lgx) fmt5 stof stof_sane l ts k H') as (r & t & n0 & _ & D & I & A); auto.
  { unfold d_ok. pose proof (weight_nonneg ts). lia. }
  destruct (D C) as [D' _]. destruct (term_prints r (k, total k ts) D' B) as (t' & E & S).
  - intros y j [K|[]]. cbn [fst] in K. subst k.
    assert (In (Some (y, j)) (keys ts)) as Hin by (apply total_in; apply C). specialize (X y j Hin). specialize (Y y j Hin). cbv beta in X, Y. lia.
  - rewrite I in E. injection E as <-. exists t, n0. auto.
Qed.
Print Assumptions c94_alike_partial.

(** 3x^2 - x^2 + 10x^2, and numbers alone: 2 + 3 - 10. *)
Definition like_terms : list monomial := [(Some ("x", 2), 3); (Some ("x", 2), -1); (Some ("x", 2), 10)].
Example c94_alike_case : line_text integer_word readable (text "3x^2 - x^2 + 10x^2") like_terms /\ alike (Some ("x", 2)) like_terms /\
  clear (Some ("x", 2)) (total (Some ("x", 2)) like_terms) /\ exponents like_terms (fun k => k < 100000) /\
  forall pw lg pwx lgx, let N := double_ops pw lg pwx lgx in
  session fmt5 stof 40 [str (text "3x^2 - x^2 + 10x^2")] = ([Success "(12*(x^2))"], AtEof) /\
  session fmt5 stof 40 [str (text "2 + 3 - 10")] = ([Success "-5"], AtEof).
Proof.
  assert (P : power_text integer_word readable (text "x^2") "x" 2) by (apply (pt_pow _ _ "x"%char (text "2")); [apply var_x|now apply word_numeral|lia|lia]).
  split; [|split; [|split; [|split]]].
  - apply (lt_plus _ _ (text "3x^2 - x^2") [(Some ("x", 2), 3); (Some ("x", 2), -1)] [" "%char] [" "%char] (text "10x^2") (Some ("x", 2), 10)); try apply one_blank.
    + apply (lt_minus _ _ (text "3x^2") [(Some ("x", 2), 3)] [" "%char] [" "%char] (text "x^2") (Some ("x", 2), 1)); try apply one_blank.
      * apply lt_term, (tt_juxtaposed _ _ (text "3") 3 (text "x^2")); [now apply word_numeral|exact P].
      * now apply tt_power.
    + apply (tt_juxtaposed _ _ (text "10") 10 (text "x^2")); [now apply word_numeral|exact P].
  - repeat constructor.
  - split; [discriminate|]. right. discriminate.
  - intros y k H. cbn in H. repeat (destruct H as [H|H]; [injection H as <- <-; lia|]). destruct H.
  - intros pw lg pwx lgx N. split; vm_compute; reflexivity.
Qed.
