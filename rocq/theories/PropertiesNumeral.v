(** Properties C86 to C90: how numbers are read and printed. *)
From Coq Require Import String Ascii Bool Arith ZArith QArith Reals Lra Lia.
From Flocq Require Import Core Relative BinarySingleNaN.
From Coq Require Import List.
From Verif Require Import Base Num Expr Simplify InFixSer FromInFix Frontends TeXSer
  SpecMarkup SpecText SpecPoly SpecLine SpecInput SpecNumeral DoubleNum Numerals NumeralProofs InFixProofs LineProofs InputProofs
  PropertiesFrontends PropertiesInput PropertiesTeX.
Import ListNotations.
Open Scope string_scope.
Open Scope Z_scope.
Open Scope list_scope.

Notation str := string_of_list_ascii.
(** The double nearest to a real number. *)
Notation round64 := (round radix2 (FLT_exp (-1074) 53) ZnearestE).
(** The float nearest to a real number. *)
Notation round32 := (round radix2 (FLT_exp (-149) 24) ZnearestE).

(** ** C86: A number is read as the double nearest to it *)
Definition C86_statement : Prop :=
  forall l v, decimal l v -> (Rabs v < bpow radix2 1023)%R ->
  exists x, stof (str l) = Some x /\ is_finite x = true /\ B2R x = round64 v.

(** 16777217 is read as 16777216. *)
Definition odd_text : list ascii := text "16777217".
Lemma odd_decimal : decimal odd_text (IZR 16777217).
Proof.
  apply dc_plus, us_plain. apply (pd_integer odd_text); [|discriminate]. intros c H. cbn in H.
  repeat (destruct H as [<-|H]; [cbv; lia|]). destruct H.
Qed.
Theorem c86_refuted : ~ C86_statement.
Proof.
  intros S. destruct (S odd_text _ odd_decimal) as (x & E & F & V).
  - rewrite Rabs_pos_eq by lra. apply Rlt_le_trans with (bpow radix2 30); [change (bpow radix2 30) with (IZR (2 ^ 30)); now apply IZR_lt|]. apply bpow_le. lia.
  - rewrite round_generic in V.
    2:{ apply valid_rnd_N. }
    2:{ apply (d_format 16777217). unfold d_ok. lia. }
    assert (K : Some x = Some (d_of 16777216 0)).
    { rewrite <- E. assert (K : option_map (fun x : double => B2SF x) (stof (str odd_text)) = option_map (fun x : double => B2SF x) (Some (d_of 16777216 0))) by (vm_compute; reflexivity).
      rewrite E in K |- *. cbn [option_map] in K. injection K as K. f_equal. apply B2SF_inj. now rewrite K. }
    injection K as ->. assert (O : d_int (d_of 16777216 0) 16777216) by (apply d_of_int; unfold d_ok; lia). destruct O as [_ O].
    assert (W : IZR 16777216 = IZR 16777217) by (rewrite <- O; exact V). apply eq_IZR in W. discriminate W.
Qed.
Print Assumptions c86_refuted.

(** Proved: it is read as the nearest float, so within 2^-24 of its size.
    Missing: the digits a float does not hold; numbers below 2^-126 and from
    2^128 on (c86_overflow). *)
Theorem c86_float_partial : forall l v, decimal l v -> (v = 0 \/ bpow radix2 (-126) <= Rabs v)%R -> (Rabs (round32 v) < bpow radix2 128)%R ->
  exists x, stof (str l) = Some x /\ is_finite x = true /\ B2R x = round32 v /\ (Rabs (B2R x - v) <= bpow radix2 (-24) * Rabs v)%R.
Proof.
  intros l v H Hv B. destruct (stof_decimal l v H Hv B) as (x & E & F & V). exists x. split; [exact E|]. split; [exact F|]. split; [exact V|].
  rewrite V. destruct Hv as [->|Hv].
  - rewrite round_0 by apply valid_rnd_N. rewrite Rminus_0_r, Rabs_R0. lra.
  - pose proof (relative_error_N_FLT radix2 (-149) 24 eq_refl (fun z => negb (Z.even z)) v) as K.
    replace (bpow radix2 (-24)) with (/ 2 * bpow radix2 (- (24) + 1))%R by (change (- (24) + 1) with (1 + -24); rewrite bpow_plus; change (bpow radix2 1) with 2%R; field).
    apply K. exact Hv.
Qed.
Print Assumptions c86_float_partial.

(** Numbers that are m * 2^e with at most 24 binary digits, for example the
    integers up to 2^24, are read exactly. *)
Theorem c86_exact_partial : forall l v m e, decimal l v -> v = (IZR m * bpow radix2 e)%R -> Z.abs m <= 2 ^ 24 -> -126 <= e <= 103 ->
  exists x, stof (str l) = Some x /\ is_finite x = true /\ B2R x = v.
Proof.
  intros l v m e H Ev Hm He.
  assert (K : forall m e, Z.abs m < 2 ^ 24 -> -149 <= e -> generic_format radix2 (FLT_exp (-149) 24) (F2R (Float radix2 m e))).
  { intros m' e' Hm' He'. apply (generic_format_FLT radix2 (-149) 24). exists (Float radix2 m' e'); [reflexivity|exact Hm'|exact He']. }
  assert (G : generic_format radix2 (FLT_exp (-149) 24) v).
  { destruct (Z.eq_dec (Z.abs m) (2 ^ 24)) as [E|E].
    - replace v with (F2R (Float radix2 (Z.sgn m) (24 + e))); [apply K; [pose proof (Z.sgn_spec m); lia|lia]|].
      rewrite Ev. unfold F2R. cbn [Fnum Fexp]. rewrite bpow_plus. replace m with (Z.sgn m * 2 ^ 24) at 2 by lia. rewrite mult_IZR.
      change (bpow radix2 24) with (IZR (2 ^ 24)). ring.
    - replace v with (F2R (Float radix2 m e)) by (rewrite Ev; reflexivity). apply K; lia. }
  destruct (c86_float_partial l v H) as (x & E & F & V & _).
  - destruct (Z.eq_dec m 0) as [->|Hz]; [left; rewrite Ev; ring|right]. rewrite Ev, Rabs_mult, (Rabs_pos_eq (bpow _ _)) by apply bpow_ge_0.
    rewrite <- abs_IZR. replace (bpow radix2 (-126)) with (1 * bpow radix2 (-126))%R by ring.
    apply Rmult_le_compat; [lra|apply bpow_ge_0|apply IZR_le; lia|apply bpow_le; lia].
  - rewrite round_generic by (try apply valid_rnd_N; exact G). rewrite Ev, Rabs_mult, (Rabs_pos_eq (bpow _ _)) by apply bpow_ge_0.
    rewrite <- abs_IZR. apply Rle_lt_trans with (bpow radix2 24 * bpow radix2 103)%R.
    + apply Rmult_le_compat; [apply IZR_le; lia|apply bpow_ge_0|change (bpow radix2 24) with (IZR (2 ^ 24)); now apply IZR_le|apply bpow_le; lia].
    + rewrite <- bpow_plus. apply bpow_lt. lia.
  - exists x. split; [exact E|]. split; [exact F|]. rewrite V. apply round_generic; [apply valid_rnd_N|exact G].
Qed.
Print Assumptions c86_exact_partial.
Theorem c86_integers_partial : forall l, digits l -> l <> [] -> natural l <= 2 ^ 24 -> numeral stof d_int l (natural l).
Proof.
  intros l Hd Hn Hl. split; [exact Hn|]. split; [exact Hd|].
  destruct (c86_exact_partial l (IZR (natural l)) (natural l) 0) as (x & E & F & V).
  - apply dc_plus, us_plain. now apply pd_integer.
  - cbn. ring.
  - pose proof (natural_bounds l Hd). lia.
  - lia.
  - exists x. split; [exact E|]. now split.
Qed.
Print Assumptions c86_integers_partial.

(** Larger integers are not numbers at all but variables. *)
Theorem c86_overflow : forall l, digits l -> l <> [] -> 2 ^ 128 <= natural l ->
  stof (str l) = None /\ from_infix stof true (preprocess (str l)) = ret (EVar (str l)).
Proof.
  intros l Hd Hn Hl. assert (N : stof (str l) = None).
  { apply (stof_overflow l (IZR (natural l))); [apply dc_plus, us_plain; now apply pd_integer|].
    rewrite Rabs_pos_eq by (apply IZR_le; lia). change (bpow radix2 128) with (IZR (2 ^ 128)). now apply IZR_le. }
  split; [exact N|]. assert (T : number_text l) by now apply digits_number.
  assert (Dc : exists c l', l = c :: l' /\ digit c) by apply T.
  assert (Wl : forall c, In c l -> ~ punct c /\ ~ blank c) by (intros c Hc; apply usual; right; left; now apply Hd).
  assert (NF : ~ function_name (str l)).
  { destruct Dc as (c & l' & -> & Hc). intros (o & K). cbn in K. inversion K; subst; cbv in Hc; lia. }
  apply (c82_reads_partial _ stof stof_sane l [str l]).
  - exists [str l], [str l]. split; [rewrite <- (app_nil_r l) at 1; apply lx_word; [exact Hn|exact Wl|exact I|constructor]|].
    split; [|split; [constructor|]].
    + change [str l] with ([str l] ++ []) at 2. apply lm_word; [exact NF|destruct l; [congruence|discriminate]| |constructor].
      rewrite list_ascii_of_string_of_list_ascii. rewrite <- (app_nil_r l) at 1. apply cut_number; [exact T|exact I|constructor].
    + do 3 apply ix_up. apply ix_operand, opd_var; [exact N| | |]; destruct Dc as (c & l' & -> & Hc); cbn.
      * intros K. repeat (destruct K as [K|K]; [injection K as <- _; cbv in Hc; lia|]). destruct K.
      * intros K. injection K as -> _. cbv in Hc; lia.
      * intros K. injection K as -> _. cbv in Hc; lia.
  - split; [exact I|]. intros [|? [|]] ? ? ? E; discriminate E.
Qed.
Print Assumptions c86_overflow.
Example c86_case : (exists x, stof "2.5" = Some x /\ is_finite x = true /\ B2R x = 2.5%R) /\ natural (text "16777216") = 2 ^ 24 /\
  2 ^ 128 <= natural (text "400000000000000000000000000000000000000").
Proof.
  split; [|split; [reflexivity|vm_compute; discriminate]].
  assert (D : decimal (text "2.5") (IZR (natural (text "2")) + IZR (natural (text "5")) / 10 ^ length (text "5"))).
  { apply dc_plus, us_plain. apply (pd_point (text "2") (text "5")); [| |discriminate]; intros c [<-|[]]; cbv; lia. }
  destruct (c86_exact_partial _ _ 5 (-1) D) as (x & E & F & V).
  - change (natural (text "2")) with 2. change (natural (text "5")) with 5. cbn. lra.
  - lia.
  - lia.
  - exists x. split; [exact E|]. split; [exact F|]. rewrite V. change (natural (text "2")) with 2. change (natural (text "5")) with 5. cbn. lra.
Qed.

(** ** C87: A number is printed with its value *)
Notation chars := list_ascii_of_string.
Definition C87_statement : Prop :=
  forall x : double, is_finite x = true -> decimal (chars (fmt5 x)) (B2R x).

(** 123456 is printed as 1.2346e+05. *)
Theorem c87_refuted : ~ C87_statement.
Proof.
  intros S. assert (O : d_int (d_of 123456 0) 123456) by (apply d_of_int; unfold d_ok; lia). destruct O as [F V].
  specialize (S _ F). rewrite V in S.
  destruct (c86_exact_partial _ _ 123456 0 S) as (x & E & Fx & Vx); [cbn; ring|lia|lia|].
  rewrite string_of_list_ascii_of_string in E. assert (K : x = d_of 123460 0).
  { assert (K : option_map (fun x : double => B2SF x) (stof (fmt5 (d_of 123456 0))) = Some (B2SF (d_of 123460 0))) by (vm_compute; reflexivity).
    rewrite E in K. cbn [option_map] in K. injection K as K. apply B2SF_inj. now rewrite K. }
  rewrite K in Vx. assert (O : d_int (d_of 123460 0) 123460) by (apply d_of_int; unfold d_ok; lia). destruct O as [_ O].
  assert (W : IZR 123460 = IZR 123456) by (rewrite <- O; exact Vx). apply eq_IZR in W. discriminate W.
Qed.
Print Assumptions c87_refuted.

(** Proved: the printed text is a decimal number, rounded to p significant
    digits (5 in infix notation, two after the first in TeX by default).
    Missing: the further digits. *)
Theorem c87_accuracy_partial : forall p (x : double), is_finite x = true -> (1 <= p)%nat ->
  exists v, decimal (chars (format_g p x)) v /\ (Rabs (v - B2R x) <= / 2 * powerRZ 10 (1 - Z.of_nat p) * Rabs (B2R x))%R.
Proof.
  intros p x F Hp. destruct (format_decimal p x F) as (v & D & A). rewrite Nat.max_r in A by exact Hp. rewrite (bpow_powerRZ radix10) in A. now exists v.
Qed.
Print Assumptions c87_accuracy_partial.
(** Integers with at most p digits are printed as their numerals. *)
Theorem c87_integers_partial : forall p (x : double) z, d_int x z -> (1 <= p)%nat -> Z.abs z < 10 ^ Z.of_nat p ->
  numeral_of z (chars (format_g p x)) \/ z = 0 /\ format_g p x = "-0".
Proof.
  intros p x z [F V] Hp B. apply format_integer; [exact F|exact V|]. now rewrite Nat.max_r.
Qed.
Print Assumptions c87_integers_partial.
Example c87_case : d_int (d_of 99999 0) 99999 /\ fmt5 (d_of 99999 0) = "99999" /\ fmt5 (d_of 100000 0) = "1e+05" /\ format_g 3 (d_of 1000 0) = "1e+03" /\
  fmt5 (d_of 5 (-1)) = "2.5" /\ fmt5 (d_of (-1) (-20)) = "-9.5367e-07".
Proof. split; [apply d_of_int; unfold d_ok; lia|]. repeat split; vm_compute; reflexivity. Qed.

(** No number has a backslash or a brace in its text, so TeX output is well
    nested whatever numbers an expression has (c47_well_nested). *)
Lemma decimal_chars l v : decimal l v -> forall c, In c l -> digit c \/ In c ["."; "e"; "+"; "-"]%char.
Proof.
  assert (P : forall l v, plain_decimal l v -> forall c, In c l -> digit c \/ In c ["."; "e"; "+"; "-"]%char).
  { intros l' v' [ip H _|ip fp H1 H2 _] c Hc; [left; now apply H|]. apply in_app_or in Hc.
    destruct Hc as [Hc|[<-|Hc]]; [left; now apply H1|right; now left|left; now apply H2]. }
  assert (U : forall l v, unsigned l v -> forall c, In c l -> digit c \/ In c ["."; "e"; "+"; "-"]%char).
  { intros l' v' [l0 v0 H|l0 v0 x k H Hx] c Hc; [now apply (P l0 v0)|]. apply in_app_or in Hc. destruct Hc as [Hc|Hc]; [now apply (P l0 v0)|].
    destruct Hx as [d Hd _|d Hd _]; destruct Hc as [<-|[<-|Hc]]; try (right; cbn; tauto); left; now apply Hd. }
  intros [l' v' H|l' v' H] c Hc; [now apply (U l' v')|]. destruct Hc as [<-|Hc]; [right; cbn; tauto|now apply (U l' v')].
Qed.
Lemma format_chars p x c : In c (list_ascii_of_string (format_g p x)) -> digit c \/ In c ["."; "e"; "+"; "-"; "i"; "n"; "f"; "a"]%char.
Proof.
  intros Hc. destruct (is_finite x) eqn:F.
  - destruct (format_decimal p x F) as (v & D & _). destruct (decimal_chars _ _ D c Hc) as [K|K]; [now left|right]. cbn in K |- *. tauto.
  - right. destruct x as [s|s| |s m e H]; try discriminate F; unfold format_g in Hc; rewrite list_ascii_of_string_of_list_ascii in Hc.
    + destruct s; cbn in Hc |- *; tauto.
    + cbn in Hc |- *; tauto.
Qed.
Lemma format_no_markup p x : no_markup (format_g p x).
Proof.
  intros c Hc. destruct (format_chars p x c Hc) as [K|K].
  - unfold digit in K. split; [|split]; intros ->; cbv in K; lia.
  - cbn in K. repeat (destruct K as [<-|K]; [split; [|split]; discriminate|]). destruct K.
Qed.
Theorem c87_tex : forall opts (e : expr double), names no_markup e -> exists s, tex format_g opts e = inl s /\ well_nested s.
Proof.
  intros opts e Hn. apply PropertiesTeX.c47_well_nested; [exact Hn|].
  assert (K : forall P : double -> Prop, (forall c, P c) -> numbers P e).
  { intros P HP. induction e; cbn [numbers]; auto.
    - apply List.Forall_forall. auto.
    - cbn [names] in Hn. tauto. }
  apply K. intros c k. apply format_no_markup.
Qed.
Print Assumptions c87_tex.

(** ** C89: What is printed is read back *)
Definition C89_statement : Prop :=
  forall x : double, is_finite x = true -> from_infix stof true (preprocess (fmt5 x)) = ret (EReal x).
Theorem c89_refuted : ~ C89_statement.
Proof.
  intros S. assert (O : d_int (d_of 100000 0) 100000) by (apply d_of_int; unfold d_ok; lia). destruct O as [F _].
  specialize (S _ F). assert (E : fmt5 (d_of 100000 0) = "1e+05") by (vm_compute; reflexivity). rewrite E in S.
  assert (K : match snd (from_infix stof true (preprocess "1e+05")) with Ok (EReal _) => false | _ => true end = true) by (vm_compute; reflexivity).
  rewrite S in K. discriminate K.
Qed.
Print Assumptions c89_refuted.

Lemma not_function c l : digit c -> ~ function_name (str (c :: l)).
Proof. intros Hc (o & K). cbn in K. inversion K; subst; cbv in Hc; lia. Qed.
Lemma plain_chars l : number_text l -> forall c, In c l -> ~ punct c /\ ~ blank c.
Proof. intros (H & _) c Hc. apply usual. right. now apply H. Qed.
Lemma plus_punct : punctuation "+" /\ punctuation "-".
Proof. split; apply punct_b_spec; reflexivity. Qed.

(* a number alone *)
Lemma number_means l x : number_text l -> stof (str l) = Some x -> from_infix stof true (preprocess (str l)) = ret (EReal x).
Proof.
  intros T E. assert (Dc : exists c l', l = c :: l' /\ digit c) by apply T. assert (Hn : l <> []) by (destruct Dc as (c & l' & -> & _); discriminate).
  assert (NF : ~ function_name (str l)) by (destruct Dc as (c & l' & -> & Hc); now apply not_function).
  apply (c82_reads_partial _ stof stof_sane l [str l]).
  - exists [str l], [str l]. split; [rewrite <- (app_nil_r l) at 1; apply lx_word; [exact Hn|now apply plain_chars|exact I|constructor]|].
    split; [|split; [constructor|]].
    + change [str l] with ([str l] ++ []) at 2. apply lm_word; [exact NF|destruct l; [congruence|discriminate]| |constructor].
      rewrite list_ascii_of_string_of_list_ascii. rewrite <- (app_nil_r l) at 1. apply cut_number; [exact T|exact I|constructor].
    + do 3 apply ix_up. apply ix_operand, opd_number, E.
  - split; [exact I|]. intros [|? [|]] ? ? ? K; discriminate K.
Qed.

(* a number with an exponent, perhaps after a minus sign *)
Definition minus (b : bool) (l : list ascii) : list ascii := if b then "-"%char :: l else l.
Definition minus_word (b : bool) (ts : list string) : list string := if b then "-" :: ts else ts.
Lemma minus_lexed b l t ts us w : lexed l (t :: ts) -> lexemes (t :: ts) (w :: us) ->
  lexed (minus b l) (minus_word b (t :: ts)) /\ lexemes (minus_word b (t :: ts)) (minus_word b (w :: us)) /\
  forall vs, multiplied (w :: us) vs -> multiplied (minus_word b (w :: us)) (minus_word b vs).
Proof.
  intros H K. destruct b; [|auto]. cbn [minus minus_word]. split; [|split].
  - apply (lx_punct "-"%char); [cbn; tauto|exact H].
  - apply lm_punct; [apply plus_punct|exact K].
  - intros vs M. apply mu_next; [|exact M]. intros [[E|[E _]] _]; [discriminate E|apply E, plus_punct].
Qed.
Lemma number_tokens b l : number_text l -> tokens (preprocess (str (minus b l))) = minus_word b [str l].
Proof.
  intros T. assert (Dc : exists c l', l = c :: l' /\ digit c) by apply T. assert (Hn : l <> []) by (destruct Dc as (c & l' & -> & _); discriminate).
  assert (NF : ~ function_name (str l)) by (destruct Dc as (c & l' & -> & Hc); now apply not_function).
  assert (L : lexed l [str l]) by (rewrite <- (app_nil_r l) at 1; apply lx_word; [exact Hn|now apply plain_chars|exact I|constructor]).
  assert (X : lexemes [str l] [str l]).
  { change [str l] with ([str l] ++ []) at 2. apply lm_word; [exact NF|destruct l; [congruence|discriminate]| |constructor].
    rewrite list_ascii_of_string_of_list_ascii. rewrite <- (app_nil_r l) at 1. apply cut_number; [exact T|exact I|constructor]. }
  destruct (minus_lexed b l _ _ _ _ L X) as (A & B & C). apply (typed_tokens _ _ _ _ A B (C _ (mu_one _))).
  destruct b; cbn [minus_word]; (split; [|intros [|? [|? [|]]] ? ? ? K; try discriminate K]).
  - split; [left; apply plus_punct|exact I].
  - injection K as <- <- <-. repeat split; intros [K1 K2]; discriminate K1.
  - exact I.
Qed.
Lemma scientific_tokens b m s k : number_text m -> digits k -> k <> [] -> s = "+"%char \/ s = "-"%char ->
  tokens (preprocess (str (minus b (m ++ "e"%char :: s :: k)))) = minus_word b [str m; "*"; "e"; String s ""; str k].
Proof.
  intros T Hk Hn Hs. assert (Dc : exists c l', m = c :: l' /\ digit c) by apply T.
  assert (Tk : number_text k) by now apply digits_number.
  assert (Dk : exists c l', k = c :: l' /\ digit c) by apply Tk.
  assert (NF : ~ function_name (str (m ++ ["e"%char]))) by (destruct Dc as (c & l' & -> & Hc); now apply not_function).
  assert (NF' : ~ function_name (str m)) by (destruct Dc as (c & l' & -> & Hc); now apply not_function).
  assert (NK : ~ function_name (str k)) by (destruct Dk as (c & l' & -> & Hc); now apply not_function).
  assert (NP : forall l : list ascii, (exists c l', l = c :: l' /\ digit c) -> ~ punctuation (str l)).
  { intros l (c & l' & -> & Hc) (c' & K & P). cbn in K. injection K as -> _.
    assert (U : ~ punct c' /\ ~ blank c') by (apply usual; right; now left). now apply U. }
  assert (Hp : punctuation (String s "")) by (destruct Hs as [-> | ->]; apply plus_punct).
  assert (Hq : punct s) by (destruct Hs as [-> | ->]; cbn; tauto).
  assert (Pe : ~ punctuation "e") by (intros K; apply punct_b_spec in K; discriminate K).
  assert (Fe : ~ function_name "e") by (intros (o & K); inversion K).
  assert (Le : letter "e") by (cbv; lia).
  assert (L : lexed (m ++ "e"%char :: s :: k) [str (m ++ ["e"%char]); String s ""; str k]).
  { replace (m ++ "e"%char :: s :: k) with ((m ++ ["e"%char]) ++ s :: k) by now rewrite <- app_assoc.
    apply lx_word; [destruct m; discriminate| |left; exact Hq|apply lx_punct; [exact Hq|]].
    - intros c Hc. apply in_app_or in Hc. destruct Hc as [Hc|[<-|[]]]; [now apply (plain_chars m)|]. apply usual. now left.
    - rewrite <- (app_nil_r k) at 1. apply lx_word; [exact Hn|now apply plain_chars|exact I|constructor]. }
  assert (X : lexemes [str (m ++ ["e"%char]); String s ""; str k] [str m; "e"; String s ""; str k]).
  { change [str m; "e"; String s ""; str k] with ([str m; "e"] ++ [String s ""; str k]). apply lm_word; [exact NF|destruct m; discriminate| |].
    - rewrite list_ascii_of_string_of_list_ascii. apply cut_number; [exact T|exact Le|]. apply cut_letter; [exact Le|constructor].
    - apply lm_punct; [exact Hp|]. change [str k] with ([str k] ++ []) at 2. apply lm_word; [exact NK|destruct k; [congruence|discriminate]| |constructor].
      rewrite list_ascii_of_string_of_list_ascii. rewrite <- (app_nil_r k) at 1. apply cut_number; [exact Tk|exact I|constructor]. }
  assert (M : multiplied [str m; "e"; String s ""; str k] [str m; "*"; "e"; String s ""; str k]).
  { apply mu_star; [right; split; [now apply NP|exact NF']|now right|]. apply mu_next.
    - intros [_ [K|K]]; [destruct Hs as [-> | ->]; discriminate K|now apply K].
    - apply mu_next; [|constructor]. intros [[K|[K _]] _]; [destruct Hs as [-> | ->]; discriminate K|now apply K]. }
  destruct (minus_lexed b _ _ _ _ _ L X) as (A & B & C). apply (typed_tokens _ _ _ _ A B (C _ M)).
  assert (S : separated [str (m ++ ["e"%char]); String s ""; str k]) by (split; [now right|]; split; [now left|exact I]).
  assert (Q1 : str (m ++ ["e"%char]) <> "(" /\ str (m ++ ["e"%char]) <> ")" /\ str (m ++ ["e"%char]) <> ",").
  { destruct Dc as (c & l' & -> & Hc). cbn. repeat split; intros K; injection K as -> K; cbv in Hc; lia. }
  assert (Q2 : String s "" <> "(" /\ String s "" <> ")" /\ String s "" <> ",") by (destruct Hs as [-> | ->]; repeat split; discriminate).
  destruct b; cbn [minus_word]; (split; [try (split; [left; apply plus_punct|]); exact S|]).
  - intros [|? [|? [|? [|? [|]]]]] t u ts2 E; try discriminate E; injection E; intros; subst; repeat split; intros [K1 K2]; try discriminate K1; tauto.
  - intros [|? [|? [|? [|]]]] t u ts2 E; try discriminate E; injection E; intros; subst; repeat split; intros [K1 K2]; try discriminate K1; tauto.
Qed.

Lemma str_chars s l : chars s = l -> s = str l.
Proof. intros <-. symmetry. apply string_of_list_ascii_of_string. Qed.
Lemma pow10_large k : (1 <= k)%Z -> (10 <= bpow radix10 k)%R.
Proof. intros H. apply Rle_trans with (bpow radix10 1); [cbn; lra|now apply bpow_le]. Qed.

(** Proved: a positive number that is printed without an exponent is read back
    as a number, up to the 5 digits printed and the float it is read as.
    Missing: equality (c89_integers_partial has it for integers); numbers
    printed with an exponent (c89_scientific) and negative numbers
    (c89_negative), which are never read back. *)
Lemma fixed_text : forall x : double, is_finite x = true -> (0.0001 <= B2R x < 99999.5)%R ->
  exists y, number_text (chars (fmt5 x)) /\ stof (fmt5 x) = Some y /\ is_finite y = true /\ (Rabs (B2R y - B2R x) <= 0.00006 * B2R x)%R.
Proof.
  intros x F [B1 B2]. destruct (finite_text 5 x F ltac:(lra) ltac:(lia)) as (n & d & s & Hn & Hd & HL & E & T & P).
  assert (s = false) as -> by (destruct s; [unfold signed in E; lra|reflexivity]). cbn [signed] in E. rewrite E in *. cbn [app] in T.
  destruct (leading_spec n d Hn Hd) as [L1 L2].
  assert (C1 : (leading n d < 5)%Z).
  { apply (lt_bpow radix10). change (bpow radix10 5) with 100000%R. lra. }
  assert (C2 : (-5 < leading n d)%Z).
  { enough ((-4 < leading n d + 1)%Z) by lia. apply (lt_bpow radix10). change (bpow radix10 (-4)) with (/ 10000)%R. lra. }
  destruct (general_shape 5 n d ltac:(lia) Hn Hd HL) as (X & v & EX & Hv & A & S).
  assert (A5 : (bpow radix10 (leading n d - Z.of_nat 5 + 1) <= 0.0001 * (IZR n / IZR d))%R).
  { replace (leading n d - Z.of_nat 5 + 1)%Z with (-4 + leading n d)%Z by lia. rewrite bpow_plus. change (bpow radix10 (-4)) with (/ 10000)%R. lra. }
  set (q := (IZR n / IZR d)%R) in *.
  destruct S as [(HX & D & N)|([C|C] & _)].
  - assert (V : (Rabs (v - q) <= 0.00005 * q)%R) by lra. apply Rabs_le_inv in V.
    assert (Dv : decimal (general 5 n d) v) by now apply dc_plus, us_plain.
    assert (Bv : (0.00009 <= v < 110000)%R) by lra.
    destruct (c86_float_partial _ v Dv) as (y & Ey & Fy & _ & Ay).
    + right. rewrite Rabs_pos_eq by lra. apply Rle_trans with (bpow radix2 (-14)); [apply bpow_le; lia|]. change (bpow radix2 (-14)) with (/ 16384)%R. lra.
    + assert (K : (Rabs (round32 v) <= bpow radix2 17)%R); [|apply Rle_lt_trans with (1 := K); apply bpow_lt; lia].
      apply abs_round_le_generic; [apply FLT_exp_valid; reflexivity|apply valid_rnd_N|apply generic_format_bpow; unfold FLT_exp; lia|].
      rewrite Rabs_pos_eq by lra. change (bpow radix2 17) with 131072%R. lra.
    + exists y. split; [unfold fmt5; rewrite T; exact N|]. split; [unfold fmt5; now rewrite (str_chars _ _ T)|]. split; [exact Fy|].
      * rewrite (Rabs_pos_eq v) in Ay by lra. change (bpow radix2 (-24)) with (/ 16777216)%R in Ay. apply Rabs_le_inv in Ay. apply Rabs_le. lra.
  - exfalso. lia.
  - exfalso. assert (X = 5%Z) by lia. subst X. change (bpow radix10 5) with 100000%R in Hv.
    assert (leading n d = 4)%Z as E4 by lia. rewrite E4 in A. change (bpow radix10 (4 - Z.of_nat 5 + 1)) with 1%R in A. apply Rabs_le_inv in A. lra.
Qed.
Theorem c89_fixed_partial : forall x : double, is_finite x = true -> (0.0001 <= B2R x < 99999.5)%R ->
  exists y, from_infix stof true (preprocess (fmt5 x)) = ret (EReal y) /\ is_finite y = true /\ (Rabs (B2R y - B2R x) <= 0.00006 * B2R x)%R.
Proof.
  intros x F B. destruct (fixed_text x F B) as (y & N & E & Fy & A). exists y. split; [|now split].
  rewrite (str_chars (fmt5 x) _ eq_refl) in E |- *. now apply number_means.
Qed.
Print Assumptions c89_fixed_partial.
Theorem c89_integers_partial : forall (x : double) z, d_int x z -> 0 < z < 100000 -> from_infix stof true (preprocess (fmt5 x)) = ret (EReal x).
Proof.
  intros x z [F V] Hz. destruct (c87_integers_partial 5 x z (conj F V)) as [H|[H _]]; [lia|lia| |lia].
  assert (K : exists l, chars (fmt5 x) = l /\ digits l /\ l <> [] /\ natural l = z).
  { exists (chars (fmt5 x)). split; [reflexivity|]. unfold fmt5. destruct H as [|c l Hl Hc|z l Hp H]; [lia| |lia]. split; [exact Hl|]. now split. }
  destruct K as (l & El & Hl & Hn & Ez). destruct (c86_integers_partial l Hl Hn ltac:(lia)) as (_ & _ & y & Ey & Fy & Vy).
  assert (y = x) as ->.
  { apply B2R_inj; [| |now rewrite V, Vy, Ez].
    - destruct y as [s|s| |s m e Hb]; try discriminate Fy; [|reflexivity]. cbn [B2R] in Vy. apply eq_IZR in Vy. lia.
    - destruct x as [s|s| |s m e Hb]; try discriminate F; [|reflexivity]. cbn [B2R] in V. apply eq_IZR in V. lia. }
  rewrite (str_chars _ _ El). apply number_means; [now apply digits_number|exact Ey].
Qed.
Print Assumptions c89_integers_partial.

(** 1e+05 is read as 1 times Euler's number plus 5. *)
Theorem c89_scientific : forall x : double, is_finite x = true -> (0 < B2R x)%R ->
  ((100000 <= B2R x)%R -> exists m k : double, from_infix stof true (preprocess (fmt5 x)) = ret (EAdd (EMul (EReal m) EEuler) (EReal k))) /\
  ((B2R x < 0.00001)%R -> exists m k : double, from_infix stof true (preprocess (fmt5 x)) = ret (ESub (EMul (EReal m) EEuler) (EReal k))).
Proof.
  intros x F Hx. destruct (finite_text 5 x F ltac:(lra) ltac:(lia)) as (n & d & s & Hn & Hd & HL & E & T & P).
  assert (s = false) as -> by (destruct s; [unfold signed in E; lra|reflexivity]). cbn [signed] in E. rewrite E in *. cbn [app] in T.
  destruct (leading_spec n d Hn Hd) as [L1 L2]. destruct (general_shape 5 n d ltac:(lia) Hn Hd HL) as (X & v & EX & _ & _ & S).
  assert (R : forall m k w s, general 5 n d = m ++ "e"%char :: s :: k -> plain_decimal m w -> number_text m -> (1 <= w < 10)%R -> digits k -> k <> [] -> natural k = Z.abs X ->
    s = "+"%char \/ s = "-"%char -> exists cm ck : double, from_infix stof true (preprocess (fmt5 x)) = ret (EBin (if Ascii.eqb s "+" then OAdd else OSub) (EMul (EReal cm) EEuler) (EReal ck))).
  { intros m k w s Eg Dm Nm Bw Dk Nk Ek Hs. destruct (c86_float_partial m w) as (cm & Em & _).
    - now apply dc_plus, us_plain.
    - right. rewrite Rabs_pos_eq by lra. apply Rle_trans with (bpow radix2 0); [apply bpow_le; lia|cbn; lra].
    - assert (K : (Rabs (round32 w) <= bpow radix2 4)%R); [|apply Rle_lt_trans with (1 := K); apply bpow_lt; lia].
      apply abs_round_le_generic; [apply FLT_exp_valid; reflexivity|apply valid_rnd_N|apply generic_format_bpow; unfold FLT_exp; lia|].
      rewrite Rabs_pos_eq by lra. change (bpow radix2 4) with 16%R. lra.
    - destruct (c86_integers_partial k Dk Nk) as (_ & _ & ck & Ec & _); [lia|]. exists cm, ck. unfold fmt5. rewrite (str_chars _ _ T), Eg.
      apply (from_infix_tokens stof true); [apply stof_sane|]. change (m ++ "e"%char :: s :: k) with (minus false (m ++ "e"%char :: s :: k)). rewrite (scientific_tokens false m s k Nm Dk Nk Hs). cbn [minus_word].
      change [str m; "*"; "e"; String s ""; str k] with (([str m] ++ "*" :: ["e"]) ++ String s "" :: [str k]).
      assert (Op : operator (String s "") (if Ascii.eqb s "+" then OAdd else OSub) 1) by (destruct Hs as [-> | ->]; constructor).
      eapply ix_op; [exact Op| |do 2 apply ix_up; apply ix_operand, opd_number, Ec].
      apply ix_up. eapply ix_op; [constructor|do 2 apply ix_up; apply ix_operand, opd_number, Em|]. apply ix_up. apply ix_operand, opd_e. apply (proj2 stof_sane "e"%char). cbv; lia. }
  split; intros B.
  - assert (C : (5 < leading n d + 1)%Z) by (apply (lt_bpow radix10); change (bpow radix10 5) with 100000%R; lra).
    destruct S as [(HX & _)|(_ & m & k & w & Eg & Dm & Nm & Bw & Dk & Nk & Ek & _)]; [lia|]. destruct (Z.ltb_spec X 0); [lia|].
    exact (R m k w "+"%char Eg Dm Nm Bw Dk Nk Ek (or_introl eq_refl)).
  - assert (C : (leading n d < -5)%Z) by (apply (lt_bpow radix10); change (bpow radix10 (-5)) with (/ 100000)%R; lra).
    destruct S as [(HX & _)|(_ & m & k & w & Eg & Dm & Nm & Bw & Dk & Nk & Ek & _)]; [lia|]. destruct (Z.ltb_spec X 0); [|lia].
    exact (R m k w "-"%char Eg Dm Nm Bw Dk Nk Ek (or_intror eq_refl)).
Qed.
Print Assumptions c89_scientific.

(** Negative numbers are rejected. *)
Lemma wt_digit c l : digit c -> wt (str (c :: l)) = 1%Z.
Proof.
  intros Hc. apply wt_operand. cbn [string_of_list_ascii]. intros K. cbn in K.
  repeat (destruct K as [K|K]; [injection K as <- _; cbv in Hc; lia|]). destruct K.
Qed.
Theorem c89_negative : forall x : double, is_finite x = true -> (B2R x < 0)%R -> exists m, snd (from_infix stof true (preprocess (fmt5 x))) = Err m.
Proof.
  intros x F Hx. destruct (finite_text 5 x F ltac:(lra) ltac:(lia)) as (n & d & s & Hn & Hd & HL & E & T & P).
  assert (s = true) as -> by (destruct s; [reflexivity|unfold signed in E; lra]). change (chars (format_g 5 x) = minus true (general 5 n d)) in T.
  destruct (general_shape 5 n d ltac:(lia) Hn Hd HL) as (X & v & EX & _ & _ & S). unfold fmt5. rewrite (str_chars _ _ T).
  apply (PropertiesInFix.c41_counts_partial stof true (proj1 stof_sane) _ (tokens (preprocess (str (minus true (general 5 n d)))))); [apply words_of_tokens|]. right.
  assert (O : forall l, number_text l -> wt (str l) = 1%Z) by (intros l N; destruct N as (_ & (c & l' & -> & Hc) & _); now apply wt_digit).
  apply Nat2Z.inj_le. enough (W (tokens (preprocess (str (minus true (general 5 n d))))) <= 0)%Z as K by (rewrite W_counts in K; lia).
  destruct S as [(_ & _ & N)|(_ & m & k & w & Eg & _ & N & _ & Dk & Nk & _)].
  - rewrite number_tokens by exact N. cbn [minus_word]. rewrite !W_cons, (O _ N). vm_compute. discriminate.
  - rewrite Eg, scientific_tokens; [|exact N|exact Dk|exact Nk|destruct (X <? 0); auto]. cbn [minus_word].
    rewrite !W_cons, (O _ N), (O k) by now apply digits_number. destruct (X <? 0); vm_compute; discriminate.
Qed.
Print Assumptions c89_negative.
Example c89_case : d_int (d_of 12345 0) 12345 /\ fmt5 (d_of 5 (-1)) = "2.5" /\ fmt5 (d_of (-5) (-1)) = "-2.5" /\ fmt5 (d_of 1 17) = "1.3107e+05" /\ fmt5 (d_of 1 (-17)) = "7.6294e-06".
Proof. split; [apply d_of_int; unfold d_ok; lia|]. repeat split; vm_compute; reflexivity. Qed.

(** ** C88: Typed integer arithmetic is answered with its value *)
Section C88.
  Variable pw : double -> double -> double.
  Variable lg : double -> double.
  Variable pwx : double -> double -> bool.
  Variable lgx : double -> bool.
  Local Instance N : NumOps double := double_ops pw lg pwx lgx.

  Definition C88_statement : Prop :=
    forall l ts (e : expr Z) z, means integer_word l ts e -> clear ts -> integer_value (fun c z => c = z) (fun _ => True) e z ->
    exists n0 t, (forall n, (n0 <= n)%nat -> session fmt5 stof n [str l] = ([Success t], AtEof)) /\ numeral_of z (chars t).

  (** 100000 is answered with 1e+05. *)
  Theorem c88_refuted : ~ C88_statement.
  Proof.
    intros S. destruct (S (text "100000") ["100000"] (EReal 100000) 100000) as (n0 & t & A & H).
    - apply (means_intro integer_word (text "100000")); [vm_compute; reflexivity|]. change (infix_of integer_word "i" 1 ["100000"] (EReal 100000)).
      do 3 apply ix_up. apply ix_operand, opd_number. vm_compute. reflexivity.
    - apply clear_intro. vm_compute. reflexivity.
    - now constructor.
    - assert (M : means stof (text "100000") ["100000"] (EReal (d_of 100000 0))).
      { apply (means_intro stof (text "100000")); [vm_compute; reflexivity|]. change (infix_of stof "i" 1 ["100000"] (EReal (d_of 100000 0))).
        do 3 apply ix_up. apply ix_operand, opd_number.
        assert (K : option_map (fun x : double => B2SF x) (stof "100000") = Some (B2SF (d_of 100000 0))) by (vm_compute; reflexivity).
        destruct (stof "100000") as [x|]; [|discriminate K]. cbn [option_map] in K. injection K as K. f_equal. apply B2SF_inj. now rewrite K. }
      destruct (c83_integers_partial double N d_int d_ok (double_ints pw lg pwx lgx) fmt5 stof stof_sane _ _ _ 100000 M) as (c & n1 & Hc & A').
      + apply clear_intro. vm_compute. reflexivity.
      + constructor. apply d_of_int. unfold d_ok. lia.
      + specialize (A _ (Nat.le_max_l n0 n1)). specialize (A' _ (Nat.le_max_r n0 n1)). rewrite A in A'. injection A' as ->.
        assert (c = d_of 100000 0) as ->.
        { destruct Hc as [F V]. assert (O : d_int (d_of 100000 0) 100000) by (apply d_of_int; unfold d_ok; lia). destruct O as [F' V'].
          apply B2R_inj; [| |now rewrite V, V'].
          - destruct c as [s|s| |s m e Hb]; try discriminate F; [|reflexivity]. cbn [B2R] in V. apply eq_IZR in V. discriminate V.
          - vm_compute. reflexivity. }
        assert (K : chars (fmt5 (d_of 100000 0)) = text "1e+05") by (vm_compute; reflexivity). rewrite K in H.
        inversion H as [|c l D _|]; subst. specialize (D "e"%char (or_intror (or_introl eq_refl))). cbv in D. lia.
  Qed.

  (* the same words, read with stof *)
  Lemma integers_read k us (e : expr Z) : infix_of integer_word "i" k us e -> forall z, integer_value (fun c z => c = z /\ z <= 2 ^ 24) d_ok e z ->
    exists e' : expr double, infix_of stof "i" k us e' /\ integer_value d_int d_ok e' z.
  Proof.
    induction 1 as [t e H|ts e H IH|f o ts a us b Hf H1 IH1 H2 IH2|s o k ts a us b Hs H1 IH1 H2 IH2|k ts e H IH]; intros z V.
    - destruct H as [t c Hc|Hc|Hc|t Hc H1 H2 H3]; inversion V as [c' z' [E L]| | |]; subst. unfold integer_word in Hc.
      assert (K : exists l, chars t = l /\ digits l /\ l <> [] /\ natural l = z).
      { destruct (chars t) as [|c l] eqn:Et; [discriminate Hc|]. destruct (forallb _ _) eqn:Ed; [|discriminate Hc]. injection Hc as <-.
        exists (c :: l). split; [reflexivity|]. split; [|split; [discriminate|reflexivity]]. intros x Hx. rewrite forallb_forall in Ed. specialize (Ed x Hx).
        apply andb_true_iff in Ed. destruct Ed as [E1 E2]. apply Nat.leb_le in E1, E2. now split. }
      destruct K as (l & El & Hl & Hn & Ez). destruct (c86_integers_partial l Hl Hn ltac:(lia)) as (_ & _ & y & Ey & Dy).
      exists (EReal y). rewrite Ez in Dy. split; [|now constructor]. apply ix_operand, opd_number. now rewrite (str_chars _ _ El).
    - destruct (IH z V) as (e' & I' & V'). exists e'. split; [now apply ix_paren|exact V'].
    - exfalso. destruct Hf; inversion V.
    - inversion V as [|a' b' x y V1 V2 Hok|a' b' x y V1 V2 Hok|a' b' x y V1 V2 Hok]; subst;
        destruct (IH1 _ V1) as (a2 & I1 & W1), (IH2 _ V2) as (b2 & I2 & W2).
      + exists (EAdd a2 b2). split; [now apply ix_op with (k := k)|now constructor].
      + exists (ESub a2 b2). split; [now apply ix_op with (k := k)|now constructor].
      + exists (EMul a2 b2). split; [now apply ix_op with (k := k)|now constructor].
    - destruct (IH z V) as (e' & I' & V'). exists e'. split; [now apply ix_up|exact V'].
  Qed.
  Lemma integers_mean l ts (e : expr Z) z : means integer_word l ts e -> integer_value (fun c z => c = z /\ z <= 2 ^ 24) d_ok e z ->
    exists e' : expr double, means stof l ts e' /\ integer_value d_int d_ok e' z.
  Proof.
    intros (ps & us & Hl & Hp & Hm & Hi) V. destruct (integers_read 1 us e Hi z V) as (e' & I' & V'). exists e'. split; [|exact V']. now exists ps, us.
  Qed.

  (** Proved: if the numbers typed are at most 2^24 and no result on the way
      exceeds 2^53, the answer is the value of the text, rounded to 5 digits;
      if it has at most 5 digits, the answer is its numeral, or -0.
      Missing: answers with more digits; larger numbers, which are rounded
      (c86_refuted) or are read as variables (c86_overflow). *)
  Theorem c88_integers_partial : forall l ts (e : expr Z) z,
    means integer_word l ts e -> clear ts -> integer_value (fun c z => c = z /\ z <= 2 ^ 24) d_ok e z -> Z.abs z < 100000 ->
    exists n0 t, (forall n, (n0 <= n)%nat -> session fmt5 stof n [str l] = ([Success t], AtEof)) /\ (numeral_of z (chars t) \/ z = 0 /\ t = "-0").
  Proof.
    intros l ts e z M C V B. destruct (integers_mean l ts e z M V) as (e' & M' & V').
    destruct (c83_integers_partial double N d_int d_ok (double_ints pw lg pwx lgx) fmt5 stof stof_sane l ts e' z M' C V') as (c & n0 & Hc & A).
    exists n0, (fmt5 c). split; [exact A|]. apply (c87_integers_partial 5 c z Hc); lia.
  Qed.
  Theorem c88_rounded_partial : forall l ts (e : expr Z) z,
    means integer_word l ts e -> clear ts -> integer_value (fun c z => c = z /\ z <= 2 ^ 24) d_ok e z ->
    exists n0 t v, (forall n, (n0 <= n)%nat -> session fmt5 stof n [str l] = ([Success t], AtEof)) /\
      decimal (chars t) v /\ (Rabs (v - IZR z) <= 0.00005 * Rabs (IZR z))%R.
  Proof.
    intros l ts e z M C V. destruct (integers_mean l ts e z M V) as (e' & M' & V').
    destruct (c83_integers_partial double N d_int d_ok (double_ints pw lg pwx lgx) fmt5 stof stof_sane l ts e' z M' C V') as (c & n0 & [F Hc] & A).
    destruct (c87_accuracy_partial 5 c F ltac:(lia)) as (v & D & Av). exists n0, (fmt5 c), v. split; [exact A|]. split; [exact D|].
    rewrite Hc in Av. change (powerRZ 10 (1 - Z.of_nat 5)) with (/ (10 * (10 * (10 * (10 * 1)))))%R in Av. lra.
  Qed.
End C88.
Print Assumptions c88_refuted.
Print Assumptions c88_integers_partial.
Print Assumptions c88_rounded_partial.

(** 12 - 3(4 - 2*5) is answered with 30. *)
Definition sum_tree_z : expr Z := ESub (EReal 12) (EMul (EReal 3) (ESub (EReal 4) (EMul (EReal 2) (EReal 5)))).
Example c88_case : means integer_word sum_text (wd sum_text) sum_tree_z /\ clear (wd sum_text) /\
  integer_value (fun c z => c = z /\ z <= 2 ^ 24) d_ok sum_tree_z (12 - 3 * (4 - 2 * 5)) /\ numeral_of (12 - 3 * (4 - 2 * 5)) (text "30").
Proof.
  split; [|split; [apply clear_intro; vm_compute; reflexivity|split]].
  - apply means_intro; [vm_compute; reflexivity|].
    change (infix_of integer_word "i" 1 (["12"] ++ "-" :: (["3"] ++ "*" :: ("(" :: (["4"] ++ "-" :: (["2"] ++ "*" :: ["5"])) ++ [")"]))) sum_tree_z).
    eapply ix_op; [constructor|do 3 apply ix_up; leaf|]. eapply ix_op; [constructor|do 2 apply ix_up; leaf|]. apply ix_up. apply ix_paren.
    eapply ix_op; [constructor|do 3 apply ix_up; leaf|]. eapply ix_op; [constructor|do 2 apply ix_up; leaf|apply ix_up; leaf].
  - repeat first [apply iv_sub | apply iv_mul | apply iv_number; split; [reflexivity|lia] | unfold d_ok; lia].
  - change (12 - 3 * (4 - 2 * 5)) with (natural ("3"%char :: ["0"%char])). apply no_positive; [|discriminate].
    intros c [<-|[<-|[]]]; cbv; lia.
Qed.
(** (1-2)0 is answered with -0, and 50000+50000 with 1e+05. *)
Example c88_signed_zero : forall pw lg pwx lgx, let N := double_ops pw lg pwx lgx in
  session fmt5 stof 20 ["(1-2)0"] = ([Success "-0"], AtEof) /\ session fmt5 stof 20 ["50000+50000"] = ([Success "1e+05"], AtEof).
Proof. intros pw lg pwx lgx N0. split; vm_compute; reflexivity. Qed.

(** ** C90: Only decimal numbers are read as numbers *)
Definition C90_statement : Prop :=
  forall l qs x, cut l qs -> from_infix stof true (preprocess (str l)) = ret (EReal x) -> exists v, decimal l v.

(** 1.2.3 is read as 1.2. *)
Lemma skip_digit c l : digit c -> scan_sign (skip_space (c :: l)) = (false, c :: l).
Proof.
  intros Hc. assert (S : is_space c = false).
  { unfold is_space. unfold digit in Hc. apply orb_false_iff. split; [apply Nat.eqb_neq; lia|]. apply andb_false_iff. right. apply Nat.leb_gt. lia. }
  cbn [skip_space]. rewrite S. cbn [scan_sign].
  destruct (Ascii.eqb_spec c "-") as [->|_]; [cbv in Hc; lia|]. destruct (Ascii.eqb_spec c "+") as [->|_]; [cbv in Hc; lia|]. reflexivity.
Qed.
Lemma numbers_no_prefix l w : (forall c, In c l -> digit_or_point c) -> In "n"%char w \/ In "x"%char w -> has_prefix w l = false.
Proof.
  intros H Hw. destruct (has_prefix w l) eqn:E; [|reflexivity]. exfalso.
  assert (T : forall c, In c l -> NumeralProofs.tame c) by (intros c Hc; destruct (H c Hc) as [K|K]; [now left|right; left; now symmetry]).
  destruct Hw as [Hw|Hw]; apply (has_prefix_in w l E) in Hw; destruct Hw as (d & Hd & Hl); apply T in Hd; apply tame_lower in Hd; tauto.
Qed.
(** Everything from the second point on is ignored. *)
Theorem c90_ignored : forall a b r, digits a -> a <> [] -> digits b -> number_text (a ++ "."%char :: b ++ "."%char :: r) ->
  stof (str (a ++ "."%char :: b ++ "."%char :: r)) = stof (str (a ++ "."%char :: b)) /\
  forall x, stof (str (a ++ "."%char :: b)) = Some x ->
  from_infix stof true (preprocess (str (a ++ "."%char :: b ++ "."%char :: r))) = ret (EReal x).
Proof.
  intros a b r Ha Hn Hb T. assert (E : stof (str (a ++ "."%char :: b ++ "."%char :: r)) = stof (str (a ++ "."%char :: b))).
  { destruct a as [|c a]; [congruence|]. assert (Hc : digit c) by (apply Ha; now left).
    unfold stof. rewrite !list_ascii_of_string_of_list_ascii. cbn [app]. rewrite !skip_digit by exact Hc.
    assert (K1 : forall x, In x ((c :: a) ++ "."%char :: b ++ "."%char :: r) -> digit_or_point x) by apply T.
    assert (K2 : forall x, In x ((c :: a) ++ "."%char :: b) -> digit_or_point x).
    { intros x Hx. apply in_app_or in Hx. destruct Hx as [Hx|[<-|Hx]]; [left; now apply Ha|now right|left; now apply Hb]. }
    cbn [app] in K1, K2. unfold scan_number. rewrite !(numbers_no_prefix _ _ K1), !(numbers_no_prefix _ _ K2) by (cbn; tauto).
    unfold scan_digits. change (c :: a ++ "."%char :: b ++ "."%char :: r) with ((c :: a) ++ "."%char :: b ++ "."%char :: r). change (c :: a ++ "."%char :: b) with ((c :: a) ++ "."%char :: b).
    rewrite (span_digits (c :: a) ("."%char :: b ++ "."%char :: r)), (span_digits (c :: a) ("."%char :: b)) by (first [exact Ha|reflexivity]). change (Ascii.eqb "." ".") with true. cbn iota.
    rewrite (span_digits b ("."%char :: r)) by (first [exact Hb|reflexivity]). replace (span is_digit b) with (b, @nil ascii) by (symmetry; rewrite <- (app_nil_r b) at 1; apply span_digits; [exact Hb|exact I]).
    cbn [app]. reflexivity. }
  split; [exact E|]. intros x Hx. apply number_means; [exact T|]. now rewrite E.
Qed.
Print Assumptions c90_ignored.
Theorem c90_refuted : ~ C90_statement.
Proof.
  intros S. assert (T : number_text (text "1.2.3")).
  { split; [|split; [exists "1"%char, (text ".2.3"); split; [reflexivity|cbv; lia]|exists (text "1.2."), "3"%char; split; [reflexivity|cbv; lia]]].
    intros c H. cbn in H. repeat (destruct H as [<-|H]; [first [now right|left; cbv; lia]|]). destruct H. }
  assert (R : exists x, stof "1.2" = Some x).
  { assert (K : match stof "1.2" with Some _ => true | None => false end = true) by (vm_compute; reflexivity). destruct (stof "1.2") as [x|]; [now exists x|discriminate K]. }
  destruct R as (x & Ex).
  destruct (c90_ignored (text "1") (text "2") (text "3")) as (_ & A); [intros c [<-|[]]; cbv; lia|discriminate|intros c [<-|[]]; cbv; lia|exact T|].
  destruct (S (text "1.2.3") ["1.2.3"] x) as (v & D).
  - change (cut (text "1.2.3" ++ []) ["1.2.3"]). apply (cut_number (text "1.2.3") [] []); [exact T|exact I|constructor].
  - exact (A x Ex).
  - assert (P : forall l v, plain_decimal l v -> (count_occ ascii_dec l "."%char <= 1)%nat).
    { assert (Z : forall l, digits l -> count_occ ascii_dec l "."%char = O) by (intros l H; apply count_occ_not_In; intros K; specialize (H _ K); cbv in H; lia).
      intros l' v' [ip H _|ip fp H1 H2 _]; [rewrite (Z ip H); lia|]. rewrite count_occ_app. cbn [count_occ]. destruct (ascii_dec "." "."); [|congruence]. rewrite (Z ip H1), (Z fp H2). lia. }
    assert (Q : forall l v, unsigned l v -> In "e"%char l \/ (count_occ ascii_dec l "."%char <= 1)%nat).
    { intros l' v' [l0 v0 H|l0 v0 e k H He]; [right; now apply (P l0 v0)|left]. apply in_or_app. right. destruct He; now left. }
    remember (text "1.2.3") as l eqn:El. destruct D as [l v H|l v H]; [|discriminate El]. subst l. destruct (Q _ _ H) as [K|K].
    + cbn in K. repeat (destruct K as [K|K]; [discriminate K|]). destruct K.
    + vm_compute in K. lia.
Qed.
Print Assumptions c90_refuted.

(* a word is the product of its pieces *)
Lemma piece_operand l qs : cut l qs -> List.Forall (fun q => exists t : expr double, operand stof "i" q t) qs.
Proof.
  induction 1 as [|c l ps Hc H IH|n l ps Hn Hl H IH]; constructor; try exact IH.
  - pose proof (proj2 stof_sane c Hc) as Nc. destruct (string_dec (String c "") "i") as [E|E]; [rewrite E in *; exists EImag; now constructor|].
    destruct (string_dec (String c "") "e") as [E'|E']; [rewrite E' in *; exists EEuler; now constructor|].
    exists (EVar (String c "")). apply opd_var; auto. intros K. cbn in K.
    repeat (destruct K as [K|K]; [first [discriminate K|injection K as <-; cbv in Hc; lia]|]). destruct K.
  - destruct (stof (str n)) as [x|] eqn:Ex; [exists (EReal x); now constructor|]. exists (EVar (str n)).
    destruct Hn as (_ & (c & l' & -> & Hc) & _). apply opd_var; [exact Ex| | |]; cbn [string_of_list_ascii].
    + intros K. cbn in K. repeat (destruct K as [K|K]; [injection K as <- _; cbv in Hc; lia|]). destruct K.
    + intros K. injection K as -> _. cbv in Hc; lia.
    + intros K. injection K as -> _. cbv in Hc; lia.
Qed.
Lemma product_operand qs : forall us (a : expr double), infix_of stof "i" 2 us a -> List.Forall (fun q => exists t : expr double, operand stof "i" q t) qs ->
  exists t : expr double, infix_of stof "i" 2 (us ++ flat_map (fun q => ["*"; q]) qs) t /\ (qs = [] /\ t = a \/ exists b c, t = EMul b c).
Proof.
  induction qs as [|q qs IH]; intros us a H Hq.
  - exists a. cbn. rewrite app_nil_r. split; [exact H|now left].
  - inversion Hq as [|? ? (b & Hb) Hq']; subst. destruct (IH (us ++ "*" :: [q]) (EMul a b)) as (t & Ht & Et).
    + eapply ix_op; [constructor|exact H|]. apply ix_up. now apply ix_operand.
    + exact Hq'.
    + exists t. cbn [flat_map app]. rewrite <- app_assoc in Ht. cbn [app] in Ht. split; [exact Ht|]. right. destruct Et as [[_ ->]|Et]; [now exists a, b|exact Et].
Qed.
Lemma pieces_join qs : List.Forall is_piece qs -> forall q, is_piece q -> mtail q qs = flat_map (fun q => ["*"; q]) qs.
Proof.
  induction qs as [|r qs IH]; intros H q Hq; [reflexivity|]. inversion H as [|? ? Hr H']; subst. cbn [mtail flat_map].
  rewrite (piece_ends q Hq), (piece_starts r Hr). cbn [andb app]. now rewrite (IH H' r Hr).
Qed.
(** Proved: a word of letters, digits and points that is read as a number has
    only digits and points, and begins and ends with a digit; if it has one
    point at most, it is a decimal number.
    Missing: the second point, see c90_ignored; words after a closing
    parenthesis, see c90_after_parenthesis. *)
Theorem c90_words_partial : forall l qs x, cut l qs -> from_infix stof true (preprocess (str l)) = ret (EReal x) ->
  number_text l /\ stof (str l) = Some x.
Proof.
  intros l qs x C R. destruct (is_some (FromInFix.is_function (str l))) eqn:Ef.
  { exfalso. apply function_b_spec in Ef. destruct Ef as (o & Ef).
    assert (K : match from_infix stof true (preprocess (str l)) with (_, Ok _) => false | _ => true end = true) by (destruct Ef; vm_compute; reflexivity).
    rewrite R in K. discriminate K. }
  assert (NF : ~ function_name (str l)) by (intros K; apply function_b_spec in K; congruence).
  destruct l as [|c l].
  { exfalso. assert (K : match from_infix stof true (preprocess "") with (_, Ok _) => false | _ => true end = true) by (vm_compute; reflexivity).
    cbn [string_of_list_ascii] in R. rewrite R in K. discriminate K. }
  destruct qs as [|q qs]; [inversion C as [| |n l' ps (_ & (c' & l2 & -> & _) & _) ? ? E]; discriminate|].
  pose proof (cut_pieces _ _ C) as P. pose proof (piece_operand _ _ C) as O. inversion P as [|? ? Pq Pqs]; subst. inversion O as [|? ? (a & Ha) Oq]; subst.
  destruct (product_operand qs [q] a) as (t & Ht & Et); [do 2 apply ix_up; now apply ix_operand|exact Oq|].
  assert (M : means stof (c :: l) [str (c :: l)] t).
  { exists (q :: qs), (q :: mtail q qs). split; [|split; [|split]].
    - rewrite <- (app_nil_r (c :: l)) at 1. apply lx_word; [discriminate| |exact I|constructor]. intros d Hd. apply usual. now apply (cut_usual _ _ C).
    - rewrite <- (app_nil_r (q :: qs)). apply lm_word; [exact NF|discriminate| |constructor]. now rewrite list_ascii_of_string_of_list_ascii.
    - apply multiplied_all.
    - rewrite (pieces_join qs Pqs q Pq). apply ix_up. exact Ht. }
  rewrite (c82_reads_partial _ stof stof_sane _ _ _ M) in R.
  2:{ split; [exact I|]. intros [|? [|]] ? ? ? K; discriminate K. }
  injection R as ->. destruct Et as [[-> <-]|(b & d & Et)]; [|discriminate Et].
  inversion Ha as [t' c' E|E|E|t' E]; subst; try discriminate.
  remember (c :: l) as m eqn:Em. remember [q] as qs eqn:Eq. destruct C as [|d l' ps Hd C|n l' ps Hn Hl C]; [discriminate| |].
  - injection Eq as <- ->. exfalso. rewrite (proj2 stof_sane d Hd) in E. discriminate E.
  - injection Eq as <- ->. assert (l' = []) as ->.
    { inversion C as [| |n' ? ps' (_ & (? & ? & -> & _) & _)]; [reflexivity]. }
    rewrite app_nil_r. now split.
Qed.
Print Assumptions c90_words_partial.
Theorem c90_decimal_partial : forall l qs x, cut l qs -> (count_occ ascii_dec l "."%char <= 1)%nat ->
  from_infix stof true (preprocess (str l)) = ret (EReal x) -> exists v, decimal l v.
Proof.
  intros l qs x C Hone R. destruct (c90_words_partial l qs x C R) as ((H & (c & l' & El & Hc) & _) & _).
  assert (D : forall l, (forall c, In c l -> digit_or_point c) -> count_occ ascii_dec l "."%char = 0%nat -> digits l).
  { intros m Hm Om d Hd. destruct (Hm d Hd) as [K| ->]; [exact K|]. exfalso. apply (count_occ_not_In ascii_dec) in Om. now apply Om. }
  assert (Hn : l <> []) by (subst l; discriminate).
  destruct (in_dec ascii_dec "."%char l) as [Hp|Hp].
  - apply in_split in Hp. destruct Hp as (a & b & E). rewrite E, count_occ_app in Hone. cbn [count_occ] in Hone. destruct (ascii_dec "." "."); [|congruence].
    eexists. rewrite E. apply dc_plus, us_plain, pd_point.
    + apply D; [|lia]. intros d Hd. apply H. rewrite E. apply in_or_app. now left.
    + apply D; [|lia]. intros d Hd. apply H. rewrite E. apply in_or_app. right. now right.
    + intros K. apply app_eq_nil in K. destruct K as [-> ->]. rewrite E in El. injection El as <- _. cbv in Hc. lia.
  - eexists. apply dc_plus, us_plain, pd_integer; [|exact Hn]. apply D; [exact H|]. now apply count_occ_not_In.
Qed.
Print Assumptions c90_decimal_partial.
(** After a closing parenthesis words are not cut into pieces: stof sees them
    whole, takes the number they begin with and ignores the rest.  So x is lost
    in (1)2x, and (1)info and (1)nano are an infinity and a NaN. *)
Theorem c90_letters : forall c l, letter c -> forall x, stof (str (c :: l)) = Some x ->
  (x = B754_infinity false /\ map lower (firstn 3 (c :: l)) = text "inf") \/ (x = B754_nan /\ map lower (firstn 3 (c :: l)) = text "nan").
Proof.
  intros c l Hc x E. rewrite stof_word in E by exact Hc. unfold has_prefix in E. cbn [length] in E.
  destruct (list_eq_dec ascii_dec (map lower (firstn 3 (c :: l))) ["i"; "n"; "f"]%char) as [K|_]; [injection E as <-; left; now split|].
  destruct (list_eq_dec ascii_dec (map lower (firstn 3 (c :: l))) ["n"; "a"; "n"]%char) as [K|_]; [injection E as <-; right; now split|discriminate E].
Qed.
Print Assumptions c90_letters.
Example c90_after_parenthesis : match snd (from_infix stof true (preprocess "(1)2x")), snd (from_infix stof true (preprocess "(1)info")), snd (from_infix stof true (preprocess "(1)nano")) with
  | Ok (EBin OMul (EReal a) (EReal b)), Ok (EBin OMul (EReal c) (EReal d)), Ok (EBin OMul (EReal e) (EReal f)) =>
    map fmt5 [a; b; c; d; e; f] = ["1"; "2"; "1"; "inf"; "1"; "nan"]
  | _, _, _ => False
  end.
Proof. vm_compute. reflexivity. Qed.
Example c90_case : cut (text "2.5") ["2.5"] /\ count_occ ascii_dec (text "2.5") "."%char = 1%nat /\
  match snd (from_infix stof true (preprocess "2.5")) with Ok (EReal x) => fmt5 x = "2.5" | _ => False end /\
  match snd (from_infix stof true (preprocess "1.2.3")) with Ok (EReal x) => fmt5 x = "1.2" | _ => False end.
Proof.
  split; [|split; [reflexivity|split; vm_compute; reflexivity]].
  apply (cut_number (text "2.5") [] []); [|exact I|constructor].
  split; [|split; [exists "2"%char, (text ".5"); split; [reflexivity|cbv; lia]|exists (text "2."), "5"%char; split; [reflexivity|cbv; lia]]].
  intros c H. cbn in H. repeat (destruct H as [<-|H]; [first [now right|left; cbv; lia]|]). destruct H.
Qed.
