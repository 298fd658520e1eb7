(** Properties of the PALM parser: C43 - C46, C54. *)
From Coq Require Import String Ascii Bool Arith ZArith QArith Reals Lia.
From Coquelicot Require Import Coquelicot.
From Coq Require Import List.
From Verif Require Import Base Num Expr Spec SpecText TreeProofs SemProofs FromInFix InFixProofs FromPALM PalmProofs QNum PropertiesTree.
Import ListNotations.
Open Scope string_scope.
Open Scope nat_scope.
Open Scope list_scope.

(** A decimal reader for the concrete cases: one digit. *)
Definition digit (s : string) : option Q :=
  match s with
  | String c "" => if (48 <=? nat_of_ascii c) && (nat_of_ascii c <=? 57)
                   then Some (inject_Z (Z.of_nat (nat_of_ascii c - 48))) else None
  | _ => None
  end.
Definition write_digit (q : Q) : string := String (ascii_of_nat (48 + Z.to_nat (Qnum q))) "".

(** ** C43: PALM round trip *)

Theorem c43_round_trip :
  forall (num : Type) (stod : string -> option num) (fmt : num -> string) (e : expr num),
    palm_expr stod fmt e -> from_palm stod (palm_text fmt e) = ret (inl e).
Proof. intros. now apply from_palm_text. Qed.
Print Assumptions c43_round_trip.

Definition c43_e : expr Q :=
  EDiv (EAdd (EMul (EReal 2%Q) (EVar "x")) (ENeg EPi)) (EExp EEuler (ELog (EReal 3%Q) (EDeriv (EVar "y") (EVar "y")))).
Example c43_case : palm_expr digit write_digit c43_e /\
  palm_text write_digit c43_e =
  "( / ( + ( * ( real 2 ) ( var x ) ) ( neg ( pi ) ) ) ( ^ ( e ) ( log ( real 3 ) ( d ( var y ) ( var y ) ) ) ) )".
Proof.
  split; [|reflexivity].
  cbn -[blank]. unfold solid. cbn -[blank].
  repeat split; try discriminate; intros c [<-|[]]; rewrite <- is_space_blank; discriminate.
Qed.

(** docs/PALM.bnf also lists the short forms r and v; the parser knows neither. *)
Theorem c43_short_forms_rejected :
  forall (num : Type) (stod : string -> option num) (t s : string),
    solid t -> words_of s ["("; "r"; t; ")"] \/ words_of s ["("; "v"; t; ")"] ->
    from_palm stod s = ret (inr UnknownOperator).
Proof.
  intros num stod t s Ht H.
  assert (E : exists w, tokens s = ["("; w; t; ")"] /\ (w = "r" \/ w = "v")).
  { destruct H as [H|H]; apply tokens_words in H; eauto. }
  destruct E as (w & E & Hw). unfold tokens in E. fold (tk (list_ascii_of_string s)) in E.
  unfold from_palm. destruct (words (list_ascii_of_string s)) as [|w1 [|w2 ws]] eqn:Ew;
    [unfold tk in E; rewrite Ew in E; discriminate..|].
  cbn [length parse_expr]. rewrite (peek_cons _ _ _ E). cbn [String.eqb Ascii.eqb Bool.eqb].
  destruct (pop_cons _ _ _ E) as (r & P & Hr & _). rewrite P. cbn [snd].
  unfold operation. rewrite (peek_cons _ _ _ Hr). destruct Hw as [-> | ->]; reflexivity.
Qed.
Print Assumptions c43_short_forms_rejected.

Example c43_short_case : words_of " ( r  2 )" ["("; "r"; "2"; ")"].
Proof. exact (words_of_tokens " ( r  2 )"). Qed.

(** ** C44: white space *)

Definition C44_statement : Prop :=
  forall (num : Type) (stod : string -> option num) (s s' : string) (ts : list string),
    words_of s ts -> words_of s' ts -> from_palm stod s = from_palm stod s'.

Theorem c44_refuted : ~ C44_statement.
Proof.
  intros H. specialize (H Q digit "( i )" "( i ) " ["("; "i"; ")"]
    (words_of_tokens "( i )") (words_of_tokens "( i ) ")). vm_compute in H. discriminate.
Qed.
Print Assumptions c44_refuted.

(** Missing: white space after the last word. *)
Theorem c44_whitespace_partial :
  forall (num : Type) (stod : string -> option num) (s s' : string) (ts : list string),
    words_of s ts -> words_of s' ts -> (no_trailing_blank s <-> no_trailing_blank s') ->
    from_palm stod s = from_palm stod s'.
Proof.
  intros num stod s s' ts H H' Hb.
  destruct (from_palm_behaves stod s) as (x & E & A & _). rewrite E. symmetry. apply A.
  - apply tokens_words in H, H'. unfold tokens in H, H'. unfold tk. congruence.
  - rewrite !no_trailing_blank_end in Hb. destruct (blank_end s), (blank_end s'); intuition congruence.
Qed.
Print Assumptions c44_whitespace_partial.

(** White space after the last word of a well-formed text is an error. *)
Theorem c44_trailing_blank_rejected :
  forall (num : Type) (stod : string -> option num) (s : string) (ts : list string) (e : expr num),
    words_of s ts -> palm stod ts e -> ~ no_trailing_blank s ->
    from_palm stod s = ret (inr UnexpectedToken).
Proof.
  intros num stod s ts e Hw Hp Hb. assert (Ht := tokens_words _ _ Hw). unfold tokens in Ht.
  unfold from_palm. destruct (reads_palm stod _ _ Hp (S (length (words (list_ascii_of_string s)))) (list_ascii_of_string s) [])
    as (r & E & T & B).
  - rewrite <- Ht, map_length. lia.
  - unfold tk. rewrite Ht. now rewrite app_nil_r.
  - rewrite E, bindr. destruct r; [|reflexivity]. exfalso. apply Hb. apply no_trailing_blank_end. now symmetry.
Qed.
Print Assumptions c44_trailing_blank_rejected.

Example c44_case :
  words_of "( + ( i ) ( pi ) )" ["("; "+"; "("; "i"; ")"; "("; "pi"; ")"; ")"] /\
  words_of "  (  + ( i )   ( pi ) )" ["("; "+"; "("; "i"; ")"; "("; "pi"; ")"; ")"] /\
  no_trailing_blank "( + ( i ) ( pi ) )" /\ no_trailing_blank "  (  + ( i )   ( pi ) )" /\
  palm digit ["("; "+"; "("; "i"; ")"; "("; "pi"; ")"; ")"] (EAdd EImag EPi).
Proof.
  split; [exact (words_of_tokens "( + ( i ) ( pi ) )")|].
  split; [exact (words_of_tokens "  (  + ( i )   ( pi ) )")|].
  split; [now apply no_trailing_blank_end|]. split; [now apply no_trailing_blank_end|].
  exact (palm_words_palm digit write_digit (EAdd EImag EPi) (conj I I)).
Qed.

(** ** C45: malformed input *)

Definition C45_statement : Prop :=
  forall (num : Type) (stod : string -> option num) (s : string) (ts : list string),
    words_of s ts -> (forall e, ~ palm stod ts e) -> exists err, from_palm stod s = ret (inr err).

(** An operand that does not parse ends the operand list without an error;
    what it consumed is dropped, and the next ")" closes the operator. *)
Theorem c45_refuted : ~ C45_statement.
Proof.
  intros H. destruct (H Q digit "( + ( i ) ( j ) ( )" ["("; "+"; "("; "i"; ")"; "("; "j"; ")"; "("; ")"]) as (err & E).
  - exact (words_of_tokens "( + ( i ) ( j ) ( )").
  - intros e He. apply palm_counts in He; [vm_compute in He; discriminate|cbn; intuition discriminate..].
  - vm_compute in E. discriminate.
Qed.
Print Assumptions c45_refuted.

(** Missing: a text in which a third or later operand is malformed can be
    accepted.  What is then returned is read from words of the text in their
    order, nothing being invented. *)
Theorem c45_accepted_partial :
  forall (num : Type) (stod : string -> option num) (s : string) (ts : list string) (e : expr num),
    words_of s ts -> from_palm stod s = ret (inl e) ->
    exists us, palm stod us e /\ subwords us ts.
Proof.
  intros num stod s ts e Hw H. destruct (from_palm_behaves stod s) as (x & E & _ & G).
  rewrite E in H. injection H as ->. rewrite <- (tokens_words _ _ Hw). now apply G.
Qed.
Print Assumptions c45_accepted_partial.

(** Every text of the grammar is accepted, with the one reading it has. *)
Theorem c45_grammar_accepted :
  forall (num : Type) (stod : string -> option num) (s : string) (ts : list string) (e : expr num),
    words_of s ts -> no_trailing_blank s -> palm stod ts e -> from_palm stod s = ret (inl e).
Proof. intros. eapply from_palm_words; eauto. Qed.
Print Assumptions c45_grammar_accepted.

(** Text after a complete expression is an error. *)
Theorem c45_extra_rejected :
  forall (num : Type) (stod : string -> option num) (s : string) (ts us : list string) (e : expr num),
    words_of s (ts ++ us) -> us <> [] -> palm stod ts e ->
    from_palm stod s = ret (inr UnexpectedToken).
Proof. intros. eapply from_palm_extra; eauto. Qed.
Print Assumptions c45_extra_rejected.

Example c45_case : from_palm digit "( + ( i ) ( j ) ( real x )" = ret (inl (EAdd EImag EImag)) /\
  from_palm digit "( + ( i ) ( real x ) ( j ) )" = ret (inr IncompleteExpression).
Proof. split; reflexivity. Qed.

(** ** C46: n-ary operators *)

Theorem c46_nary :
  forall (num : Type) (stod : string -> option num) (fmt : num -> string) (toR : num -> R) (es : list (expr num)),
    2 <= length es -> List.Forall (palm_expr stod fmt) es ->
    (exists t, from_palm stod (palm_call fmt "+" es) = ret (inl t)
       /\ tree_over OAdd (Nat.log2_up (length es)) es t
       /\ forall rho v, ev toR t rho v <-> exists vs, List.Forall2 (fun e w => ev toR e rho w) es vs /\ v = fold_right Cplus (RtoC 0) vs)
    /\ (exists t, from_palm stod (palm_call fmt "*" es) = ret (inl t)
       /\ tree_over OMul (Nat.log2_up (length es)) es t
       /\ forall rho v, ev toR t rho v <-> exists vs, List.Forall2 (fun e w => ev toR e rho w) es vs /\ v = fold_right Cmult (RtoC 1) vs)
    /\ (forall s o, chain_word s o ->
        exists t, from_palm stod (palm_call fmt s es) = ret (inl t) /\ right_nested o es t).
Proof.
  intros num stod fmt toR es H2 He. split; [|split].
  - destruct (build_spec OAdd es H2) as (a & b & E & _). exists (EBin OAdd a b).
    split; [apply from_palm_call; auto; intros ts Hp; apply (pl_sum stod "+" OAdd ts es); auto; constructor|].
    split; [now apply build_balanced|]. intros rho v. now apply (c03_build_value num toR es).
  - destruct (build_spec OMul es H2) as (a & b & E & _). exists (EBin OMul a b).
    split; [apply from_palm_call; auto; intros ts Hp; apply (pl_sum stod "*" OMul ts es); auto; constructor|].
    split; [now apply build_balanced|]. intros rho v. now apply (c03_build_value num toR es).
  - intros s o Hs. destruct (right_heavy_spec o es H2) as (t & _ & Hn). exists t. split; [|exact Hn].
    apply from_palm_call; [inversion Hs; reflexivity|exact He|].
    intros ts Hp. exact (pl_chain stod s o ts es t Hs Hp Hn).
Qed.
Print Assumptions c46_nary.

Example c46_case : palm_call write_digit "+" [EReal 1%Q; EVar "x"; EPi] = "( + ( real 1 ) ( var x ) ( pi ) )" /\
  from_palm digit "( + ( real 1 ) ( var x ) ( pi ) )" = ret (inl (EAdd (EAdd (EReal 1%Q) (EVar "x")) EPi)) /\
  from_palm digit "( - ( real 1 ) ( var x ) ( pi ) )" = ret (inl (ESub (EReal 1%Q) (ESub (EVar "x") EPi))).
Proof. split; [|split]; reflexivity. Qed.

(** ** C54: FromPALM answers on every string *)

Theorem c54_total :
  forall (num : Type) (stod : string -> option num) (s : string),
    exists r : expr num + parse_error, from_palm stod s = ret r.
Proof. intros num stod s. destruct (from_palm_behaves stod s) as (x & E & _). eauto. Qed.
Print Assumptions c54_total.

Example c54_case : from_palm digit "( ( + )" = ret (inr UnknownOperator) /\
  from_palm digit "( + ( + ( + " = ret (inr IncompleteExpression) /\ from_palm digit "" = ret (inr UnexpectedEndOfInput).
Proof. split; [|split]; reflexivity. Qed.
