(** Properties of the TeX serializer: C47 - C49. *)
From Coq Require Import String Ascii Bool Arith QArith Lia.
From Coq Require Import List.
From Verif Require Import Base Num Expr TeXSer SpecMarkup TeXProofs QNum.
Import ListNotations.
Open Scope string_scope.
Open Scope nat_scope.

(** One digit, with a sign: a format for the concrete cases. *)
Definition fmt_digit (_ : nat) (q : Q) : string :=
  let d := String (ascii_of_nat (48 + Z.to_nat (Z.abs (Qnum q)))) "" in
  if (Qnum q <? 0)%Z then String "-" d else d.

(** ** C47: TeX output is well nested *)

Theorem c47_well_nested :
  forall (num : Type) (fmt : nat -> num -> string) (opts : tex_opts) (e : expr num),
    names no_markup e -> numbers (fun c => forall k, no_markup (fmt k c)) e ->
    exists s, tex fmt opts e = inl s /\ well_nested s.
Proof.
  intros num fmt opts e Hn Hc. destruct (tex_ok fmt opts e) as [s Hs]. exists s. split; [exact Hs|].
  unfold well_nested, tex_read. rewrite <- (app_nil_r (list_ascii_of_string s)).
  now rewrite (through_tex fmt opts e Hn Hc s Hs [] []).
Qed.
Print Assumptions c47_well_nested.

Definition c47_e : expr Q :=
  EDiv (EInt (EMag (EVar "x")) (EVar "x")) (ELog (ENeg EPi) (EExp (EMat 2 2 [1%Q; 2%Q; 3%Q; 4%Q]) (EDeriv (EVar "y") (EReal 2%Q)))).
Example c47_case : names no_markup c47_e /\ tex fmt_digit tex_default c47_e =
  inl ("\left(\frac{\int\left(\left|x\right|\right)dx}{\log_{-\left(\pi\right)}\left(\left(\begin{bmatrix}" ++ newline ++
       "1&2\\" ++ newline ++ "3&4\\" ++ newline ++ "\end{bmatrix}" ++ newline ++ "\right)^{\frac{d}{dy}\left(2\right)}\right)}\right)").
Proof.
  split; [|reflexivity].
  assert (N : no_markup "x" /\ no_markup "y") by (split; intros c [<-|[]]; (split; [|split]); discriminate).
  cbn [c47_e names]. tauto.
Qed.
Example c47_not : ~ well_nested "\left(\frac{x}\right)}".
Proof. discriminate. Qed.

(** ** C48: TeX derivative notation *)

(** d/dx applied to e. *)
Definition leibniz (e x : string) : string := "\frac{d}{d" ++ x ++ "}\left(" ++ e ++ "\right)".

Definition C48_statement : Prop :=
  forall (num : Type) (fmt : nat -> num -> string) (opts : tex_opts) (e x : expr num) (te tx : string),
    tex fmt opts e = inl te -> tex fmt opts x = inl tx ->
    tex fmt opts (EDeriv e x) = inl (leibniz te tx).

Theorem c48_refuted : ~ C48_statement.
Proof. intros H. specialize (H Q fmt_digit tex_default EPi (EVar "x") _ _ eq_refl eq_refl). discriminate. Qed.
Print Assumptions c48_refuted.

(** Missing: the notation is right only for operands of the same text; the
    operands of every derivative are exchanged. *)
Theorem c48_exchanged_partial :
  forall (num : Type) (fmt : nat -> num -> string) (opts : tex_opts) (e x : expr num) (te tx : string),
    tex fmt opts e = inl te -> tex fmt opts x = inl tx ->
    tex fmt opts (EDeriv e x) = inl (leibniz tx te).
Proof. intros num fmt opts e x te tx He Hx. cbn [tex]. rewrite He, Hx. reflexivity. Qed.
Print Assumptions c48_exchanged_partial.

Example c48_case : tex fmt_digit tex_default (EDeriv (EExp (EVar "x") (EReal 2%Q)) (EVar "x"))
  = inl "\frac{d}{d\left(x\right)^{2}}\left(x\right)".
Proof. reflexivity. Qed.

(** ** C49: TeX output determines the expression *)

(** Names of letters, digits and dots that are not printed by anything else;
    numbers printed without an exponent, and differently from other numbers.
    Entries of matrices are printed with five digits, whatever the options. *)
Definition told_apart {num} (fmt : nat -> num -> string) (digits : nat) (c : num) : Prop :=
  plain_number (fmt digits c) /\ forall c', fmt digits c' = fmt digits c -> c' = c.
Definition readable {num} (fmt : nat -> num -> string) (opts : tex_opts) (e : expr num) : Prop :=
  names (fun x => plain_name x /\ ~ In x ["i"; "j"; "e"; "Undefined"]) e /\
  literals (told_apart fmt (to_places opts + 1)) e /\
  matrices (fun r c d => length d = r * c /\ Forall (told_apart fmt 5) d) e.

Definition C49_statement : Prop :=
  forall (num : Type) (fmt : nat -> num -> string) (opts : tex_opts) (e e' : expr num),
    readable fmt opts e -> readable fmt opts e' -> tex fmt opts e = tex fmt opts e' -> e = e'.

(** A matrix without rows prints the same for every number of columns. *)
Theorem c49_refuted : ~ C49_statement.
Proof.
  intros H. specialize (H Q fmt_digit tex_default (EMat 0 1 []) (EMat 0 2 [])).
  assert (R : forall c, readable fmt_digit tex_default (EMat 0 c [])) by (repeat split; constructor).
  specialize (H (R _) (R _) eq_refl). discriminate.
Qed.
Print Assumptions c49_refuted.

(** Exactly the numbers of columns of matrices without rows are not printed. *)
Theorem c49_exact :
  forall (num : Type) (fmt : nat -> num -> string) (opts : tex_opts) (e e' : expr num),
    readable fmt opts e -> readable fmt opts e' ->
    (tex fmt opts e = tex fmt opts e' <-> no_columns e = no_columns e').
Proof.
  intros num fmt opts e e' (Hn & Hc & Hd) (Hn' & Hc' & Hd').
  rewrite <- (tex_no_columns fmt opts e), <- (tex_no_columns fmt opts e'). split; [|now intros ->].
  assert (W : forall e : expr num, names (fun x => plain_name x /\ ~ In x ["i"; "j"; "e"; "Undefined"]) e -> names (good_name opts) e).
  { clear. induction e; cbn [names]; intuition. split; [assumption|]. unfold img_text. cbn in H1. destruct (to_img opts); intuition. }
  apply (tex_unique fmt opts); apply no_columns_good; auto.
Qed.
Print Assumptions c49_exact.

(** Missing: matrices without rows, of which the statement is false. *)
Theorem c49_unique_partial :
  forall (num : Type) (fmt : nat -> num -> string) (opts : tex_opts) (e e' : expr num),
    readable fmt opts e -> readable fmt opts e' ->
    matrices (fun r _ _ => 0 < r) e -> matrices (fun r _ _ => 0 < r) e' ->
    tex fmt opts e = tex fmt opts e' -> e = e'.
Proof.
  assert (B : forall num (e : expr num), matrices (fun r _ _ => 0 < r) e -> no_columns e = e).
  { induction e as [| | | | | |r c d|o p IHp q IHq|o p IHp]; try reflexivity; cbn [matrices no_columns].
    - destruct r; [intros H; inversion H|reflexivity].
    - intros []. now rewrite IHp, IHq.
    - intros H. now rewrite IHp. }
  intros num fmt opts e e' De De' Me Me' E. rewrite <- (B _ e Me), <- (B _ e' Me'). now apply (c49_exact num fmt opts).
Qed.
Print Assumptions c49_unique_partial.

Example c49_case : readable (fun _ (n : bool) => if n then "-2.5" else "1") tex_default
  (EDiv (EVar "x1") (ENeg (EAdd (EReal true) (EMat 1 2 [true; false])))).
Proof.
  unfold readable. cbn [names literals matrices].
  assert (N : forall b : bool, plain_number (if b then "-2.5" else "1") /\
    forall c' : bool, (if c' then "-2.5" else "1") = (if b then "-2.5" else "1") -> c' = b).
  { intros b. split; [|now destruct b; intros []].
    destruct b; [right; eexists; split; [reflexivity|]|left]; eexists _, _; (split; [reflexivity|]); (split; [reflexivity|]);
      cbn; intros d Hd; repeat destruct Hd as [<-|Hd]; try reflexivity; contradiction. }
  split; [|split; [exact (conj I (conj (N true) I))|split; [exact I|split; [exact I|split; [reflexivity|]]]]].
  2: { constructor; [exact (N true)|constructor; [exact (N false)|constructor]]. }
  split; [split|split; exact I].
  - eexists _, _; (split; [reflexivity|]); (split; [reflexivity|]); cbn; intros d Hd; repeat destruct Hd as [<-|Hd]; try reflexivity; contradiction.
  - cbn. intuition discriminate.
Qed.
