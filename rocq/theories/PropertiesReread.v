(** Properties C37 and C38 with the machine's numbers: what the command line
    prints is read back. *)
From Coq Require Import String Ascii Bool Arith ZArith QArith Reals Lra Lia Floats.SpecFloat.
From Flocq Require Import Core BinarySingleNaN.
From Coq Require Import List.
From Verif Require Import Base Num Expr InFixSer FromInFix
  Spec SpecText SpecLine SpecInput SpecNumeral SpecDecimal DoubleNum Numerals NumeralProofs InFixProofs
  PropertiesInFix PropertiesNumeral PropertiesDecimal.
Import ListNotations.
Open Scope string_scope.
Open Scope Z_scope.
Open Scope list_scope.

(** The number that a decimal text of at most five digits between 0.0001 and
    99999 stands for, and the number 0. *)
Definition short_number (c : double) : Prop :=
  (exists l v, plain_decimal l v /\ few_digits 5 v /\ (0.0001 <= v <= 99999)%R /\ stof (string_of_list_ascii l) = Some c) \/ stof "0" = Some c.
(** The printed number is close to the one printed. *)
Definition near (x y : double) : Prop := is_finite y = true /\ (Rabs (B2R y - B2R x) <= 0.00006 * B2R x)%R.

(** Built by the binary operators from literals, variables of one letter, i and e. *)
Fixpoint built (number : double -> Prop) (e : expr double) : Prop :=
  match e with
  | EReal c => number c
  | EVar x => exists c, x = String c "" /\ letter c /\ x <> "i" /\ x <> "e"
  | EImag | EEuler => True
  | EBin _ a b => built number a /\ built number b
  | _ => False
  end.
(** The same tree with numbers that are [near]. *)
Inductive same_tree : expr double -> expr double -> Prop :=
| st_real x y : near x y -> same_tree (EReal x) (EReal y)
| st_leaf e : leaf e -> (forall c, e <> EReal c) -> same_tree e e
| st_bin o a b a' b' : same_tree a a' -> same_tree b b' -> same_tree (EBin o a b) (EBin o a' b').

Lemma zero_text : exists x, stof "0" = Some x /\ fmt5 x = "0".
Proof.
  destruct (c86_integers_partial ["0"%char]) as (_ & _ & x & E & D); [intros c [<-|[]]; cbv; lia|discriminate|cbv; discriminate|].
  exists x. split; [exact E|]. assert (K : option_map fmt5 (stof "0") = Some "0") by (vm_compute; reflexivity).
  cbn [string_of_list_ascii] in E. rewrite E in K. now injection K.
Qed.
Lemma short_number_text c : short_number c -> number_text (chars (fmt5 c)) /\ stof (fmt5 c) = Some c.
Proof.
  intros [(l & v & D & Fd & B & E)|E].
  - destruct (short_text l v D Fd B) as (x & E' & N & K). rewrite E in E'. injection E' as <-. now split.
  - destruct zero_text as (x & E' & T). rewrite E in E'. injection E' as <-. rewrite T. split; [|exact E].
    split; [intros d [<-|[]]; left; cbv; lia|]. split; [exists "0"%char, []; split; [reflexivity|cbv; lia]|exists [], "0"%char; split; [reflexivity|cbv; lia]].
Qed.
Lemma number_nonempty s : number_text (chars s) -> s <> "".
Proof. intros (_ & (c & l & E & _) & _) ->. discriminate E. Qed.
Lemma built_school e : built short_number e -> school fmt5 stof e.
Proof.
  induction e as [c| |x| | | |r k d|o a IHa b IHb|o a IHa]; cbn; auto.
  - intros H. destruct (short_number_text c H) as [N E]. split; [now apply number_nonempty|]. split; [apply N|exact E].
  - intros [A B]. auto.
Qed.

(** Proved for the machine's numbers: an expression whose literals were typed
    with at most five digits is read back exactly from its text; with the
    preprocessor if no parentheses are adjacent. *)
Theorem c37_doubles_partial : forall e : expr double, built short_number e ->
  exists s, infix fmt5 e = inl s /\ from_infix stof true (spaced s) = ret e /\ (shallow e -> from_infix stof true (preprocess s) = ret e).
Proof.
  intros e H. apply built_school in H. destruct (c37_spaced_partial fmt5 stof stof_sane e H) as (s & E & R). exists s. split; [exact E|]. split; [exact R|].
  intros S. destruct (c37_preprocessed_partial fmt5 stof stof_sane e H S) as (s' & E' & R'). rewrite E in E'. now injection E' as <-.
Qed.
Print Assumptions c37_doubles_partial.

(** Other positive numbers that are printed without an exponent are read back
    up to a relative error of 6e-5. *)
Definition fixed_number (c : double) : Prop := is_finite c = true /\ (0.0001 <= B2R c < 99999.5)%R.
Lemma built_writable e : built fixed_number e -> writable fmt5 stof e /\ same_tree e (reread fmt5 stof e).
Proof.
  destruct stof_sane as [Sr Sl].
  induction e as [c| |x| | | |r k d|o a IHa b IHb|o a IHa]; cbn [built writable reread]; try tauto.
  - intros [F B]. destruct (fixed_text c F B) as (y & N & E & Fy & A). rewrite E. split; [split; [|discriminate]|now constructor].
    split; [now apply number_nonempty|]. now apply plain_chars.
  - intros _. split; [apply (Sl "i"%char); cbv; lia|]. apply st_leaf; [exact I|discriminate].
  - intros (c & -> & L & Ni & Ne). split; [|apply st_leaf; [exact I|discriminate]]. split; [|split; [now apply Sl|split; [|auto]]].
    + split; [discriminate|]. intros d [<-|[]]. split; [intros P; cbn in P; repeat (destruct P as [<-|P]; [cbv in L; lia|]); exact P|intros P; cbv in L, P; lia].
    + intros P. cbn in P. repeat (destruct P as [P|P]; [try discriminate P; injection P as <-; cbv in L; lia|]). exact P.
  - intros _. split; [apply (Sl "e"%char); cbv; lia|]. apply st_leaf; [exact I|discriminate].
  - intros [A B]. destruct (IHa A), (IHb B). split; [now split|now constructor].
Qed.
Theorem c38_doubles_partial : forall e : expr double, built fixed_number e ->
  exists s e', infix fmt5 e = inl s /\ from_infix stof true (spaced s) = ret e' /\ same_tree e e'.
Proof.
  intros e H. destruct (built_writable e H) as [W S]. destruct (c38_reread_partial fmt5 stof (proj1 stof_sane) e W) as (s & E & R).
  exists s, (reread fmt5 stof e). auto.
Qed.
Print Assumptions c38_doubles_partial.

(** 2.5*x + 3, 12345^(x*2.5) *)
Example c37_doubles_case : exists c d, short_number c /\ short_number d /\
  infix fmt5 (EAdd (EMul (EReal c) (EVar "x")) (EReal d)) = inl "((2.5*x)+3)" /\ built short_number (EAdd (EMul (EReal c) (EVar "x")) (EReal d)).
Proof.
  assert (H : exists c, stof "2.5" = Some c /\ fmt5 c = "2.5").
  { assert (K : option_map fmt5 (stof "2.5") = Some "2.5") by (vm_compute; reflexivity). destruct (stof "2.5") as [c|]; [|discriminate K]. exists c. split; [reflexivity|]. now injection K. }
  assert (H' : exists c, stof "3" = Some c /\ fmt5 c = "3").
  { assert (K : option_map fmt5 (stof "3") = Some "3") by (vm_compute; reflexivity). destruct (stof "3") as [c|]; [|discriminate K]. exists c. split; [reflexivity|]. now injection K. }
  destruct H as (c & Hc & Tc), H' as (d & Hd & Td). exists c, d.
  assert (Sc : short_number c).
  { left. exists (list_ascii_of_string "2.5"), (2 + 5 / 10 ^ 1)%R. split; [|split; [|split; [lra|exact Hc]]].
    - apply (pd_point ["2"%char] ["5"%char]); [| |discriminate]; intros x [<-|[]]; cbv; lia.
    - exists 25, (-1). split; [reflexivity|]. change (powerRZ 10 (-1)) with (/ (10 * 1))%R. lra. }
  assert (Sd : short_number d).
  { left. exists (list_ascii_of_string "3"), 3%R. split; [|split; [|split; [lra|exact Hd]]].
    - apply (pd_integer ["3"%char]); [|discriminate]. intros x [<-|[]]; cbv; lia.
    - exists 3, 0. split; [reflexivity|]. cbn. lra. }
  split; [exact Sc|]. split; [exact Sd|]. split; [cbn [infix two]; now rewrite Tc, Td|].
  cbn. repeat split; auto. exists "x"%char. repeat split; try discriminate. cbv. lia.
Qed.
Example c38_doubles_case : built fixed_number (EExp (EReal (d_of 12345 0)) (EMul (EVar "x") (EReal (d_of 5 (-1))))) /\
  infix fmt5 (EExp (EReal (d_of 12345 0)) (EMul (EVar "x") (EReal (d_of 5 (-1))))) = inl "(12345^(x*2.5))".
Proof.
  assert (O : d_int (d_of 12345 0) 12345) by (apply d_of_int; unfold d_ok; lia). destruct O as [F V].
  split; [|vm_compute; reflexivity]. cbn [built]. split; [split; [exact F|rewrite V; lra]|]. split; [exists "x"%char; repeat split; try discriminate; cbv; lia|].
  split; [vm_compute; reflexivity|]. assert (E : B2SF (d_of 5 (-1)) = SpecFloat.S754_finite false 5629499534213120 (-51)) by (vm_compute; reflexivity).
  rewrite <- SF2R_B2SF, E. unfold SF2R, F2R. cbn [Fnum Fexp cond_Zopp]. change (bpow radix2 (-51)) with (/ 2251799813685248)%R. lra.
Qed.
