(** Properties of the MathML serializer: C50, C55 - C57. *)
From Coq Require Import String Ascii Bool Arith QArith Reals Lia.
From Coquelicot Require Import Coquelicot.
From Coq Require Import List.
From Verif Require Import Base Num Expr MathMLSer Spec SpecMarkup MathMLProofs QNum.
Import ListNotations.
Open Scope string_scope.
Open Scope nat_scope.

(** A format for the concrete cases: an integer of one or two digits. *)
Definition fmt_two (q : Q) : string :=
  let z := Z.to_nat (Z.abs (Qnum q)) in
  let digit n := String (ascii_of_nat (48 + n)) "" in
  (if (Qnum q <? 0)%Z then "-" else "") ++ (if 10 <=? z then digit (z / 10) else "") ++ digit (z mod 10).
Notation sample := (mathml fmt_two fmt_two).

(** ** C50: MathML output keeps every operand *)

Definition C50_statement : Prop :=
  forall (num : Type) (N : NumOps num) (fmt5 fmt17 : num -> string) (e : expr num) (x : string),
    occurs x e -> inside (XText "mi" x) (mathml fmt5 fmt17 e).

Theorem c50_refuted : ~ C50_statement.
Proof.
  intros H. specialize (H Q Q_ops fmt_two fmt_two (ESine (EVar "x")) "x" eq_refl). cbn in H.
  inversion H; subst. contradiction.
Qed.
Print Assumptions c50_refuted.

(** Missing: the operand of Sine. *)
Theorem c50_operands_partial :
  forall (num : Type) (N : NumOps num) (fmt5 fmt17 : num -> string) (e : expr num) (x : string),
    sine_free e -> occurs x e -> inside (XText "mi" x) (mathml fmt5 fmt17 e).
Proof. intros. eapply occurs_mathml; eauto. Qed.
Print Assumptions c50_operands_partial.

(** And Sine always loses it. *)
Theorem c50_sine_dropped :
  forall (num : Type) (N : NumOps num) (fmt5 fmt17 : num -> string) (e : expr num),
    mathml fmt5 fmt17 (ESine e) = XNode "mrow" [].
Proof. reflexivity. Qed.
Print Assumptions c50_sine_dropped.

Definition c50_e : expr Q :=
  EMul (EMul (EVar "x") (EAdd (EVar "y") (EReal 2%Q))) (EDeriv (EExp (EVar "z") (EReal 2%Q)) (EVar "z")).
Example c50_case : sine_free c50_e /\ occurs "y" c50_e /\ sample c50_e =
  XNode "mrow" [XText "mi" "x"; XText "mo" "("; XNode "mrow" [XText "mi" "y"; XText "mo" "+"; XText "mn" "2"]; XText "mo" ")";
    XText "mo" "("; XNode "mrow" [XNode "mfrac" [XText "mo" "d"; XNode "mrow" [XText "mo" "d"; XText "mi" "z"]];
      XText "mo" "("; XNode "msup" [XText "mi" "z"; XText "mn" "2"]; XText "mo" ")"]; XText "mo" ")"].
Proof. cbn. intuition. Qed.

(** ** C55: MathML output is valid *)

Theorem c55_valid :
  forall (num : Type) (N : NumOps num) (fmt5 fmt17 : num -> string) (e : expr num),
    mathml_ok (mathml fmt5 fmt17 e).
Proof. intros. eapply mathml_valid. reflexivity. Qed.
Print Assumptions c55_valid.

Example c55_not : ~ mathml_ok (XNode "mfrac" [XText "mi" "x"]).
Proof. intros H. inversion H. Qed.
Example c55_not_bare_cell : ~ mathml_ok (XNode "mtable" [XNode "mtd" [XText "mn" "1"]]).
Proof.
  intros H. inversion H as [| |? H1|? H1]; subst.
  destruct (H1 _ (or_introl eq_refl)) as (cells & E & _). discriminate.
Qed.

(** ** C56: numerals side by side *)

(** In a row, a numeral is never followed directly by something that begins
    with a numeral: the two would be read as one number. *)
Definition C56_statement : Prop :=
  forall (num : Type) (N : NumOps num) (fmt5 fmt17 : num -> string) (e : expr num) l1 (t : string) (y : xml) l2,
    inside (XNode "mrow" (l1 ++ XText "mn" t :: y :: l2)%list) (mathml fmt5 fmt17 e) -> begins_with_numeral y = false.

(** 2 * 3^2 is shown like 23^2. *)
Theorem c56_refuted : ~ C56_statement.
Proof.
  intros H. specialize (H Q Q_ops fmt_two fmt_two (EMul (EReal 2%Q) (EExp (EReal 3%Q) (EReal 2%Q))) [] "2"
    (XNode "msup" [XText "mn" "3"; XText "mn" "2"]) [] (in_self _)). discriminate.
Qed.
Print Assumptions c56_refuted.

(** Missing: powers of numbers. *)
Theorem c56_numerals_partial :
  forall (num : Type) (N : NumOps num) (fmt5 fmt17 : num -> string) (e : expr num) l1 (t : string) (y : xml) l2,
    inside (XNode "mrow" (l1 ++ XText "mn" t :: y :: l2)%list) (mathml fmt5 fmt17 e) ->
    begins_with_numeral y = false \/ exists c p, y = XNode "msup" [XText "mn" c; p].
Proof.
  intros num N fmt5 fmt17 e l1 t y l2 H. apply (mathml_rows fmt5 fmt17 (size e) e (le_n _)) in H.
  destruct (begins_with_numeral y) eqn:E; [right|now left]. exact (row_ok_touch _ H l1 t y l2 eq_refl E).
Qed.
Print Assumptions c56_numerals_partial.

Example c56_case : sample (EMul (EMul (EReal 2%Q) (EReal 3%Q)) (EMul (EVar "x") (EReal 5%Q))) =
  XNode "mrow" [XText "mn" "2"; XText "mo" "×"; XText "mn" "3"; XText "mi" "x"; XText "mn" "5"].
Proof. reflexivity. Qed.

(** ** C57: MathML output determines the expression up to grouping *)

(** A class of numbers with pairwise different texts. *)
Definition told_apart {num} (fmt : num -> string) (P : num -> Prop) : Prop :=
  forall c c', P c -> P c' -> fmt c = fmt c' -> c = c'.
(** Names that are not printed for a constant; numbers of the classes [P5]
    (literals) and [P17] (entries of matrices). *)
Definition distinct {num} (P5 P17 : num -> Prop) (e : expr num) : Prop :=
  names (fun x => ~ In x ["i"; "e"; "&pi;"]) e /\
  literals P5 e /\ matrices (fun r c d => length d = r * c /\ Forall P17 d) e.

Definition C57_statement : Prop :=
  forall (num : Type) (N : NumOps num) (fmt5 fmt17 : num -> string) (P5 P17 : num -> Prop) (e f : expr num),
    told_apart fmt5 P5 -> told_apart fmt17 P17 -> distinct P5 P17 e -> distinct P5 P17 f ->
    (mathml fmt5 fmt17 e = mathml fmt5 fmt17 f <-> regroup e f).

Theorem c57_regroup_same :
  forall (num : Type) (N : NumOps num) (fmt5 fmt17 : num -> string) (e f : expr num),
    regroup e f -> mathml fmt5 fmt17 e = mathml fmt5 fmt17 f.
Proof. intros num N fmt5 fmt17 e f H. apply (regroup_same fmt5 fmt17 e f H). Qed.
Print Assumptions c57_regroup_same.

(** Regrouping keeps the value. *)
Definition leaf_of {num} (e : expr num) : option (expr num) :=
  match e with EBin _ _ _ | EUn _ _ => None | _ => Some e end.
Lemma regroup_value {num : Type} (toR : num -> R) (e f : expr num) :
  regroup e f -> leaf_of e = leaf_of f /\ forall rho v, ev toR e rho v <-> ev toR f rho v.
Proof.
  induction 1 as [e|e f _ [L IH]|e f g _ [L1 IH1] _ [L2 IH2]|o a a' b b' _ [La IHa] _ [Lb IHb]|o a a' _ [La IHa]|a b c|a b c].
  - split; [reflexivity|tauto].
  - split; [auto|]. intros. symmetry. apply IH.
  - split; [congruence|]. intros. rewrite IH1. apply IH2.
  - split; [reflexivity|]. intros rho v.
    assert (Two : forall P : C -> C -> Prop, (exists p q, ev toR a rho p /\ ev toR b rho q /\ P p q) <->
                                             (exists p q, ev toR a' rho p /\ ev toR b' rho q /\ P p q)).
    { intros P. split; intros (p & q & Hp & Hq & HP); exists p, q; (split; [now apply IHa|split; [now apply IHb|exact HP]]). }
    destruct o; cbn [ev]; try apply Two; [|tauto].
    destruct b, b'; cbn in Lb; try discriminate; try tauto. injection Lb as <-.
    split; intros (h & d & H1 & H2); exists h, d; (split; [|exact H2]); apply (filter_imp _ _ (fun t Ht => proj1 (IHa _ _) Ht) H1) ||
      apply (filter_imp _ _ (fun t Ht => proj2 (IHa _ _) Ht) H1).
  - split; [reflexivity|]. intros rho v. destruct o; cbn [ev]; split; intros (w & Hw & E); exists w; (split; [now apply IHa|exact E]).
  - split; [reflexivity|]. intros rho v. cbn [ev]. split.
    + intros (p & q & (s & t & Hs & Ht & ->) & Hq & ->). exists s, (Cplus t q). split; [exact Hs|]. split; [eauto 6|]. ring.
    + intros (p & q & Hp & (s & t & Hs & Ht & ->) & ->). exists (Cplus p s), t. split; [eauto 6|]. split; [exact Ht|]. ring.
  - split; [reflexivity|]. intros rho v. cbn [ev]. split.
    + intros (p & q & (s & t & Hs & Ht & ->) & Hq & ->). exists s, (Cmult t q). split; [exact Hs|]. split; [eauto 6|]. ring.
    + intros (p & q & Hp & (s & t & Hs & Ht & ->) & ->). exists (Cmult p s), t. split; [eauto 6|]. split; [exact Ht|]. ring.
Qed.

(** Every Sine node has the same element. *)
Theorem c57_refuted : ~ C57_statement.
Proof.
  intros H. destruct (H Q Q_ops fmt_two fmt_two (fun _ => False) (fun _ => False) (ESine EPi) (ESine EUndef)) as [H1 _]; try (repeat split; exact I); try (intros ? ? []).
  specialize (H1 eq_refl). destruct (regroup_value Q2R _ _ H1) as [_ V].
  destruct (V (fun _ => 0%R) (RtoC (sin PI))) as [V1 _]. cbn [ev] in V1. destruct V1 as (t & [] & _). eauto.
Qed.
Print Assumptions c57_refuted.

(** Exactly the operands of Sine nodes and the numbers of columns of matrices
    without rows are not printed. *)
Theorem c57_exact :
  forall (num : Type) (N : NumOps num) (fmt5 fmt17 : num -> string) (P5 P17 : num -> Prop) (e f : expr num),
    told_apart fmt5 P5 -> told_apart fmt17 P17 -> distinct P5 P17 e -> distinct P5 P17 f ->
    (mathml fmt5 fmt17 e = mathml fmt5 fmt17 f <-> regroup (blank e) (blank f)).
Proof.
  intros num N fmt5 fmt17 P5 P17 e f T5 T17 (He1 & He2 & He3) (Hf1 & Hf2 & Hf3).
  rewrite <- (mathml_blank fmt5 fmt17 (size e) e), <- (mathml_blank fmt5 fmt17 (size f) f) by apply le_n.
  split; [|apply c57_regroup_same]. apply (mathml_regroup fmt5 fmt17 P5 P17 T5 T17 (size (blank e))); [apply le_n| |];
    repeat split; auto using blank_names, blank_literals, blank_matrices, blank_sines.
Qed.
Print Assumptions c57_exact.

(** Missing: expressions with Sine nodes or matrices without rows. *)
Theorem c57_unique_partial :
  forall (num : Type) (N : NumOps num) (fmt5 fmt17 : num -> string) (P5 P17 : num -> Prop) (e f : expr num),
    told_apart fmt5 P5 -> told_apart fmt17 P17 -> distinct P5 P17 e -> distinct P5 P17 f ->
    matrices (fun r _ _ => 0 < r) e -> matrices (fun r _ _ => 0 < r) f -> sine_free e -> sine_free f ->
    (mathml fmt5 fmt17 e = mathml fmt5 fmt17 f <-> regroup e f).
Proof.
  assert (B : forall num (e : expr num), matrices (fun r _ _ => 0 < r) e -> sine_free e -> blank e = e).
  { induction e as [| | | | | |r c d|o p IHp q IHq|o p IHp]; try reflexivity; cbn [matrices sine_free blank].
    - destruct r; [lia|reflexivity].
    - intros [] []. now rewrite IHp, IHq.
    - intros H [H1 H2]. destruct o; [|congruence|]; now rewrite IHp. }
  intros num N fmt5 fmt17 P5 P17 e f T5 T17 De Df Me Mf Se Sf. rewrite <- (B _ e Me Se) at 2. rewrite <- (B _ f Mf Sf) at 2. now apply (c57_exact num N fmt5 fmt17 P5 P17).
Qed.
Print Assumptions c57_unique_partial.

(** So equal output means equal value. *)
Theorem c57_value_partial :
  forall (num : Type) (N : NumOps num) (toR : num -> R) (fmt5 fmt17 : num -> string) (P5 P17 : num -> Prop) (e f : expr num),
    told_apart fmt5 P5 -> told_apart fmt17 P17 -> distinct P5 P17 e -> distinct P5 P17 f ->
    matrices (fun r _ _ => 0 < r) e -> matrices (fun r _ _ => 0 < r) f -> sine_free e -> sine_free f ->
    mathml fmt5 fmt17 e = mathml fmt5 fmt17 f ->
    forall rho v, ev toR e rho v <-> ev toR f rho v.
Proof.
  intros num N toR fmt5 fmt17 P5 P17 e f T5 T17 De Df Me Mf Se Sf E. apply regroup_value.
  now apply (c57_unique_partial num N fmt5 fmt17 P5 P17 e f T5 T17 De Df Me Mf Se Sf).
Qed.
Print Assumptions c57_value_partial.

Example c57_case : let few (q : Q) := exists z, (-99 <= z <= 99)%Z /\ q = inject_Z z in
  let e := EMul (EReal 7%Q) (EMul (EMat 1 2 [10%Q; (-3)%Q]) (EAdd (EVar "y") (EReal 42%Q))) in
  told_apart fmt_two few /\ distinct few few e /\ matrices (fun r _ _ => 0 < r) e /\ sine_free e.
Proof.
  cbv zeta. split.
  - intros q q' (z & Hz & ->) (z' & Hz' & ->) E. f_equal.
    assert (K : forall z, (-99 <= z <= 99)%Z -> exists n, n <= 198 /\ z = (Z.of_nat n - 99)%Z).
    { intros a Ha. exists (Z.to_nat (a + 99)). lia. }
    destruct (K z Hz) as (n & Hn & ->), (K z' Hz') as (n' & Hn' & ->).
    assert (A : forallb (fun n => forallb (fun n' => implb (fmt_two (inject_Z (Z.of_nat n - 99)) =? fmt_two (inject_Z (Z.of_nat n' - 99)))%string (n =? n')%nat) (seq 0 199)) (seq 0 199) = true)
      by (vm_compute; reflexivity).
    rewrite forallb_forall in A. specialize (A n ltac:(apply in_seq; lia)). rewrite forallb_forall in A. specialize (A n' ltac:(apply in_seq; lia)).
    rewrite E, String.eqb_refl in A. apply Nat.eqb_eq in A. now subst.
  - split; [|cbn; auto with arith]. split; [|split]; cbn [names literals matrices].
    + cbn. intuition discriminate.
    + split; [|split; [exact I|split; [exact I|]]]; eexists; (split; [|reflexivity]); lia.
    + repeat split; repeat (constructor; [eexists; split; [|reflexivity]; lia|]); constructor.
Qed.
Example c57_groups : sample (EAdd (EAdd (EVar "x") (EVar "y")) (EVar "z")) = sample (EAdd (EVar "x") (EAdd (EVar "y") (EVar "z")))
  /\ sample (ESub (ESub (EVar "x") (EVar "y")) (EVar "z")) <> sample (ESub (EVar "x") (ESub (EVar "y") (EVar "z"))).
Proof. split; [reflexivity|discriminate]. Qed.
