(** Properties C80 and C81: the values of the answers to a typed polynomial and
    to a typed derivative. *)
From Coq Require Import String Ascii Bool Arith ZArith QArith Reals Lia Qreals.
From Coquelicot Require Import Coquelicot.
From Coq Require Import List.
From Flocq Require Import Core BinarySingleNaN.
From Verif Require Import Base Num Expr Ghost Simplify Calculus InFixSer FromInFix Frontends
  Spec SpecText SpecPoly SpecPolyInt SpecProd SpecQuot SpecLine SpecTyped SpecValue QNum DoubleNum TreeProofs PowProofs SemProofs MonadProofs FuelProofs InFixProofs ProdProofs
  PolyProofs PolySem PolyDiff PolyDiffSem SumProofs PolyInt PolyIntSem PolyComb LineProofs TypedProofs
  PropertiesSimplify PropertiesCalculus PropertiesPoly PropertiesPolyDiff PropertiesLinearPoly PropertiesIntegral PropertiesPolyInt PropertiesInFix PropertiesSafety PropertiesOperators
  PropertiesFrontends PropertiesTyped PropertiesTypedCalculus.
Import ListNotations.
Open Scope string_scope.
Open Scope Z_scope.
Open Scope list_scope.

Lemma typed_rsum D rho ts : exponents_to D ts -> typed_value rho ts = rsum rho ts.
Proof.
  induction ts as [|[k z] ts IH]; intros H; [reflexivity|]. cbn [typed_value fold_right rsum fst snd]. fold (typed_value rho ts).
  rewrite IH by (intros x j Hj; apply (H x); now right). destruct k as [[x k]|]; [|reflexivity].
  cbn [rval]. rewrite powerRZ_pos; [reflexivity|]. apply (H x). now left.
Qed.
Lemma exponents_kok D rho ts : exponents_to D ts -> forall p, In (Some p) (keys ts) -> kok rho p.
Proof. intros H [x k] Hp. specialize (H x k Hp). split; cbn; [lia|right; lia]. Qed.

(** ** C80: A typed polynomial is answered by an expression with its value *)
Definition C80_statement : Prop :=
  forall (num : Type) (N : NumOps num) lit ok, IntLits N lit ok ->
  forall toR, (forall c z, lit c z -> toR c = IZR z) ->
  forall fmt5 stof, sane_numbers stof ->
  forall l ts D, line_text stof lit l ts -> ok (weight ts) -> exponents_to D ts ->
  exists r t n0, (forall rho, ev toR r rho (RtoC (typed_value rho ts))) /\ infix fmt5 r = inl t /\
    forall n, (n0 <= n)%nat -> session fmt5 stof n [str l] = ([Success t], AtEof).
Theorem c80_typed_value : C80_statement.
Proof.
  intros num N lit ok IL toR HR fmt5 stof sane l ts D H Hw HD.
  destruct (typed_answer lit ok fmt5 stof sane l ts H Hw) as (e & He & A).
  destruct (poly_plain lit ok IL false false e ts He Hw) as (r & tr & Y & P & T & K).
  destruct (plain_printed lit fmt5 false r tr P) as (t & Ht). destruct (yields_always _ _ _ Y) as (n0 & Hn).
  exists r, t, n0. split; [|split; [exact Ht|intros n L; apply (A r t n); auto]].
  intros rho. rewrite (typed_rsum D rho ts HD), <- (csum_rsum rho ts (exponents_kok D rho ts HD)), <- (csum_totals rho tr ts T).
  apply (ev_plain lit toR HR rho false r tr P). intros p Hp. now apply (exponents_kok D rho ts HD), K.
Qed.
Print Assumptions c80_typed_value.

Section Derivative.
  Context {num : Type} {N : NumOps num} (lit : num -> Z -> Prop) (ok : Z -> Prop).
  Hypothesis IL : IntLits N lit ok.
  Hypothesis SQ : squares N lit ok.
  Context (fmt5 : num -> string) (stof : string -> option num).
  Hypothesis sane : sane_numbers stof.

  Lemma dd_answer l ts x D : call_text stof lit "dd" l ts x -> 1 <= D -> exponents_to D ts -> ok D -> ok (D * weight ts) ->
    exists r tr t n0, SpecPoly.plain lit true r tr /\ (forall k, total k tr = total k (deriv x ts)) /\
      (forall p, In (Some p) (keys tr) -> In (Some p) (keys (deriv x ts))) /\ infix fmt5 r = inl t /\
      forall n, (n0 <= n)%nat -> session fmt5 stof n [str l] = ([Success t], AtEof).
  Proof.
    intros H D1 HD HoD Hw. destruct (call_from stof lit sane "dd" ODeriv l ts x fn_dd H) as (l0 & Hl & P).
    destruct (line_comb stof lit sane l0 ts Hl) as (e & He & R). specialize (P e R).
    destruct (comb_deriv lit ok IL SQ false D e ts x He) as (r & (n0 & G) & tr & Pr & Tr & Kr); auto.
    { split; [exact D1|]. intros y k Hk. specialize (HD y k Hk). lia. }
    { intros y k Hk. specialize (HD y k Hk). eapply (il_ok_le _ _ _ IL); [exact HoD|lia]. }
    destruct (plain_printed lit fmt5 true r tr Pr) as (t & Hi). exists r, tr, t, n0. repeat (split; [assumption|]).
    intros n L. eapply (call_answer lit fmt5 stof "dd" ODeriv); [constructor|exact H|exact P|now apply G|exact Hi].
  Qed.
End Derivative.

(** ** C81: A typed derivative is answered by an expression with the value of the derivative *)
Definition C81_statement : Prop :=
  forall (num : Type) (N : NumOps num) lit ok, IntLits N lit ok -> squares N lit ok ->
  forall toR, (forall c z, lit c z -> toR c = IZR z) ->
  forall fmt5 stof, sane_numbers stof ->
  forall l ts x D, call_text stof lit "dd" l ts x -> 1 <= D -> exponents_to D ts -> ok D -> ok (D * weight ts) ->
  exists r t n0,
    (forall rho, exists v, is_derive (fun s => typed_value (upd rho x s) ts) (rho x) v /\ ev toR r rho (RtoC v)) /\
    infix fmt5 r = inl t /\ forall n, (n0 <= n)%nat -> session fmt5 stof n [str l] = ([Success t], AtEof).
Theorem c81_typed_derivative : C81_statement.
Proof.
  intros num N lit ok IL SQ toR HR fmt5 stof sane l ts x D H D1 HD HoD Hw.
  destruct (dd_answer lit ok IL SQ fmt5 stof sane l ts x D H D1 HD HoD Hw) as (r & tr & t & n0 & Pr & Tr & Kr & Hi & A).
  exists r, t, n0. split; [|now split].
  intros rho. exists (rsum rho (deriv x ts)). pose proof (exponents_kok D rho ts HD) as K0. split.
  - apply (is_derive_ext (fun s => rsum (upd rho x s) ts)); [intros s; symmetry; eapply typed_rsum; exact HD|].
    now apply derive_rsum.
  - pose proof (deriv_kok rho x ts K0) as K1. rewrite <- (csum_rsum rho (deriv x ts) K1), <- (csum_totals rho tr (deriv x ts) Tr).
    apply (ev_plain lit toR HR rho true r tr Pr). auto.
Qed.
Print Assumptions c81_typed_derivative.

(** The same for doubles. *)
Theorem c80_doubles : forall pw lg pwx lgx, let N := double_ops pw lg pwx lgx in
  forall fmt5 stof, sane_numbers stof -> forall l ts D, line_text stof d_int l ts -> weight ts <= 2 ^ 53 -> exponents_to D ts ->
  exists r t n0, (forall rho, ev B2R r rho (RtoC (typed_value rho ts))) /\ infix fmt5 r = inl t /\
    forall n, (n0 <= n)%nat -> session fmt5 stof n [str l] = ([Success t], AtEof).
Proof.
  intros pw lg pwx lgx N fmt5 stof sane l ts D H Hw HD.
  apply (c80_typed_value double N d_int d_ok (double_ints pw lg pwx lgx) B2R (fun c z H => proj2 H) fmt5 stof sane l ts D); auto.
  unfold d_ok. pose proof (weight_nonneg ts). lia.
Qed.
Print Assumptions c80_doubles.
(** The same for doubles, if pow squares integers exactly. *)
Theorem c81_doubles : forall pw lg lgx, let N := double_ops pw lg (fun _ _ => true) lgx in
  (forall a z, d_int a z -> Z.abs (z * z) <= 2 ^ 53 -> d_int (pw a (d_of 2 0)) (z * z)) ->
  forall fmt5 stof, sane_numbers stof -> forall l ts x D, call_text stof d_int "dd" l ts x -> 1 <= D <= 2 ^ 53 -> exponents_to D ts -> D * weight ts <= 2 ^ 53 ->
  exists r t n0,
    (forall rho, exists v, is_derive (fun s => typed_value (upd rho x s) ts) (rho x) v /\ ev B2R r rho (RtoC v)) /\
    infix fmt5 r = inl t /\ forall n, (n0 <= n)%nat -> session fmt5 stof n [str l] = ([Success t], AtEof).
Proof.
  intros pw lg lgx N Hpw fmt5 stof sane l ts x D H HD He Hw.
  apply (c81_typed_derivative double N d_int d_ok (double_ints pw lg (fun _ _ => true) lgx)) with (D := D); auto.
  - intros a z Ha Hz. split; [now apply Hpw|reflexivity].
  - intros c z Hc. exact (proj2 Hc).
  - lia.
  - unfold d_ok. lia.
  - unfold d_ok. pose proof (weight_nonneg ts). nia.
Qed.
Print Assumptions c81_doubles.

(** x^4+x^3-x^4-x^3, of which nothing is left, and its derivative *)
Lemma nothing_exponents : exponents_to 4 nothing_terms.
Proof. intros x k H. cbn in H. repeat (destruct H as [H|H]; [injection H as _ <-; lia|]). destruct H. Qed.
Lemma nothing_line : line_text q_read q_int (list_ascii_of_string "x^4+x^3-x^4-x^3") nothing_terms.
Proof.
  apply (lt_minus q_read q_int (list_ascii_of_string "x^4+x^3-x^4") (firstn 3 nothing_terms) [] [] (list_ascii_of_string "x^3") (Some ("x", 3), 1));
    try apply blanks_nil; [|apply x_3].
  apply (lt_minus q_read q_int (list_ascii_of_string "x^4+x^3") (firstn 2 nothing_terms) [] [] (list_ascii_of_string "x^4") (Some ("x", 4), 1));
    try apply blanks_nil; [|apply x_4].
  apply (lt_plus q_read q_int (list_ascii_of_string "x^4") (firstn 1 nothing_terms) [] [] (list_ascii_of_string "x^3") (Some ("x", 3), 1));
    try apply blanks_nil; [|apply x_3].
  apply lt_term, x_4.
Qed.
Example c80_case : line_text q_read q_int (list_ascii_of_string "x^4+x^3-x^4-x^3") nothing_terms /\ exponents_to 4 nothing_terms /\
  (forall rho, typed_value rho (firstn 2 nothing_terms) = rho "x"%string ^ 4 + rho "x"%string ^ 3)%R /\
  session q_show q_read 60 ["x^4+x^3-x^4-x^3"] = ([Success "((((x^?)+(x^?))+(-1*(x^?)))+(-1*(x^?)))"], AtEof).
Proof.
  split; [apply nothing_line|]. split; [apply nothing_exponents|]. split.
  - intros rho. unfold typed_value, nothing_terms. cbn [firstn fold_right fst snd].
    change (Z.to_nat 4) with 4%nat. change (Z.to_nat 3) with 3%nat. ring.
  - vm_compute. reflexivity.
Qed.
Example c81_case : call_text q_read q_int "dd" nothing_text nothing_terms "x" /\ exponents_to 4 nothing_terms /\ ~ two_left nothing_terms /\
  exists r t n0,
    (forall rho, exists v, is_derive (fun s => typed_value (upd rho "x" s) nothing_terms) (rho "x") v /\ ev Q2R r rho (RtoC v)) /\
    infix q_show r = inl t /\ forall n, (n0 <= n)%nat -> session q_show q_read n [str nothing_text] = ([Success t], AtEof).
Proof.
  split; [apply nothing_call|]. split; [apply nothing_exponents|]. split.
  - intros (k & j & _ & Hk & _). apply Hk. destruct k as [[y i]|]; [|reflexivity]. cbn -[Z.add Z.mul Z.eqb].
    destruct (String.eqb y "x"), (i =? 4), (i =? 3); reflexivity.
  - apply (c81_typed_derivative Q Q_ops q_int any q_ints q_squares) with (D := 4); auto using nothing_call, nothing_exponents; try exact I; try lia.
    + intros c z Hc. unfold q_int in Hc. rewrite <- Q2R_Z. now apply Qeq_eqR.
    + apply (num_sane inject_Z).
Qed.

(** ** Sessions with typed derivatives and integrals (C61) *)
(** Lines on which no crash is possible: those before, and derivatives and
    integrals of typed polynomials. *)
Inductive harmless_input {num} (N : NumOps num) (lit : num -> Z -> Prop) (ok : Z -> Prop) (top : Z) (stof : string -> option num) : list ascii -> Prop :=
| hi_line l : harmless_line lit ok stof l -> harmless_input N lit ok top stof l
| hi_derivative l ts x : call_text stof lit "dd" l ts x -> lowerable ok ts -> ok (weight ts) -> ok (weight (deriv x ts)) ->
    two_left ts \/ length ts = 1%nat -> harmless_input N lit ok top stof l
| hi_any_derivative l ts x D : call_text stof lit "dd" l ts x -> 1 <= D -> exponents_to D ts -> ok D -> ok (D * weight ts) ->
    harmless_input N lit ok top stof l
| hi_integral l ts x : call_text stof lit "in" l ts x -> ok (weight ts) -> two_left ts -> in_one_variable x top ts -> x <> "C" ->
    harmless_input N lit ok top stof l
| hi_padded b l b' : blanks b -> blanks b' -> harmless_input N lit ok top stof l -> harmless_input N lit ok top stof (b ++ l ++ b').

(** Missing: see C61. *)
Theorem c61_calls_partial : forall (num : Type) (N : NumOps num) lit ok, IntLits N lit ok -> signs N lit -> squares N lit ok ->
  forall top, ok top -> Reciprocals N lit top ->
  forall fmt5 stof, sane_numbers stof ->
  forall lines, List.Forall (harmless_input N lit ok top stof) lines ->
  exists n0, forall n, (n0 <= n)%nat -> forall o, snd (session fmt5 stof n (map str lines)) <> Crashed o.
Proof.
  intros num N lit ok IL SG SQ top Hok RC fmt5 stof sane lines H.
  assert (One : forall l, harmless_input N lit ok top stof l -> exists n0, forall n, (n0 <= n)%nat -> forall o,
     snd (session fmt5 stof n [str l]) <> Crashed o).
  { intros l Hl. induction Hl as [l Hl|l ts x Hc Hk Hw Hd H2|l ts x D Hc D1 HD HoD Hw|l ts x Hc Hw H2 Hv Hx|b l b' Hb Hb' _ (n0 & IH)].
    - apply (c61_products_partial num N lit ok IL SG fmt5 stof sane [l]). constructor; [exact Hl|constructor].
    - destruct (c78_typed_partial num N lit ok IL SQ fmt5 stof sane l ts x Hc Hk Hw Hd H2) as (r & tr & t & n0 & _ & _ & _ & _ & A).
      exists n0. intros n L o. rewrite (A n L). discriminate.
    - destruct (dd_answer lit ok IL SQ fmt5 stof sane l ts x D Hc D1 HD HoD Hw) as (r & tr & t & n0 & _ & _ & _ & _ & A).
      exists n0. intros n L o. rewrite (A n L). discriminate.
    - destruct (c79_typed_partial num N lit ok IL top Hok RC fmt5 stof sane l ts x Hc Hw H2 Hv Hx) as (ls & li & kept & lost & r & t & n0 & _ & _ & _ & _ & _ & _ & A).
      exists n0. intros n L o. rewrite (A n L). discriminate.
    - exists n0. intros n L o. pose proof (proj1 (proj2 (c60_lines fmt5 stof n)) b b' l Hb Hb') as E. rewrite E. now apply IH. }
  induction H as [|l lines Hl Hls (n1 & IH)]; [exists 0%nat; intros; discriminate|].
  destruct (One l Hl) as (n0 & A). exists (n0 + n1)%nat. intros n L o. cbn [map].
  pose proof (proj1 (c60_lines fmt5 stof n) [str l] (map str lines)) as E. cbn [app] in E. rewrite E.
  specialize (A n ltac:(lia)). specialize (IH n ltac:(lia) o).
  destruct (session fmt5 stof n [str l]) as [out [| |o']]; [exact IH|discriminate|]. now destruct (A o').
Qed.
Print Assumptions c61_calls_partial.
Example c61_calls_case : List.Forall (harmless_input Q_ops q_int any (2 ^ 22) q_read) [typed_product; dd_text; nothing_text; in_text; list_ascii_of_string "exit"].
Proof.
  destruct c78_case as (Hd & H2 & _). destruct c79_case as (Hi & _ & Hv & _). repeat apply List.Forall_cons; [| | | | |apply List.Forall_nil].
  - apply hi_line. eapply hm_product; [apply typed_product_text|intros; exact I|apply typed_steady].
  - eapply hi_derivative; [exact Hd|intros y k _; exact I|exact I|exact I|now left].
  - eapply (hi_any_derivative _ _ _ _ _ _ _ _ 4); [exact nothing_call|lia|exact nothing_exponents|exact I|exact I].
  - eapply hi_integral; [exact Hi|exact I|exact H2|exact Hv|discriminate].
  - apply hi_line, hm_line, hl_exit.
Qed.
