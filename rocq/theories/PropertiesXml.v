(** Properties C92 and C93: the text of a MathML document. *)
From Coq Require Import String Ascii Bool Arith ZArith QArith Lia.
From Flocq Require Import Core BinarySingleNaN.
From Coq Require Import List.
From Verif Require Import Base Num Expr MathMLSer Frontends XmlText Spec SpecMarkup SpecText SpecNumeral SpecXml QNum DoubleNum Numerals NumeralProofs
  MathMLProofs XmlProofs PropertiesMathML PropertiesNumeral PropertiesDecimal.
Import ListNotations.
Open Scope string_scope.
Open Scope list_scope.
Open Scope nat_scope.

(** ** C92: The MathML text of an expression is well-formed and says what the
    elements say *)

Theorem c92_document :
  forall (num : Type) (N : NumOps num) (fmt5 fmt17 : num -> string) (e : expr num),
    names xml_text e -> literals (fun c => xml_text (fmt5 c)) e ->
    matrices (fun _ _ d => List.Forall (fun c => xml_text (fmt17 c)) d) e ->
    exists s, js_mathml_string fmt5 fmt17 (Some e) = Ok s /\ document s = Some (content (mathml fmt5 fmt17 e)).
Proof.
  intros num N fmt5 fmt17 e H1 H2 H3. eexists. split; [reflexivity|]. apply xml_string_document.
  apply (mathml_printable fmt5 fmt17 (size e) e (le_n _)). repeat split; assumption.
Qed.
Print Assumptions c92_document.

(** So the text tells two expressions apart as far as the elements do (C57). *)
Theorem c92_determines :
  forall (num : Type) (N : NumOps num) (fmt5 fmt17 : num -> string) (P5 P17 : num -> Prop) (e f : expr num),
    told_apart fmt5 P5 -> told_apart fmt17 P17 -> distinct P5 P17 e -> distinct P5 P17 f ->
    (forall c, xml_text (fmt5 c)) -> (forall c, xml_text (fmt17 c)) -> names xml_text e -> names xml_text f ->
    (js_mathml_string fmt5 fmt17 (Some e) = js_mathml_string fmt5 fmt17 (Some f) <-> regroup (SpecMarkup.blank e) (SpecMarkup.blank f)).
Proof.
  intros num N fmt5 fmt17 P5 P17 e f T5 T17 De Df X5 X17 Ne Nf.
  assert (K : forall g : expr num, names xml_text g -> holdable fmt5 fmt17 g).
  { intros g Hg. split; [exact Hg|]. clear Hg. split; induction g; cbn [literals matrices]; auto. now apply List.Forall_forall. }
  rewrite <- (c57_exact num N fmt5 fmt17 P5 P17 e f T5 T17 De Df). split; [|intros E; unfold js_mathml_string, js_mathml; now rewrite E].
  intros E. assert (E' : xml_string (mathml fmt5 fmt17 e) = xml_string (mathml fmt5 fmt17 f)) by (cbn in E; congruence).
  assert (Pe := mathml_printable fmt5 fmt17 (size e) e (le_n _) (K e Ne)).
  assert (Pf := mathml_printable fmt5 fmt17 (size f) f (le_n _) (K f Nf)).
  apply content_eq; [exact Pe|exact Pf|]. apply xml_string_document in Pe, Pf. congruence.
Qed.
Print Assumptions c92_determines.

(** The machine's numbers always have such texts. *)
Lemma format_xml p x : xml_text (format_g p x).
Proof.
  unfold xml_text. rewrite forallb_forall. intros c Hc. apply format_chars in Hc. destruct Hc as [H|H].
  - unfold SpecLine.digit in H. unfold xml_char. apply orb_true_intro. left. apply orb_true_intro. left. apply Nat.leb_le. lia.
  - cbn in H. repeat (destruct H as [<-|H]; [reflexivity|]). destruct H.
Qed.
Theorem c92_doubles : forall (N : NumOps double) (e : expr double), names xml_text e ->
  exists s, js_mathml_string fmt5 (format_g 17) (Some e) = Ok s /\ document s = Some (content (mathml fmt5 (format_g 17) e)).
Proof.
  intros N e H. apply c92_document; [exact H| |]; clear H; induction e; cbn [literals matrices]; auto.
  - apply format_xml.
  - apply List.Forall_forall. intros c _. apply format_xml.
Qed.
Print Assumptions c92_doubles.

Theorem c92_apart : forall pw lg pwx lgx, let N := double_ops pw lg pwx lgx in
  forall emin prec, In (emin, prec) [(-1074, 53)%Z; (-149, 24)%Z] ->
  forall e f : expr double, distinct (typable emin prec) (fun x => is_finite x = true) e ->
  distinct (typable emin prec) (fun x => is_finite x = true) f -> names xml_text e -> names xml_text f ->
  (js_mathml_string fmt5 (format_g 17) (Some e) = js_mathml_string fmt5 (format_g 17) (Some f) <->
   regroup (SpecMarkup.blank e) (SpecMarkup.blank f)).
Proof.
  intros pw lg pwx lgx N emin prec H e f De Df Ne Nf. apply (c92_determines double N _ _ (typable emin prec) (fun x => is_finite x = true)); auto.
  - apply typable_apart. destruct H as [H|[H|[]]]; injection H as <- <-; lia.
  - exact c87_seventeen.
  - intros c. apply format_xml.
  - intros c. apply format_xml.
Qed.
Print Assumptions c92_apart.

Definition c92_e : expr Q := EMul (EReal 2%Q) (EAdd (EVar "<a&b>") (ESine EPi)).
Definition c92_text : string :=
  let nl := String (ascii_of_nat 10) "" in
  "<mrow>" ++ nl ++ "    <mn>2</mn>" ++ nl ++ "    <mo>(</mo>" ++ nl ++ "    <mrow>" ++ nl ++ "        <mi>&lt;a&amp;b&gt;</mi>" ++ nl ++
  "        <mo>+</mo>" ++ nl ++ "        <mrow/>" ++ nl ++ "    </mrow>" ++ nl ++ "    <mo>)</mo>" ++ nl ++ "</mrow>" ++ nl.
Example c92_case : names xml_text c92_e /\ js_mathml_string fmt_two fmt_two (Some c92_e) = Ok c92_text /\
  document c92_text = Some (content (mathml fmt_two fmt_two c92_e)).
Proof. split; [|split]; [cbn; repeat split|vm_compute; reflexivity|vm_compute; reflexivity]. Qed.
(** Texts that are not documents. *)
Example c92_not : document "<mi>a<b</mi>" = None /\ document "<mi>&pi;</mi>" = None /\ document "<mi>x</mo>" = None /\ document "<mi>x" = None /\
  document "<mrow></mrow><mrow/>" = None.
Proof. repeat split. Qed.
(** Control characters are printed as they are, which is not XML. *)
Example c92_control : ~ xml_text (String (ascii_of_nat 1) "") /\
  document (xml_string (mathml fmt_two fmt_two (EVar (String (ascii_of_nat 1) "")))) = None.
Proof. split; [discriminate|reflexivity]. Qed.

(** ** C93: Pi and integrals are shown with their signs *)

Definition C93_statement : Prop :=
  forall (num : Type) (N : NumOps num) (fmt5 fmt17 : num -> string),
    (forall s d, js_mathml_string fmt5 fmt17 (Some EPi) = Ok s -> document s = Some d -> shown d = pi_sign) /\
    (forall (a b : expr num) s d, js_mathml_string fmt5 fmt17 (Some (EInt a b)) = Ok s -> document s = Some d ->
       exists l, shown d = int_sign ++ l).

(** The serializer writes references to entities into the text of elements, where
    tinyxml2 escapes the ampersand. *)
Theorem c93_refuted : ~ C93_statement.
Proof.
  intros S. destruct (S Q Q_ops fmt_two fmt_two) as [S1 _].
  specialize (S1 _ (IElem "mi" (map IChar (list_ascii_of_string "&pi;"))) eq_refl eq_refl). discriminate S1.
Qed.
Print Assumptions c93_refuted.

(** What is shown instead: the name of the entity, for pi and for every
    integral. *)
Theorem c93_names_partial :
  forall (num : Type) (N : NumOps num) (fmt5 fmt17 : num -> string),
    (exists s d, js_mathml_string fmt5 fmt17 (Some EPi) = Ok s /\ document s = Some d /\ shown d = list_ascii_of_string "&pi;") /\
    (forall a b : expr num, names xml_text (EInt a b) -> (forall c, xml_text (fmt5 c)) -> (forall c, xml_text (fmt17 c)) ->
       exists s d da db, js_mathml_string fmt5 fmt17 (Some (EInt a b)) = Ok s /\ document s = Some d /\
         da = content (mathml fmt5 fmt17 a) /\ db = content (mathml fmt5 fmt17 b) /\
         shown d = list_ascii_of_string "&int;" ++ shown da ++ "d"%char :: shown db).
Proof.
  intros num N fmt5 fmt17. split.
  - do 2 eexists. split; [reflexivity|]. split; reflexivity.
  - intros a b Hn X5 X17.
    assert (L : forall g : expr num, literals (fun c => xml_text (fmt5 c)) g) by (induction g; cbn [literals]; auto).
    assert (M : forall g : expr num, matrices (fun _ _ d => List.Forall (fun c => xml_text (fmt17 c)) d) g).
    { induction g; cbn [matrices]; auto. apply List.Forall_forall. intros c _. apply X17. }
    destruct (c92_document num N fmt5 fmt17 (EInt a b) Hn (L _) (M _)) as (s & E & D).
    exists s, (content (mathml fmt5 fmt17 (EInt a b))), (content (mathml fmt5 fmt17 a)), (content (mathml fmt5 fmt17 b)).
    split; [exact E|]. split; [exact D|]. split; [reflexivity|]. split; [reflexivity|].
    rewrite mathml_bin by discriminate. cbn [bin_xml mrow content map shown flat_map]. cbn. now rewrite !app_nil_r.
Qed.
Print Assumptions c93_names_partial.
Example c93_case : names xml_text (EInt (EVar "x" : expr Q) (EVar "x")) /\
  exists s d, js_mathml_string fmt_two fmt_two (Some (EInt (EVar "x") (EVar "x"))) = Ok s /\ document s = Some d /\ string_of_list_ascii (shown d) = "&int;xdx".
Proof. split; [cbn; repeat split|]. do 2 eexists. split; [reflexivity|]. split; vm_compute; reflexivity. Qed.
