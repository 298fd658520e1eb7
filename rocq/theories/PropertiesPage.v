(** Property C101: what the chain of JavaScript functions shows for a typed polynomial. *)
From Coq Require Import String Ascii Bool Arith ZArith QArith Reals Lia.
From Coquelicot Require Import Coquelicot.
From Flocq Require Import Core BinarySingleNaN.
From Coq Require Import List.
From Verif Require Import Base Num Expr Ghost Simplify Calculus InFixSer FromInFix SpecMarkup MathMLSer Frontends XmlText
  Spec SpecText SpecPoly SpecLine SpecTyped SpecValue SpecInput SpecNumeral SpecXml QNum TreeProofs MonadProofs FuelProofs InFixProofs PolyProofs PolySem PolyDiff PolyDiffSem DoubleNum Numerals NumeralProofs LineProofs
  MathMLProofs XmlProofs PropertiesSimplify PropertiesPoly PropertiesInFix PropertiesSafety PropertiesFrontends PropertiesXml PropertiesNumeral PropertiesDecimal PropertiesTyped PropertiesTypedCalculus PropertiesTypedValue PropertiesInput.
Import ListNotations.
Open Scope string_scope.
Open Scope list_scope.

(** ToMathMLString(Simplify(FromInFix(PreProcessInFix(s)))), the text;
    bindings/js/src/bindings.cpp:39-50 exports the four functions. *)
Definition page_text {num} {N : NumOps num} (fmt5 fmt17 : num -> string) (stof : string -> option num) (n : nat) (s : string) : outcome string :=
  match js_from_infix stof (preprocess s) with
  | Ok p => match js_simplify n p with
            | Ok q => js_mathml_string fmt5 fmt17 q
            | o => crash o
            end
  | o => crash o
  end.

Section Page.
  Context {num : Type} {N : NumOps num}.
  Notation E := (expr num).
  Lemma names_mentions (P : string -> Prop) (e : E) : names P e <-> forall x, mentions_var x e -> P x.
  Proof.
    induction e as [c| |y| | | |r c d|o a IHa b IHb|o a IHa]; cbn.
    1,2,4-7: split; [intros _ x []|trivial].
    - split; [now intros H x ->|auto].
    - rewrite IHa, IHb. split; [intros [H1 H2] x [H|H]; auto|auto].
    - exact IHa.
  Qed.

  (** The variables of a list of terms. *)
  Definition in_terms (x : string) (ts : list monomial) : Prop := exists k z, In (Some (x, k), z) ts.
  Lemma in_terms_app x ts ts' : in_terms x ts \/ in_terms x ts' -> in_terms x (ts ++ ts').
  Proof. intros [(k & z & H)|(k & z & H)]; exists k, z; apply in_or_app; auto. Qed.
  Lemma in_terms_scale x z ts : in_terms x ts -> in_terms x (scale z ts).
  Proof. intros (k & w & H). exists k, (z * w)%Z. apply (in_map (fun t => (fst t, z * snd t)%Z)) in H. exact H. Qed.
  Lemma in_terms_unscale x z ts : in_terms x (scale z ts) -> in_terms x ts.
  Proof. intros (k & w & H). apply in_map_iff in H. destruct H as ([m c] & K & H). cbn in K. injection K as -> _. exists k, c. exact H. Qed.

  Lemma power_mentions lit (e : E) x k : power lit e x k -> no_integral e /\ forall y, mentions_var y e -> y = x.
  Proof. intros [y|y c j _ _ _]; cbn; split; repeat split; try discriminate; try tauto; intros y0 [H|[]]; exact H. Qed.
  Lemma term_mentions lit post (e : E) t : term lit post e t -> no_integral e /\ forall y, mentions_var y e -> in_terms y [t].
  Proof.
    intros [c z _|e' x k H|c z e' x k m _ H Hm].
    - split; [unfold no_integral; cbn; repeat split; discriminate|intros y []].
    - destruct (power_mentions _ _ _ _ H) as [H1 H2]. split; [exact H1|]. intros y Hy. rewrite (H2 y Hy). exists k, 1%Z. now left.
    - destruct (power_mentions _ _ _ _ H) as [H1 H2].
      destruct Hm as [|_ _]; (split; [unfold no_integral in *; cbn; repeat split; try discriminate; assumption|]);
        intros y [Hy|Hy]; try destruct Hy; rewrite (H2 y Hy); exists k, z; now left.
  Qed.
  Lemma poly_mentions lit ok prefer post (e : E) ts : poly lit ok prefer post e ts -> no_integral e /\ forall y, mentions_var y e -> in_terms y ts.
  Proof.
    induction 1 as [post e t H|e ts H IH|post a b ta tb Ha [IHa1 IHa2] Hb [IHb1 IHb2] _|post a b ta tb Ha [IHa1 IHa2] Hb [IHb1 IHb2] _ _|a ta Ha [IH1 IH2]|c z a ta _ _ _ _ Ha [IH1 IH2]].
    - now apply (term_mentions lit post).
    - exact IH.
    - split; [unfold no_integral in *; cbn; repeat split; try discriminate; assumption|]. intros y [Hy|Hy]; apply in_terms_app; auto.
    - split; [unfold no_integral in *; cbn; repeat split; try discriminate; assumption|]. intros y [Hy|Hy]; apply in_terms_app; [left|right; apply in_terms_scale]; auto.
    - split; [unfold no_integral in *; cbn; repeat split; try discriminate; assumption|]. intros y Hy. apply in_terms_scale. auto.
    - split; [unfold no_integral in *; cbn; repeat split; try discriminate; assumption|]. intros y [[]|Hy]. apply in_terms_scale. auto.
  Qed.

  Variable stof : string -> option num.
  Variable lit : num -> Z -> Prop.
  Lemma letter_xml c : letter c -> xml_text (String c "").
  Proof.
    intros H. unfold xml_text. cbn. unfold xml_char. destruct (Nat.leb_spec 32 (nat_of_ascii c)); [reflexivity|].
    destruct H; exfalso; lia.
  Qed.
  Lemma power_letter l x k : power_text stof lit l x k -> xml_text x.
  Proof. intros [c [H _]|c l' j [H _] _ _ _]; now apply letter_xml. Qed.
  Lemma line_names l ts : line_text stof lit l ts -> forall x, in_terms x ts -> xml_text x.
  Proof.
    assert (T : forall l t, term_text stof lit l t -> forall x, in_terms x [t] -> xml_text x).
    { intros l0 t [l1 z _|l1 y k H|l1 z p y k _ H|l1 z p y k _ H] x (j & w & [K|[]]); try discriminate; injection K as <- _ _; eapply power_letter; exact H. }
    assert (A : forall x ts ts', in_terms x (ts ++ ts') -> in_terms x ts \/ in_terms x ts').
    { intros x a b (k & z & H). apply in_app_or in H. destruct H as [H|H]; [left|right]; exists k, z; exact H. }
    induction 1 as [l t H|l ts b b' l' t H IH _ _ Ht|l ts b b' l' t H IH _ _ Ht]; intros x Hx.
    - exact (T l t H x Hx).
    - destruct (A _ _ _ Hx) as [K|K]; [now apply IH|exact (T _ _ Ht x K)].
    - destruct (A _ _ _ Hx) as [K|K]; [now apply IH|exact (T _ _ Ht x (in_terms_unscale _ _ _ K))].
  Qed.
End Page.

(** ** C101: A polynomial given to the page is shown with like terms combined *)

(** For every text that means [e]: if Simplify answers [r], a document is shown
    that says what the MathML elements of [r] say. *)
Theorem c101_text : forall (num : Type) (N : NumOps num) fmt5 fmt17 stof, sane_numbers stof ->
  (forall c, xml_text (fmt5 c)) -> (forall c, xml_text (fmt17 c)) ->
  forall l ts e n r, means stof l ts e -> clear ts -> snd (simp n false e) = Ok r -> names xml_text r ->
  exists d, page_text fmt5 fmt17 stof n (str l) = Ok d /\ document d = Some (content (mathml fmt5 fmt17 r)).
Proof.
  intros num N fmt5 fmt17 stof sane X5 X17 l ts e n r M C Hr Hn.
  destruct (c92_document num N fmt5 fmt17 r Hn) as (d & Hd & D).
  { clear Hn Hr. induction r; cbn [literals]; auto. }
  { clear Hn Hr. induction r; cbn [matrices]; auto. apply List.Forall_forall. auto. }
  exists d. split; [|exact D]. unfold page_text, js_from_infix. rewrite (c82_reads_partial num stof sane l ts e M C). cbn [snd ret js_simplify].
  rewrite Hr. exact Hd.
Qed.
Print Assumptions c101_text.

(** For every typed polynomial a document is shown; it shows an expression with
    the value of the polynomial, and, if two or more terms are left, the
    combined terms. *)
Theorem c101_polynomials : forall (num : Type) (N : NumOps num) lit ok, IntLits N lit ok ->
  forall toR, (forall c z, lit c z -> toR c = IZR z) ->
  forall fmt5 fmt17 stof, sane_numbers stof -> (forall c, xml_text (fmt5 c)) -> (forall c, xml_text (fmt17 c)) ->
  forall l ts D, line_text stof lit l ts -> ok (weight ts) -> exponents_to D ts ->
  exists r d n0, (forall rho, ev toR r rho (RtoC (typed_value rho ts))) /\
    (two_left ts -> exists ls, tree_over OAdd (Nat.log2_up (length ls)) ls r /\ combined lit ls ts) /\
    document d = Some (content (mathml fmt5 fmt17 r)) /\
    forall n, (n0 <= n)%nat -> page_text fmt5 fmt17 stof n (str l) = Ok d.
Proof.
  intros num N lit ok IL toR HR fmt5 fmt17 stof sane X5 X17 l ts D H Hw HD.
  destruct (line_parsed stof lit sane ok false (str l) ts) as (e & He & Pe).
  { now rewrite list_ascii_of_string_of_list_ascii. }
  destruct (poly_plain lit ok IL false false e ts He Hw) as (r & tr & Y & P & T & K). destruct (yields_always _ _ _ Y) as (n0 & Hn).
  destruct (poly_mentions lit ok false false e ts He) as [He1 He2].
  assert (Hx : names xml_text r).
  { apply names_mentions. intros x Hx. apply (line_names stof lit l ts H x). apply He2.
    apply (c17_no_new_variables num N n0 false e r x He1); [|exact Hx]. now rewrite (Hn n0 (Nat.le_refl _)). }
  destruct (c92_document num N fmt5 fmt17 r Hx) as (d & Hd & Dd).
  { clear - X5. induction r; cbn [literals]; auto. }
  { clear - X17. induction r; cbn [matrices]; auto. apply List.Forall_forall. auto. }
  exists r, d, n0. split; [|split; [|split; [exact Dd|]]].
  - intros rho. rewrite (typed_rsum D rho ts HD), <- (csum_rsum rho ts (exponents_kok D rho ts HD)), <- (csum_totals rho tr ts T).
    apply (ev_plain lit toR HR rho false r tr P). intros p Hp. now apply (exponents_kok D rho ts HD), K.
  - intros H2. destruct (c58_like_terms_partial num N lit ok IL false false e ts He Hw H2) as (ls & r' & Y' & B & Cb).
    assert (r' = r) by (eapply always_fun; [exact Y'|now exists n0]). subst r'. now exists ls.
  - intros n L. unfold page_text, js_from_infix. rewrite Pe. cbn [snd ret js_simplify]. rewrite (Hn n L). exact Hd.
Qed.
Print Assumptions c101_polynomials.

(** For IEEE doubles, with the machine's formats. *)
Theorem c101_doubles : forall pw lg pwx lgx, let N := double_ops pw lg pwx lgx in
  forall stof, sane_numbers stof -> forall l ts D, line_text stof d_int l ts -> (weight ts <= 2 ^ 53)%Z -> exponents_to D ts ->
  exists r d n0, (forall rho, ev B2R r rho (RtoC (typed_value rho ts))) /\
    (two_left ts -> exists ls, tree_over OAdd (Nat.log2_up (length ls)) ls r /\ combined d_int ls ts) /\
    document d = Some (content (mathml fmt5 (format_g 17) r)) /\
    forall n, (n0 <= n)%nat -> page_text fmt5 (format_g 17) stof n (str l) = Ok d.
Proof.
  intros pw lg pwx lgx N stof sane l ts D H Hw HD.
  apply (c101_polynomials double N d_int d_ok (double_ints pw lg pwx lgx) B2R (fun c z H => proj2 H) fmt5 (format_g 17) stof sane (format_xml 5) (format_xml 17) l ts D); auto.
  unfold d_ok. pose proof (weight_nonneg ts). lia.
Qed.
Print Assumptions c101_doubles.

(** 3x + y^2-x is shown as the document of 2x + y^2. *)
Example c101_case : line_text q_read q_int typed typed_terms /\ two_left typed_terms /\ exponents_to 2 typed_terms /\
  (forall c, xml_text (q_show c)) /\
  exists d, page_text q_show q_show q_read 30 (str typed) = Ok d /\ exists i, document d = Some i.
Proof.
  split; [apply typed_line|]. split; [apply c62_case|]. split; [|split].
  - intros x k K. cbn in K. repeat (destruct K as [K|K]; [injection K as <- <-; lia|]). destruct K.
  - intros c. unfold q_show. repeat destruct (Qeq_bool _ _); repeat constructor; discriminate.
  - eexists. split; [vm_compute; reflexivity|]. eexists. vm_compute. reflexivity.
Qed.
